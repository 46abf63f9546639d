-Q theories Verif
theories/ScriptNum.v
theories/ScriptVM.v
theories/VMLemmas.v
theories/U32Model.v
theories/U32Proofs.v
theories/U32Proofs2.v
theories/U32Rot.v
theories/Macros.v
theories/U31Model.v
theories/U31Proofs.v
theories/Lift.v
theories/PropWords.v
theories/HelperModel.v
theories/HelperProofs.v
theories/HelperRou.v
theories/SubGroup.v
theories/PropHelper.v
theories/WinternitzModel.v
theories/WinternitzProofs.v
theories/WinternitzSpec.v
theories/PropSign.v
theories/ChallengerModel.v
theories/ChallengerProofs.v
theories/PropChallenger.v
theories/TranscriptSpec.v
theories/PropTranscript.v
theories/Blake3Spec.v
theories/Blake3Model.v
theories/Blake3Proofs.v
theories/Blake3Proofs2.v
theories/Blake3Proofs3.v
theories/Blake3Proofs4.v
theories/PropBlake.v
theories/TaptreeModel.v
theories/TaptreeProofs.v
theories/PropTaptree.v
theories/TcsModel.v
theories/TcsProofs.v
theories/TcsProofs2.v
theories/PropTcs.v
theories/PropTcsKeys.v
theories/Field.v
theories/BabyBear.v
theories/FriModel.v
theories/FriProofs.v
theories/FriProofs2.v
theories/FriInst.v
theories/PropFri.v
theories/PcsModel.v
theories/PolyExt.v
theories/PcsProofs.v
theories/PcsProofs2.v
theories/PcsInst.v
theories/PropPcs.v
theories/StarkModel.v
theories/StarkPoly.v
theories/StarkProofs.v
theories/StarkProofs2.v
theories/PropStark.v
theories/DslModel.v
theories/DslStack.v
theories/DslSpec.v
theories/DslProofs.v
theories/DslDag.v
theories/DslMain.v
theories/DslOpSpec.v
theories/DslOps.v
theories/DslGadgets.v
theories/DslBuild.v
theories/DslIds.v
theories/DslDenote.v
theories/PropDsl.v
theories/DslConc.v
theories/PropConc.v
theories/DslManager.v
theories/DslSession.v
theories/PropManager.v
theories/DslWork.v
theories/DslAccept.v
theories/FriExprModel.v
theories/FriExprProofs.v
theories/FriExprQuery.v
theories/PropFriExpr.v
theories/StarkExprModel.v
theories/PropStarkExpr.v
theories/ChalExprModel.v
theories/ChalExprGraph.v
theories/ChalExprProofs.v
theories/ChalExprState.v
theories/ChalExprRun.v
theories/ChalExprSync.v
theories/ChalExprFri.v
theories/ChalExprStark.v
theories/PropChalExpr.v
theories/OpenExprModel.v
theories/OpenExprProofs.v
theories/PropOpenExpr.v
theories/ConsExprModel.v
theories/ConsExprProofs.v
theories/PropConsExpr.v
theories/GenModel.v
theories/GenProofs.v
theories/PropGen.v
theories/StackModel.v
theories/StackProofs.v
theories/StackScripts.v
theories/PropStack.v
theories/UtilsModel.v
theories/PropUtils.v
theories/RunDslModel.v
theories/PropRunDsl.v
theories/SecretModel.v
theories/PropSecret.v
theories/VarModel.v
theories/PropVar.v
theories/ProgModel.v
theories/PropProg.v
theories/PropReuse.v
theories/TcsMultiModel.v
theories/PropTcsMulti.v
theories/FibModel.v
theories/PropFib.v
theories/FibScript.v
theories/PropFibScript.v
theories/DslLimitModel.v
theories/PropDslLimit.v
theories/DslPeak.v
theories/PropDslFits.v
theories/ScriptBytes.v
theories/PropBytes.v
theories/PropBytesSize.v
theories/PropFold.v
theories/PropSound.v
theories/PropDeep.v
theories/PropQuery.v
theories/PropEnd.v
theories/PropConsNew.v
theories/PropEquiv.v
theories/PropShift.v
theories/PropBitPos.v
theories/PropPanics.v
theories/PropLeafIndex.v
