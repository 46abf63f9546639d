# Formal model of bitlayer-org/tap-stark

Rocq/Coq 8.16.1, everything under `rocq/theories`. The code in /repo was read as
text; it was neither built nor run. `properties.jsonl` lists the properties,
`MANIFEST.json` maps each to theorem names, `seeded/LOG.jsonl` records wrong
versions of the model the theorems were tried against.

## Conventions

* `*Model.v` (and `DslBuild.v`, `DslManager.v`, `Field.v`, `BabyBear.v`,
  `ScriptNum.v`, `ScriptVM.v`) hold the model: small total functions, one per Rust
  function, each with a comment citing file and lines. Panics are `None` (or
  `Panic` where a function can also return an error); simplifications are stated in
  the comment.
* `*Spec.v` hold descriptions written independently of the model (transcripts as
  hash chains, BLAKE3 from the paper, digits of a Winternitz message, meaning of
  expressions).
* `Prop*.v` hold the property theorems, named `Cxx_…`, and `Example Cxx_…` beside
  them showing that the hypotheses can be met by a non-trivial case. A theorem
  ending in `_refuted` gives a witness against something a user would expect; the
  claim it refutes stands in the comment above it. The property's statement in
  `properties.jsonl` says what does and what does not hold.
* The other files hold lemmas.

## How each area is modelled

* **Script machine.** Stack elements are byte strings, numbers little-endian
  sign-magnitude in minimal encoding with operands of at most 4 bytes, MINIMALIF.
  The limit of 1000 elements is not part of this machine; `StackModel.v` runs the same
  machine under a limit (C77, C78). Flat opcode lists with a stack of conditions. Hash opcodes
  call an arbitrary function. `ScriptBytes.v` adds the bytes of a script, the limit of 520 bytes per
  element and OP_SUCCESS (C91). Script generators are Gallina functions that mirror
  the `script!` macros opcode by opcode; theorems are about running what they
  generate on the byte machine (`Lift.v`), for all stacks below.
* **Fields.** `Field.v` is an interface for two-adic fields; BabyBear and its
  extension of degree 4 are constructed in `BabyBear.v` with all laws proved
  (primality included), so nothing about them is assumed.
* **Hashes.** SHA256, HASH160, tagged hashes and, in the challenger, the permutation
  are arbitrary functions. BLAKE3 is specified from the paper; the script version is
  proved equal to it, and `PropTranscript.v`/`PropChalExpr.v` use it concretely.
  Binding statements produce an explicit collision instead of assuming there is none.
* **Commitments.** The tap tree is modelled with its real Merkle branches and the
  sorting of siblings. Bit commitments are an interface (`bc_contract`), met by the
  repository's Winternitz commitments (`C31_contract_winternitz`).
* **FRI, PCS, STARK.** Prover and verifier as functions over interfaces for the
  commitment scheme and the challenger; `FriInst.v`, `PcsInst.v` instantiate them with
  the repository's tap tree scheme and BLAKE3 challenger and show the contracts are met.
  Completeness goes through polynomials as coefficient lists.
* **Expressions.** DAGs of nodes with identities; script generation with the caching
  of shared nodes and the stack tracker; a value semantics without stacks or caching;
  managers with inputs, hints and embedded checks. On top of these the script-side
  verifiers (FRI queries, reduced openings, quotient, selectors, challenger) are
  compared with the native ones. The field scripts of the external crate
  `rust_bitcoin_u31_or_u30` enter the expression layer as a record `gadgets` with a
  contract (`gadgets_ok`); `DslGadgets.v` builds scripts that meet it.

## Files

* `ScriptNum.v` — Bitcoin script numbers.
* `ScriptVM.v` — A model of the Bitcoin Script interpreter restricted to the opcodes that the scripts of the repository emit.
* `VMLemmas.v` — General facts about the script machine and the symbolic-execution tactics used by the gadget proofs.
* `U32Model.v` — Script generators of the [scripts] crate: stack macros and 32-bit words.
* `U32Proofs.v` — Proofs about the stack macros and the 32-bit word scripts.
* `U32Proofs2.v` — Proofs about the 32-bit word scripts: comparison, packing, rotation.
* `U32Rot.v` — Right rotation of 32-bit words.
* `Macros.v` — Stack macros: four-item macros, OP_NDUP, push_to_stack.
* `U31Model.v` — Scripts for arithmetic in the 31-bit field.
* `U31Proofs.v` — Correctness of the 31-bit field scripts.
* `Lift.v` — From the proof machine to the byte machine.
* `PropWords.v` — Properties C01-C08 and C17: stack macros, 32-bit words and 31-bit field scripts, stated on the byte machine.
* `HelperModel.v` — Script generators of /repo/script_expr/src/script_helper.rs and the extension-field scripts of /repo/scripts/src/u31_ext/mod.rs.
* `HelperProofs.v` — Correctness of the bit-manipulation scripts of script_helper.rs.
* `HelperRou.v` — Correctness of index_to_rou, value_exp_n and the extension-field scripts.
* `SubGroup.v` — The two-adic subgroups of BabyBear: /repo/basic/src/field/mod.rs:13-30.
* `PropHelper.v` — Properties C15, C16, C54, C55: bit manipulation, roots of unity, extension field scripts, stated on the byte machine.
* `WinternitzModel.v` — Winternitz one-time signatures and bit commitments: /repo/scripts/src/bit_comm/{winternitz,bit_comm_u32,bit_comm}.rs.
* `WinternitzProofs.v` — Winternitz check script: exact behaviour, completeness, soundness.
* `WinternitzSpec.v` — Winternitz: the digits that are signed, and the exact behaviour of the check script in terms of them.
* `PropSign.v` — Properties C09-C12, C56: Winternitz signatures and bit commitments, stated on the byte machine for an arbitrary hash function.
* `ChallengerModel.v` — Fiat-Shamir challenger: basic/src/challenger/{mod,chan_field}.rs.
* `ChallengerProofs.v` — Invariants of the challenger.
* `PropChallenger.v` — Properties of the native challenger (C18-C22, C24, C57, C58).
* `TranscriptSpec.v` — Independent description of the transcript as a hash chain, and the proof that the challenger with [Blake3Permutation] implements it.
* `PropTranscript.v` — Transcript properties of the challenger with Blake3 (C19, C20, C22, C24, C57, C58).
* `Blake3Spec.v` — BLAKE3 for messages of one chunk (at most 1024 bytes), written from the BLAKE3 paper (sections 2.1-2.4), independent of the scripts.
* `Blake3Model.v` — scripts/src/hashes/blake3.rs, function by function.
* `Blake3Proofs.v` — The script compression function computes BLAKE3's.
* `Blake3Proofs2.v` — From the compression function to the hash scripts.
* `Blake3Proofs3.v` — The hash scripts.
* `Blake3Proofs4.v` — Comparing a digest on the stack with a pushed one.
* `PropBlake.v` — Properties C13, C14 and C59: the BLAKE3 scripts, stated on the byte machine.
* `TaptreeModel.v` — basic/src/tcs/builder.rs and complete_taptree.rs, function by function.
* `TaptreeProofs.v` — Invariants of the tap tree model.
* `PropTaptree.v` — Properties C25-C29: the tap tree.
* `TcsModel.v` — basic/src/tcs/mod.rs (the taptree commitment scheme) and basic/src/mmcs/taptree_mmcs.rs, function by function.
* `TcsProofs.v` — Proofs about the commitment scheme: padding, commitment, opening and verification.
* `TcsProofs2.v` — Leaf scripts, commitment, opening and verification.
* `PropTcs.v` — Properties C30, C31, C60 and C61: matrices committed in a tap tree.
* `PropTcsKeys.v` — Property C89: an opening is accepted only with the committed keys, index and values.
* `Field.v` — Fields as used by the FRI and STARK code: p3_field's Field and TwoAdicField (external crates), with the operations the repository calls.
* `BabyBear.v` — The two fields of the project as instances of [two_adic]: p3_baby_bear::BabyBear (prime 2013265921) and BinomialExtensionField<BabyBear, 4> (x^4 = 11).
* `FriModel.v` — fri/src/{fold_even_odd,config,proof,prover,verifier}.rs and the folding of fri/src/two_adic_pcs.rs, function by function.
* `FriProofs.v` — Lemmas about FriModel: the three folds, and the chain of layers.
* `FriProofs2.v` — FRI completeness: what the prover produces, the verifier accepts.
* `FriInst.v` — The commitment scheme and the challenger of this repository as instances of the interfaces of FriModel, and that they satisfy the contracts of FriProofs2.
* `PropFri.v` — Properties C32, C33, C35-C38 and C62: FRI folding, prover and verifier.
* `PcsModel.v` — fri/src/two_adic_pcs.rs: TwoAdicFriPcs, function by function.
* `PolyExt.v` — Embeddings of two-adic fields, composition with scaling, interpolation on cosets and matrices of polynomial values; used by the PCS and STARK proofs.
* `PcsProofs.v` — The reduced openings of the PCS prover and verifier.
* `PcsProofs2.v` — TwoAdicFriPcs: what the prover commits to and opens, the verifier accepts.
* `PcsInst.v` — Functions that satisfy what TwoAdicFriPcs needs of p3_dft and p3_interpolation: interpolation by Newton's formula.
* `PropPcs.v` — Properties C39 and C63 to C66: the polynomial commitment scheme TwoAdicFriPcs.
* `StarkModel.v` — uni-stark/src/{symbolic_variable,symbolic_expression,symbolic_builder,folder,check_constraints, zerofier_coset,prover,verifier,proof}.rs, function by function.
* `StarkPoly.v` — Polynomial arithmetic behind the STARK proofs: products, division by X^n - 1, selector and constraint polynomials, recombination of quotient chunks.
* `StarkProofs.v` — The zerofier tables, the quotient polynomial and its chunks.
* `StarkProofs2.v` — Completeness of uni-stark, assembled from StarkProofs and the properties of the PCS.
* `PropStark.v` — Properties C40 to C43, C45 to C47, C67 and C68: uni-stark.
* `DslModel.v` — The expression language of /repo/script_expr: nodes, script generators of every opcode, the stack tracker they drive, usage counting ([simulate_express]) and script generation ([express_to_script]).
* `DslStack.v` — What the scripts emitted by the stack tracker do on the byte machine.
* `DslSpec.v` — Meaning of an expression, and the static conditions under which script generation is meant to be used.
* `DslProofs.v` — Stack discipline of script generation: tracker invariants and single steps.
* `DslDag.v` — Script generation with caching of shared nodes.
* `DslMain.v` — Correctness of script generation with caching.
* `DslOpSpec.v` — Meaning of the opcodes of the expression language, in terms of field elements and integers.
* `DslOps.v` — Every opcode of the expression language: the generated script computes the meaning of [DslOpSpec].
* `DslGadgets.v` — Scripts that meet the contract asked of the external field scripts.
* `DslBuild.v` — The functions that build expressions (/repo/script_expr/src/alias.rs and input_manager.rs, variable.rs): node identifiers, declared sizes, assertions.
* `DslIds.v` — Identifiers handed out by the builders are unique.
* `DslDenote.v` — Value of the expressions made by the builders.
* `PropDsl.v` — Properties C48, C49 and C70: script generation from expressions.
* `DslConc.v` — Building expressions in several threads.
* `PropConc.v` — C90: scripts do not depend on the identifiers, so neither on the value of the global counter nor on how threads interleave.
* `DslManager.v` — Input managers (/repo/script_expr/src/input_manager.rs) and the counter of distinct values (value_manager.rs).
* `DslSession.v` — Sessions with an input manager: a client builds expressions, takes inputs and hints from the manager, registers the expression to execute and the checks.
* `PropManager.v` — Properties C50, C52, C53: input managers, embedded checks, value counting.
* `DslWork.v` — Reasoning about functions that build expressions and take inputs from a manager.
* `DslAccept.v` — Running a manager whose checks hold.
* `FriExprModel.v` — Verification of FRI queries as expressions: fri/src/script_verifier.rs and TwoAdicFriGenericConfig::fold_row_with_expr of fri/src/two_adic_pcs.rs.
* `FriExprProofs.v` — Proofs about FriExprModel.
* `FriExprQuery.v` — The query expression follows the chain of foldings.
* `PropFriExpr.v` — C34 and C72: folding and query verification of FRI as expressions (fri/src/script_verifier.rs, fold_row_with_expr of fri/src/two_adic_pcs.rs).
* `StarkExprModel.v` — The quotient and the selectors as expressions: compute_quotient_expr of uni-stark/src/scripts/bf_unistark.rs, get_table of uni-stark/src/scripts/utils.rs and selectors_at_point_expr of script_expr/src/lagrange.rs.
* `PropStarkExpr.v` — C44 and C73: the quotient and the selectors as expressions.
* `ChalExprModel.v` — The script-side challenger: /repo/script_expr/src/challenger_expr.rs, and the sampling of the FRI challenges with both challengers, /repo/fri/src/script_verifier.rs:20-82. [ext]: the type parameter F is the extension field (otherwise BabyBear; other types panic in [sample] and are not modelled).
* `ChalExprGraph.v` — Shape of the graphs built by the script-side challenger: the constants below a multi-output node occur once, so such nodes may be shared.
* `ChalExprProofs.v` — Values of the expressions made by the script-side challenger.
* `ChalExprState.v` — The script-side challenger as a machine on bytes.
* `ChalExprRun.v` — Running a manager made of comparisons without inputs.
* `ChalExprSync.v` — The native challenger follows the byte machine of ChalExprState, except for samples drawn without an observation in between.
* `ChalExprFri.v` — Sampling of the FRI and STARK challenges with both challengers.
* `ChalExprStark.v` — The challenges of the STARK script verifier.
* `PropChalExpr.v` — Properties of the script-side challenger (C23) and of the sampling of the FRI challenges with both challengers (C51).
* `OpenExprModel.v` — The reduced openings as expressions: the closure of TwoAdicFriPcs::generate_verify_expr, fri/src/two_adic_pcs.rs 591-669. Val is BabyBear and Challenge its extension of degree 4, the only pair the code is used with.
* `OpenExprProofs.v` — The expressions of OpenExprModel have the values the native verifier computes.
* `PropOpenExpr.v` — C74: the reduced openings as expressions (fri/src/two_adic_pcs.rs 591-669).
* `ConsExprModel.v` — The constraint script: ScriptConstraintBuilder of script_expr/src/script_builder.rs, and the part of uni-stark/src/script_verifier.rs that runs Air::eval on it, compares the accumulator with the native one and runs the script (lines 272-300).
* `ConsExprProofs.v` — Proofs about the constraint script.
* `PropConsExpr.v` — C75: the constraint script accepts exactly the accumulator of the native verifier.
* `GenModel.v` — generate_script_verifier of uni-stark/src/script_verifier.rs (lines 25-306), with TwoAdicFriPcs::generate_verify_expr of fri/src/two_adic_pcs.rs (554-675): what the script verifier makes of a proof.
* `GenProofs.v` — The script verifier against the native transcript.
* `PropGen.v` — C76: generate_script_verifier of uni-stark/src/script_verifier.rs against the native verifier.
* `StackModel.v` — The stack limit of the Bitcoin Script interpreter.
* `StackProofs.v` — Soundness of the height analysis of StackModel, and its composition.
* `StackScripts.v` — Heights reached by the scripts of the [scripts] crate.
* `PropStack.v` — Properties C77 and C78: the scripts against the limit of 1000 stack elements.
* `UtilsModel.v` — Script generators of uni-stark/src/scripts/utils.rs.
* `PropUtils.v` — Property C79: the script generators of uni-stark/src/scripts/utils.rs.
* `RunDslModel.v` — run_dsl, assert_dsl (/repo/script_expr/src/lib.rs:196-212): compare an expression with a constant and run the script.
* `PropRunDsl.v` — Property C80: what run_dsl and assert_dsl tell about an expression.
* `SecretModel.v` — Where the secret keys of bit commitments come from: /repo/scripts/src/bit_comm/secret_generator.rs and bit_comm.rs:28-60.
* `PropSecret.v` — Property C81: secret keys of bit commitments.
* `VarModel.v` — uni-stark/src/expr_helper.rs: the input variable an AIR variable is converted to.
* `PropVar.v` — Property C82: the input variables AIR variables are converted to.
* `ProgModel.v` — Client programs that compute with field elements through the expression language: the operators and the AbstractField functions of /repo/script_expr/src/alias.rs and variable.rs, as a straight-line program over a pool of values made so far.
* `PropProg.v` — Property C83: a field computation written with the expression language has the value of the same computation in the field.
* `PropReuse.v` — Property C84: what signing several messages with one Winternitz key discloses.
* `TcsMultiModel.v` — The functions of basic/src/tcs/mod.rs and basic/src/mmcs/bf_mmcs.rs that deal with all queries of a commitment at once, function by function, on top of TcsModel.
* `PropTcsMulti.v` — Property C85: opening and verifying all queries of a commitment at once.
* `FibModel.v` — The Fibonacci AIR that comes with the repository, uni-stark/tests/fib_air.rs.
* `PropFib.v` — Property C86: the Fibonacci AIR, end to end.
* `FibScript.v` — The Fibonacci AIR of uni-stark/tests/fib_air.rs on the builder of the script verifier.
* `PropFibScript.v` — Property C86, the script verifier on the Fibonacci AIR (uni-stark/tests/fib_air.rs 148-192).
* `DslLimitModel.v` — Scripts of the expression language on the interpreter with its stack limit: the definitions of DslManager, GenModel and ConsExprModel with [lrun] (StackModel) in place of [brun].
* `PropDslLimit.v` — C87: the scripts of the expression language on an interpreter that keeps at most a given number of elements on its stacks (1000 on chain).
* `DslPeak.v` — What the scripts of the expression language need on the two stacks, from above: the values below, the values of the operands that are still waiting, the kept copies of shared values and the scratch space of one opcode.
* `PropDslFits.v` — C88: when the scripts of the expression language fit.
* `ScriptBytes.v` — Scripts as bytes.
* `PropBytes.v` — Property C91: scripts as bytes.
* `PropBytesSize.v` — Property C92: the size in bytes of the script of a leaf.
* `PropFold.v` — Property C93: folding a word that is no codeword, and words of different lengths that cancel (fri/src/fold_even_odd.rs, prover.rs 84-141, verifier.rs 100-165).
* `PropSound.v` — Property C94: how many challenges let a trace that violates its constraints pass the out-of-domain check (uni-stark/src/verifier.rs 19-161, check_constraints.rs 11-38, folder.rs).
* `PropDeep.v` — Property C95: what the reduced openings say about the claimed values (fri/src/two_adic_pcs.rs verify, and the check of openings it hands to fri/src/verifier.rs).
* `PropQuery.v` — Property C96: how many query positions notice an inconsistent layer (fri/src/verifier.rs 60-165).
* `PropEnd.v` — Property C97: what an accepted STARK proof says about what was committed, provided that the first layer of FRI is the word of the reduced openings (uni-stark/src/verifier.rs, fri/src/two_adic_pcs.rs verify, fri/src/verifier.rs).
* `PropConsNew.v` — C75 for a builder that is given the values of the selectors: ScriptConstraintBuilder::new, script_expr/src/script_builder.rs 25-43.
* `PropEquiv.v` — Property C98: the script [equivocation] and what it accepts, scripts/src/bit_comm/winternitz.rs 299-304.
* `PropShift.v` — Property C99: convert_digits_to_u32 makes a tapscript spendable by anyone, scripts/src/u31/mod.rs 109-129.
* `PropBitPos.v` — Property C15, continued: value_to_bits_format_special, script_expr/src/script_helper.rs 234-269.
* `PropPanics.v` — Properties C53 and C80, continued: when the current manager exists, and which sizes an operand may have.
* `PropLeafIndex.v` — Property C100: the indices given by get_leaf_index_by_query_index.

## Properties

For each property: the model it is about, how it is proved, the theorems.

### C01 Four-item stack macros move exactly the named words (proved)

* Model: `U32Model.v` (pseudo.rs, u32_std.rs), run on `ScriptVM.v`
* Proof: symbolic execution for symbolic stacks, lists split at the named depth; lifted to the byte machine by `Lift.v`
* Theorems (PropWords.v): `C01_op_4pick`, `C01_op_4roll`, `C01_op_4dup`, `C01_op_4drop`, `C01_op_4swap`, `C01_op_4alt`, `C01_u32_pick`, `C01_u32_roll`, `C01_u32_std`

### C02 OP_NDUP / push_to_stack produce the promised number of copies (proved)

* Model: `U32Model.v` (pseudo.rs, u32_std.rs), run on `ScriptVM.v`
* Proof: symbolic execution for symbolic stacks, lists split at the named depth; lifted to the byte machine by `Lift.v`
* Theorems (PropWords.v): `C02_op_ndup`, `C02_push_to_stack`, `C02_op_2k_mul`, `C02_fixed_multiples`

### C03 u32_add is addition modulo 2^32 (proved)

* Model: `U32Model.v` (u32_add.rs, u32_zip.rs)
* Proof: byte-wise carry lemma, composed over the four bytes; positions by list surgery
* Theorems (PropWords.v): `C03_u32_add`, `C03_u32_add_drop`, `C03_equal_positions_rejected`

### C04 u32_xor is bitwise exclusive or (proved)

* Model: `U32Model.v` (u32_xor.rs)
* Proof: table invariant; XOR of bytes by a check over all 65536 pairs lifted to all words
* Theorems (PropWords.v): `C04_push_table`, `C04_drop_table`, `C04_u32_xor`

### C05 u32_rrot rotates right (proved)

* Model: `U32Model.v` (u32_rrot.rs)
* Proof: each bit and byte step as arithmetic on the word; induction on the rotation amount
* Theorems (PropWords.v): `C05_u32_rrot`, `C05_domain`, `C05_special_cases`, `C05_generic_whole_bytes`

### C06 u32 comparison scripts decide equality (proved)

* Model: `U32Model.v` (u32_std.rs)
* Proof: symbolic execution on arbitrary bytes
* Theorems (PropWords.v): `C06_equalverify_equal`, `C06_equalverify_different`, `C06_equal`, `C06_notequal`

### C07 u32_compress packs four bytes into a script number (proved)

* Model: `U32Model.v` (u32_push, u32_compress), `scripts/src/lib.rs` u32_to_u31
* Proof: arithmetic of sign-magnitude numbers; case on the top bit
* Theorems (PropWords.v): `C07_push`, `C07_compress`, `C07_compress_collisions`

### C08 On-chain word to field-element conversion agrees with the native one (proved)

* Model: `U32Model.v` (u32_push, u32_compress), `scripts/src/lib.rs` u32_to_u31
* Proof: arithmetic of sign-magnitude numbers; case on the top bit
* Theorems (PropWords.v): `C08_conversion_agrees`, `C08_conversion_refuted`
* Note: agreement for every word but 0x80000000; C08_conversion_refuted is the counterexample at that word

### C09 Winternitz: every honest signature is accepted and reveals the signed message (proved)

* Model: `WinternitzModel.v` for an arbitrary hash function
* Proof: exact behaviour of the check script by induction on digits; digits and checksum related by `WinternitzSpec.v`
* Theorems (PropSign.v): `C09_sign_script_accepted`, `C09_witness_accepted`, `C09_raw_witness`

### C10 Winternitz: acceptance means each digit is backed by a chain to the public key and the checksum matches (proved)

* Model: `WinternitzModel.v` for an arbitrary hash function
* Proof: exact behaviour of the check script by induction on digits; digits and checksum related by `WinternitzSpec.v`
* Theorems (PropSign.v): `C10_accepts_iff_valid`, `C10_digit_malleable`

### C11 Winternitz: no message can be turned into another one by hashing forward (proved)

* Model: `WinternitzModel.v` for an arbitrary hash function
* Proof: exact behaviour of the check script by induction on digits; digits and checksum related by `WinternitzSpec.v`
* Theorems (PropSign.v): `C11_incomparable`, `C11_no_forward_forgery`

### C12 Bit commitments accept exactly the committed value (proved)

* Model: `WinternitzModel.v` (bit_comm_u32.rs, bit_comm.rs)
* Proof: from C10 by composition of scripts; induction on the vector of commitments
* Theorems (PropSign.v): `C12_recover_iff`, `C12_equal_iff`, `C12_honest`, `C12_honest_rejected_refuted`, `C12_commit_bytes_script`, `C12_vector_iff`, `C12_vector_honest`, `C12_vector_equal_honest`, `C12_recover_altstack_iff`, `C12_message_moves`

### C13 Script BLAKE3 equals the BLAKE3 specification on one block (proved)

* Model: `Blake3Model.v` (hashes/blake3.rs) against `Blake3Spec.v`
* Proof: word-level stack invariant for G, rounds and the permutation; induction on blocks
* Theorems (PropBlake.v): `C13_blake3`

### C14 Variable-length script BLAKE3 equals the specification (proved)

* Model: `Blake3Model.v` (hashes/blake3.rs) against `Blake3Spec.v`
* Proof: word-level stack invariant for G, rounds and the permutation; induction on blocks
* Theorems (PropBlake.v): `C14_var_length`, `C14_too_long`, `C14_blake3_160`, `C14_empty_refuted`

### C15 Bit decomposition scripts are exact (proved)

* Model: `HelperModel.v` (script_helper.rs)
* Proof: induction on the number of bits; roots of unity by induction on the exponent's bits with the generator table checked entry by entry
* Theorems (PropBitPos.v, PropHelper.v): `C15_special`, `C15_special_leaves_refuted`, `C15_value_to_bits`, `C15_value_to_bits_saturates`, `C15_value_to_bits_rejects_refuted`, `C15_compress_bits`, `C15_domain`, `C15_decompress`, `C15_index_to_reverse_index`, `C15_reverse_bits_len`, `C15_extract_high_bits`, `C15_extract_high_bits_negative`, `C15_compress_then_extract_refuted`

### C16 index_to_rou computes the root-of-unity power on chain (proved)

* Model: `HelperModel.v` (script_helper.rs)
* Proof: induction on the number of bits; roots of unity by induction on the exponent's bits with the generator table checked entry by entry
* Theorems (PropHelper.v): `C16_index_to_rou`, `C16_index_to_rou_out_of_range`, `C16_index_to_rou_ext`, `C16_domain`, `C16_value_exp_n`

### C17 u31 field scripts implement BabyBear arithmetic (proved)

* Model: `U31Model.v`, from the copy kept in scripts/src/u31/mod.rs
* Proof: modular arithmetic with range invariants; multiplication by induction on bits
* Theorems (PropWords.v): `C17_u31_add`, `C17_u31_sub`, `C17_u31_double`, `C17_u31_mul`, `C17_u31_square`, `C17_u31_to_bits`
* Note: scripts modelled from the copy in scripts/src/u31/mod.rs; the crate actually linked is external

### C18 Prover and verifier transcripts stay in lockstep (proved)

* Model: `ChallengerModel.v` (challenger/mod.rs, chan_field.rs) for any permutation
* Proof: invariant of the sponge state, induction on histories of calls
* Theorems (PropChallenger.v): `C18_lockstep`, `C18_grind_checks`, `C18_no_panic`, `C18_too_many_bits`

### C19 Transcript binding up to hash collision (proved)

* Model: `ChallengerModel.v` with BLAKE3, against `TranscriptSpec.v`
* Proof: refinement to a hash chain over blocks, then induction on histories; binding yields a collision
* Theorems (PropTranscript.v): `C19_binding`

### C20 Observations shorter than a block are zero-padded ambiguously (proved)

* Model: `ChallengerModel.v` with BLAKE3, against `TranscriptSpec.v`
* Proof: refinement to a hash chain over blocks, then induction on histories; binding yields a collision
* Theorems (PropTranscript.v): `C20_zero_padding`

### C21 sample_bits never uses the top bit of the requested range (proved)

* Model: `ChallengerModel.v` (challenger/mod.rs, chan_field.rs) for any permutation
* Proof: invariant of the sponge state, induction on histories of calls
* Theorems (PropChallenger.v): `C21_sample_bits_range`, `C21_check_witness_iff`, `C21_pow_accepted_words`

### C22 Grinding search space is 4096 witnesses (proved)

* Model: `ChallengerModel.v` (challenger/mod.rs, chan_field.rs) for any permutation
* Proof: invariant of the sponge state, induction on histories of calls
* Theorems (PropChallenger.v, PropTranscript.v): `C22_witness_range`, `C22_grind_iff`, `C22_grind_panics_iff`, `C22_missed_witness_refuted`

### C23 Script-side challenger agrees with the native challenger between observations (proved)

* Model: `ChalExprModel.v` (challenger_expr.rs) and `ChallengerModel.v`
* Proof: both challengers refine the same machine on bytes (`ChalExprState.v`, `ChalExprSync.v`); the expressions' values by induction on the calls
* Theorems (PropChalExpr.v): `C23_agree`, `C23_accepts_native`, `C23_rejects_other`, `C23_second_sample`, `C23_two_samples_refuted`

### C24 Byte and word views of commitments round-trip (proved)

* Model: `ChallengerModel.v` (u256_to_u32, u32_to_u256)
* Proof: list arithmetic
* Theorems (PropTranscript.v): `C24_u256_roundtrip`, `C24_u32_roundtrip`, `C24_from_u64`, `C24_le_inverse`

### C25 Tap tree keeps leaf indices stable (proved)

* Model: `TaptreeModel.v` (tcs/builder.rs, complete_taptree.rs) for arbitrary hashes
* Proof: invariant relating positions, the index dictionary and Merkle branches, by induction on building and combining; binding yields a collision
* Theorems (PropTaptree.v): `C25_index_stable`, `C25_not_power_of_two_refused`

### C26 Combining two trees concatenates their leaf index spaces (proved)

* Model: `TaptreeModel.v` (tcs/builder.rs, complete_taptree.rs) for arbitrary hashes
* Proof: invariant relating positions, the index dictionary and Merkle branches, by induction on building and combining; binding yields a collision
* Theorems (PropTaptree.v): `C26_combine`, `C26_sequence`, `C26_combine_total`

### C27 Every leaf of a built or combined tree has a valid Merkle path to the root (proved)

* Model: `TaptreeModel.v` (tcs/builder.rs, complete_taptree.rs) for arbitrary hashes
* Proof: invariant relating positions, the index dictionary and Merkle branches, by induction on building and combining; binding yields a collision
* Theorems (PropTaptree.v): `C27_path_to_root`, `C27_verify_inclusion`, `C27_single_leaf_refuted`

### C28 verify_inclusion_by_index looks at a different leaf than asked (proved)

* Model: `TaptreeModel.v` (tcs/builder.rs, complete_taptree.rs) for arbitrary hashes
* Proof: invariant relating positions, the index dictionary and Merkle branches, by induction on building and combining; binding yields a collision
* Theorems (PropTaptree.v): `C28_verdict`, `C28_looks_elsewhere`, `C28_wrong_leaf_refuted`

### C29 Merkle binding up to hash collision (proved)

* Model: `TaptreeModel.v` (tcs/builder.rs, complete_taptree.rs) for arbitrary hashes
* Proof: invariant relating positions, the index dictionary and Merkle branches, by induction on building and combining; binding yields a collision
* Theorems (PropTaptree.v): `C29_binding`, `C29_script_committed`, `C29_same_path`

### C30 Committed rows are the rows of the input matrices (proved)

* Model: `TcsModel.v` (tcs/mod.rs, mmcs/taptree_mmcs.rs)
* Proof: padding and leaf scripts by induction on rows; verification unfolded to the tree path and the leaf script's run
* Theorems (PropTcs.v): `C30_committed_rows`, `C30_open_batch`, `C30_open_batch_panics`, `C30_shortest_first_refuted`

### C31 MMCS openings verify, but are not tied to the queried index (proved)

* Model: `TcsModel.v` (tcs/mod.rs, mmcs/taptree_mmcs.rs)
* Proof: padding and leaf scripts by induction on rows; verification unfolded to the tree path and the leaf script's run
* Theorems (PropTcs.v): `C31_opened_accepted`, `C31_index_unchecked`, `C31_contract_winternitz`

### C32 fold_even_odd computes p_even + beta * p_odd (proved)

* Model: `FriModel.v` (fold_even_odd.rs, fold_row, fold_matrix)
* Proof: field arithmetic at symbolic points; bit reversal lemmas
* Theorems (PropFri.v): `C32_fold`, `C32_every_vector`, `C32_panics`

### C33 Verifier row fold equals prover matrix fold (proved)

* Model: `FriModel.v` (fold_even_odd.rs, fold_row, fold_matrix)
* Proof: field arithmetic at symbolic points; bit reversal lemmas
* Theorems (PropFri.v): `C33_row_is_matrix_entry`, `C33_is_interpolation`, `C33_arity`

### C34 Script fold equals native fold (proved)

* Model: `FriExprModel.v` (fold_row_with_expr)
* Proof: values of the built expressions (`DslWork.v`) compared with `fold_row`
* Theorems (PropFriExpr.v): `C34_fold_row`, `C34_hint_checked`, `C34_zero_point_panics`

### C35 FRI completeness (proved)

* Model: `FriModel.v` (prover.rs, verifier.rs) over interfaces; instances in `FriInst.v`
* Proof: induction on the layers; completeness by an invariant that every layer is the fold of the one before plus the input of that height
* Theorems (PropFri.v): `C35_accepted`, `C35_prover_total`, `C35_concrete`, `C35_smallest_height_refuted`

### C36 FRI verifier ignores the largest-height input opening (proved)

* Model: `FriModel.v` (prover.rs, verifier.rs) over interfaces; instances in `FriInst.v`
* Proof: induction on the layers; completeness by an invariant that every layer is the fold of the one before plus the input of that height
* Theorems (PropFri.v): `C36_top_opening_ignored`

### C37 FRI verifier accepts truncated query proofs (proved)

* Model: `FriModel.v` (prover.rs, verifier.rs) over interfaces; instances in `FriInst.v`
* Proof: induction on the layers; completeness by an invariant that every layer is the fold of the one before plus the input of that height
* Theorems (PropFri.v): `C37_empty_query`, `C37_truncated_accepted`, `C37_layers_checked`, `C37_surplus_openings`

### C38 FRI shape and proof-of-work checks (proved)

* Model: `FriModel.v` (prover.rs, verifier.rs) over interfaces; instances in `FriInst.v`
* Proof: induction on the layers; completeness by an invariant that every layer is the fold of the one before plus the input of that height
* Theorems (PropFri.v): `C38_wrong_count`, `C38_bad_witness`, `C38_ok`

### C39 Prover and verifier agree on reduced openings (proved)

* Model: `PcsModel.v` (two_adic_pcs.rs)
* Proof: polynomials as coefficient lists; reduced openings as quotients by X - z; FRI completeness for the rest
* Theorems (PropPcs.v): `C39_verifier`, `C39_agree`

### C40 Symbolic degree bounds the real degree (proved)

* Model: `StarkModel.v` (symbolic_*.rs, folder.rs, check_constraints.rs), `C41_script` also script_builder.rs's accumulator
* Proof: structural induction on expressions with degree bookkeeping
* Theorems (PropSound.v, PropStark.v): `C40_count`, `C40_degree`, `C40_enough_chunks`, `C40_nested_transitions_refuted`

### C41 Constraint folding is the Horner combination on every path (proved)

* Model: `StarkModel.v` (symbolic_*.rs, folder.rs, check_constraints.rs), `C41_script` also script_builder.rs's accumulator
* Proof: structural induction on expressions with degree bookkeeping
* Theorems (PropStark.v): `C41_folding`, `C41_script`, `C41_few_bad_alphas`

### C42 ZerofierOnCoset evaluates X^n - 1 on the coset (proved)

* Model: `StarkModel.v` (zerofier_coset.rs, prover.rs, verifier.rs)
* Proof: polynomial division by X^n - 1, recombination of chunks, completeness of the PCS; forgeries by exhibiting the proof
* Theorems (PropStark.v): `C42_new`, `C42_eval`, `C42_lagrange`

### C43 Quotient recombination (proved)

* Model: `StarkModel.v` (zerofier_coset.rs, prover.rs, verifier.rs)
* Proof: polynomial division by X^n - 1, recombination of chunks, completeness of the PCS; forgeries by exhibiting the proof
* Theorems (PropStark.v): `C43_recombination`

### C44 The quotient expression works for one chunk only (proved)

* Model: `StarkExprModel.v` (bf_unistark.rs, utils.rs, lagrange.rs)
* Proof: values of the built expressions compared with the native formulas; panics by evaluation of the builders
* Theorems (PropStarkExpr.v): `C44_more_chunks_panics`, `C44_wrong_lengths`, `C44_one_chunk`

### C45 Challenges do not depend on public values or the degree (proved)

* Model: `StarkModel.v` (zerofier_coset.rs, prover.rs, verifier.rs)
* Proof: polynomial division by X^n - 1, recombination of chunks, completeness of the PCS; forgeries by exhibiting the proof
* Theorems (PropStark.v): `C45_public_values`, `C45_degree_modulo_64`

### C46 Verifier returns Ok only if shape, opening and out-of-domain checks all hold (proved)

* Model: `StarkModel.v` (zerofier_coset.rs, prover.rs, verifier.rs)
* Proof: polynomial division by X^n - 1, recombination of chunks, completeness of the PCS; forgeries by exhibiting the proof
* Theorems (PropStark.v): `C46_accepts_iff`, `C46_wrong_shape`, `C46_too_large`

### C47 Row-by-row constraint checker visits every row with the right successor and selectors (proved)

* Model: `StarkModel.v` (symbolic_*.rs, folder.rs, check_constraints.rs), `C41_script` also script_builder.rs's accumulator
* Proof: structural induction on expressions with degree bookkeeping
* Theorems (PropStark.v): `C47_rows`, `C47_boolean_selectors_refuted`

### C48 Optimised script generation preserves meaning (proved)

* Model: `DslModel.v` (script_expr/src/lib.rs, opcode.rs, script_gen.rs) against the value semantics of `DslSpec.v`, `DslOpSpec.v`
* Proof: induction on the DAG with a cache invariant: counted uses, positions on the alt stack, unique identifiers
* Theorems (PropDsl.v): `C48_optimised_generation`, `C48_plain_generation`, `C48_caching_preserves_meaning`

### C49 Caching breaks when multi-output nodes are shared (proved)

* Model: `DslModel.v` (script_expr/src/lib.rs, opcode.rs, script_gen.rs) against the value semantics of `DslSpec.v`, `DslOpSpec.v`
* Proof: induction on the DAG with a cache invariant: counted uses, positions on the alt stack, unique identifiers
* Theorems (PropDsl.v): `C49_caching_panics_refuted`

### C50 Embedded hint checks are combined by parity, not conjunction (proved)

* Model: `DslManager.v` (input_manager.rs, value_manager.rs)
* Proof: induction on the list of checks; invariants of sessions (`DslSession.v`)
* Theorems (PropManager.v): `C50_run`, `C50_embedded_parity`, `C50_all_true_accepted`, `C50_one_false_rejected`, `C50_failing_check_rejected`, `C50_accepted_checks_hold_refuted`, `C50_no_expression`

### C51 Query-index consistency checks of the script verifier fail for honest proofs and cancel in pairs (proved)

* Model: `ChalExprModel.v` (fri/src/script_verifier.rs, uni-stark/src/script_verifier.rs: sampling)
* Proof: induction on queries; verdict of the manager by parity; concrete transcripts with BLAKE3 for the findings
* Theorems (PropChalExpr.v): `C51_generates`, `C51_verdict`, `C51_one_row`, `C51_honest_accepted_refuted`, `C51_accepted_consistent_refuted`

### C52 Distinct value counting (proved)

* Model: `DslManager.v` (input_manager.rs, value_manager.rs)
* Proof: induction on the list of checks; invariants of sessions (`DslSession.v`)
* Theorems (PropManager.v): `C52_distinct_values`, `C52_set_twice_panics`, `C52_managers`

### C53 Manager cursor (proved)

* Model: `DslManager.v` (input_manager.rs, value_manager.rs)
* Proof: induction on the list of checks; invariants of sessions (`DslSession.v`)
* Theorems (PropManager.v, PropPanics.v): `C53_next`, `C53_current_is_last_returned`, `C53_inputs_go_to_current`, `C53_next_is_current_refuted`, `C53_get_manager`, `C53_current_exists`

### C54 Extension-field add / sub / double / equality scripts act coefficientwise (proved)

* Model: `HelperModel.v` (u31_ext/mod.rs)
* Proof: symbolic execution, coefficientwise
* Theorems (PropHelper.v): `C54_u31ext_add`, `C54_u31ext_sub`, `C54_u31ext_double`, `C54_u31ext_equalverify`

### C55 sub_group enumerates the two-adic subgroup (proved)

* Model: `SubGroup.v` (basic/src/field/mod.rs)
* Proof: order of the generators from the table; induction
* Theorems (PropHelper.v): `C55_sub_group`, `C55_generator_order`, `C55_sub_group_halves`

### C56 check_equal_x_or_neg_x_script compares byte by byte (proved)

* Model: `WinternitzModel.v` (bit_comm_u32.rs, bit_comm.rs)
* Proof: from C10 by composition of scripts; induction on the vector of commitments
* Theorems (PropSign.v): `C56_bytewise`, `C56_x_passes`, `C56_mixture_refuted`, `C56_x_rejected_refuted`

### C57 Challenges form a hash chain over 32-byte blocks (proved)

* Model: `ChallengerModel.v` with BLAKE3, against `TranscriptSpec.v`
* Proof: refinement to a hash chain over blocks, then induction on histories; binding yields a collision
* Theorems (PropTranscript.v): `C57_hash_chain`

### C58 Recorded transcript replays (proved)

* Model: `ChallengerModel.v` with BLAKE3, against `TranscriptSpec.v`
* Proof: refinement to a hash chain over blocks, then induction on histories; binding yields a collision
* Theorems (PropTranscript.v): `C58_records`, `C58_grind_record`

### C59 A digest check passes exactly for the right digest (proved)

* Model: `Blake3Model.v` (hashes/blake3.rs) against `Blake3Spec.v`
* Proof: word-level stack invariant for G, rounds and the permutation; induction on blocks
* Theorems (PropBlake.v): `C59_digest_check`, `C59_digest_check_160`

### C60 Accepted MMCS openings are committed rows (proved)

* Model: `TcsModel.v` (tcs/mod.rs, mmcs/taptree_mmcs.rs)
* Proof: padding and leaf scripts by induction on rows; verification unfolded to the tree path and the leaf script's run
* Theorems (PropTcs.v): `C60_accepted_is_committed`

### C61 Surplus opened values are not checked (proved)

* Model: `TcsModel.v` (tcs/mod.rs, mmcs/taptree_mmcs.rs)
* Proof: padding and leaf scripts by induction on rows; verification unfolded to the tree path and the leaf script's run
* Theorems (PropTcs.v): `C61_extra_values`, `C61_uncommitted_value_refuted`

### C62 What an accepted FRI proof guarantees (proved)

* Model: `FriModel.v` (prover.rs, verifier.rs) over interfaces; instances in `FriInst.v`
* Proof: induction on the layers; completeness by an invariant that every layer is the fold of the one before plus the input of that height
* Theorems (PropFri.v): `C62_accepts_iff`

### C63 TwoAdicFriPcs completeness (proved)

* Model: `PcsModel.v` (two_adic_pcs.rs)
* Proof: polynomials as coefficient lists; reduced openings as quotients by X - z; FRI completeness for the rest
* Theorems (PropPcs.v): `C63_commit`, `C63_open`, `C63_opened`, `C63_accepted`, `C63_concrete`

### C64 get_evaluations_on_domain (proved)

* Model: `PcsModel.v` (two_adic_pcs.rs)
* Proof: polynomials as coefficient lists; reduced openings as quotients by X - z; FRI completeness for the rest
* Theorems (PropPcs.v): `C64_evaluations`, `C64_other_shift`

### C65 PCS verification never returns an error (proved)

* Model: `PcsModel.v` (two_adic_pcs.rs)
* Proof: polynomials as coefficient lists; reduced openings as quotients by X - z; FRI completeness for the rest
* Theorems (PropPcs.v): `C65_rejects_by_panic`, `C65_ok_iff`

### C66 Claimed values of the tallest matrices are not checked (proved)

* Model: `PcsModel.v` (two_adic_pcs.rs)
* Proof: polynomials as coefficient lists; reduced openings as quotients by X - z; FRI completeness for the rest
* Theorems (PropPcs.v): `C66_top_values_ignored`, `C66_any_value_accepted`

### C67 STARK completeness (proved)

* Model: `StarkModel.v` (zerofier_coset.rs, prover.rs, verifier.rs)
* Proof: polynomial division by X^n - 1, recombination of chunks, completeness of the PCS; forgeries by exhibiting the proof
* Theorems (PropStark.v): `C67_accepted`, `C67_runs`, `C67_concrete`

### C68 Every statement has an accepted proof (proved)

* Model: `StarkModel.v` (zerofier_coset.rs, prover.rs, verifier.rs)
* Proof: polynomial division by X^n - 1, recombination of chunks, completeness of the PCS; forgeries by exhibiting the proof
* Theorems (PropStark.v): `C68_transfer`, `C68_forgery`

### C69 Every bit commitment index is handed out once (proved)

* Model: `TcsModel.v` (tcs/mod.rs, mmcs/taptree_mmcs.rs)
* Proof: padding and leaf scripts by induction on rows; verification unfolded to the tree path and the leaf script's run
* Theorems (PropTcs.v): `C69_consecutive`, `C69_distinct`

### C70 Expression identifiers are unique (proved)

* Model: `DslBuild.v` (alias.rs)
* Proof: invariant on the identifier counter, per constructor
* Theorems (PropDsl.v): `C70_ids_unique`, `C70_expressions_have_unique_ids`

### C71 Rebinding commitments to new values (proved)

* Model: `WinternitzModel.v` (bit_comm_u32.rs, bit_comm.rs)
* Proof: from C10 by composition of scripts; induction on the vector of commitments
* Theorems (PropSign.v): `C71_rebinding`, `C71_rebound_recover`

### C72 Query scripts and the native query verifier (proved)

* Model: `FriExprModel.v` (fri/src/script_verifier.rs) and `FriModel.v`
* Proof: induction on layers: values, coverage of inputs and checks; manager verdict from `DslAccept.v`
* Theorems (PropFriExpr.v): `C72_query`, `C72_all_queries`, `C72_verify_challenges`, `C72_native_verdict`, `C72_script_native`, `C72_accepted_is_native_refuted`, `C72_native_is_accepted_refuted`

### C73 Selector expressions have the native values, except z_h (proved)

* Model: `StarkExprModel.v` (bf_unistark.rs, utils.rs, lagrange.rs)
* Proof: values of the built expressions compared with the native formulas; panics by evaluation of the builders
* Theorems (PropStarkExpr.v): `C73_selectors`, `C73_vanishing_refuted`

### C74 Reduced openings in the query scripts (proved)

* Model: `OpenExprModel.v` (two_adic_pcs.rs 591-669) and `PcsModel.v`
* Proof: induction on columns, points, matrices and batches; effect of the inverse by the chain being affine in the reduced opening
* Theorems (PropOpenExpr.v): `C74_openings`, `C74_panics`, `C74_query`, `C74_inverse_free`, `C74_inverse_bound_refuted`

### C75 The constraint script accepts exactly the native accumulator (proved)

* Model: `ConsExprModel.v` (script_builder.rs, script_verifier.rs 235-300, folder.rs)
* Proof: simulation of the two folders statement by statement; value and stack behaviour of the generated script from `DslMain.v`
* Theorems (PropConsExpr.v, PropConsNew.v): `C75_native`, `C75_script_checks_accumulator`, `C75_panics_together`, `C75_no_constraints`, `C75_new`

### C76 Verdict of generate_script_verifier against the native verifier (proved)

* Model: `GenModel.v` (uni-stark/src/script_verifier.rs 25-306) and `StarkModel.v`
* Proof: inversion of both verifiers to a common transcript, then C51, C72-C75 for each manager and script; concrete proofs, evaluated with BLAKE3, for the example and the witness
* Theorems (PropGen.v): `C76_verdict`, `C76_errors`, `C76_accepted`, `C76_many_chunks`, `C76_accepted_folds`, `C76_sound`, `C76_one_row`, `C76_accepted_even`, `C76_no_constraints`, `C76_native_accepted_refuted`

### C77 Stack room needed by the BLAKE3 scripts (proved)

* Model: `StackModel.v`: the byte machine of `ScriptVM.v` under a limit, for the scripts of `Blake3Model.v`
* Proof: static height analysis proved sound for every opcode (`StackProofs.v`), induction on rounds, blocks and bytes (`StackScripts.v`); exact maxima, so both directions
* Theorems (PropStack.v): `C77_limited_is_run`, `C77_var_length`, `C77_all_lengths_fit`, `C77_blake3`, `C77_blake3_160`

### C78 Row width that can be verified within the stack limit (proved)

* Model: `StackModel.v` (verify_batch under a limit) with `TcsModel.v` and `WinternitzModel.v`
* Proof: heights of lock and check scripts by induction on the words, length of the witness, then C31
* Theorems (PropStack.v): `C78_opened_limited`, `C78_capacity`, `C78_limited_sound`, `C78_wide_row_refuted`

### C79 Generator table and x^n - 1 in script (proved)

* Model: `UtilsModel.v` (uni-stark/src/scripts/utils.rs) with `StackModel.v` for the room
* Proof: position of an entry in the table by case on the index, run of the script split at that position; exponentiation by induction; heights as in C77
* Theorems (PropUtils.v): `C79_domain`, `C79_get_generator`, `C79_same_as_get_table`, `C79_beyond_table`, `C79_room`, `C79_exp_minus_one`

### C80 run_dsl and assert_dsl decide equality with the value of the expression (proved)

* Model: `RunDslModel.v` (script_expr/src/lib.rs 196-212) on the generator of `DslModel.v`
* Proof: the comparison node is fresh, sharing below it is unchanged, then C48; panics by unfolding generation at the root
* Theorems (PropPanics.v, PropRunDsl.v): `C80_operand_sizes`, `C80_run_dsl`, `C80_assert_dsl`, `C80_failing`, `C80_wrong_size`

### C81 Secret keys of bit commitments (proved)

* Model: `SecretModel.v` (secret_generator.rs, bit_comm.rs 28-60) with `WinternitzModel.v`
* Proof: a generator is a state transformer; induction on the words, then C12
* Theorems (PropSecret.v): `C81_new`, `C81_script_by_keys`, `C81_constant_gen_accepts_any`, `C81_constant_gen_reuse`

### C82 AIR variables as input variables (proved)

* Model: `VarModel.v` (expr_helper.rs) with the builder of `ConsExprModel.v`
* Proof: the keys of the getter are the registered variables; case analysis
* Theorems (PropVar.v): `C82_main_injective`, `C82_public_panics`, `C82_kinds_apart_refuted`, `C82_never_registered`

### C83 Field computations through the expression language (proved)

* Model: `ProgModel.v`: straight-line programs over the functions of `DslBuild.v` (alias.rs)
* Proof: invariant of the pool: every expression denotes the native value, made of fresh nodes with one output and bounded stack need; then C48 and C80
* Theorems (PropProg.v): `C83_closed_program`, `C83_other_kind`, `C83_script`

### C84 Winternitz key reuse (proved)

* Model: `WinternitzModel.v`, `SecretModel.v`
* Proof: per key, the hash chain position of a published hash is the digit; forward hashing reaches exactly the larger digits; then C10 and C12
* Theorems (PropReuse.v): `C84_forgeable_iff`, `C84_forged`, `C84_one`, `C84_two_cover_many`, `C84_constant_gen`

### C85 Multi-query openings of a commitment verify together, and the joint verdict is that of the first bad query (proved)

* Model: TcsMultiModel.v: query_proofs, open_with_query_times, open_with_one_query, verify_loop, verify_with_query_times, get_matrices, get_matrix_heights, get_max_height, commit_matrix, commit_vec, on top of TcsModel.v
* Proof: PropTcsMulti.v: induction on the verification loop for the verdict; the single-query theorems (C30, C31, C60) lifted to all queries by induction on the index list; the tallest-first order is shown unique so that all queries share it
* Theorems (PropTcsMulti.v): `C85_accepts_iff`, `C85_otherwise_first`, `C85_no_queries`, `C85_round_trip`, `C85_open_no_queries`, `C85_accepted_is_committed`, `C85_max_height`, `C85_max_height_committed`, `C85_commit_vec`

### C86 The Fibonacci AIR, end to end (proved)

* Model: `FibModel.v`: fibonacci_air, generate_trace_rows, public_values; `FibScript.v`: the same eval on the script builder
* Proof: induction on the rows against the recurrence; C47 row by row for the constraints; then C67, C68 and C76 are applied to the AIR
* Theorems (PropFib.v, PropFibScript.v): `C86_trace`, `C86_constraints_iff`, `C86_one_chunk`, `C86_proved_and_verified`, `C86_wrong_output_accepted`, `C86_script_verdict`

### C87 Wide AIRs cannot be verified by script within the stack limit (proved)

* Model: `DslLimitModel.v`: run, the verifier loop, the constraint script and generate_script_verifier on the interpreter with a stack limit (`StackModel.lrun`)
* Proof: generation only appends to the script (induction over expressions), so the pushes of the inputs come first and exceed the limit; the words of a query manager are counted by induction over its loops
* Theorems (PropDslLimit.v): `C87_limited_is_run`, `C87_too_many_inputs`, `C87_managers_refused`, `C87_query_words`, `C87_constraints_too_wide`, `C87_limited_constraints`, `C87_wide_trace`, `C87_accepted`

### C88 Scripts that fit in the stack limit behave as if there were none (proved)

* Model: `DslLimitModel.v`, `StackModel.v` (as for C87); `DslPeak.v`: values kept on the alternative stack, heights of the scripts of nodes
* Proof: induction over express_to_script with an invariant on both stacks (the alternative stack holds at most one copy of each shared value; inputs only disappear); the heights of the pieces are added up; `node_check` decides the scratch space by the static analysis of C77
* Theorems (PropDslFits.v): `C88_manager_fits`, `C88_session_fits`, `C88_check`, `C88_constraints_fit`, `C88_managers_fit`, `C88_monotone`, `C88_verifier_fits`, `C88_some_limit`

### C89 An opening is accepted only with the committed keys, index and values (proved)

* Model: `TcsModel.v` and `WinternitzModel.v` (as for C30 and C12), with the Winternitz commitments as bit commitments
* Proof: two valid openings of one stack have the same words, the same rest and the same public keys (C10, C11), lifted to lists of commitments by induction; C29 names the leaf; `tallest_unique` for the converse
* Theorems (PropTcsKeys.v): `C89_accepted`, `C89_accepts`

### C90 Scripts do not depend on identifiers, counters or thread schedules (proved)

* Model: `DslConc.v`: the functions of alias.rs as computations that take identifiers from the global mutex one at a time, threads, schedules, forks and joins
* Proof: generation is a simulation under any injective renaming of identifiers (induction over express_to_script and simulate_express); the computations are natural in the identifiers, so a thread under any schedule is the thread alone, renamed by the increasing sequence of identifiers it took; freshness invariant of the machine
* Theorems (PropConc.v): `C90_one_thread`, `C90_same_scripts`, `C90_panics`, `C90_finishes`, `C90_ids_unique`, `C90_counter`

### C91 Scripts as bytes: what is hashed is what is run (proved)

* Model: `ScriptBytes.v`: script!{} with push_int and push_slice, instructions and instructions_minimal, OP_SUCCESS, the element size limit, leaf hashes, verify_batch on byte strings
* Proof: each instruction is read back from the front of the bytes, then induction on the script; opcodes outside the model are an arbitrary function; building a tree commutes with serialising its scripts, so C29 applies to the tree of byte strings and C89 to the script found
* Theorems (PropBytes.v): `C91_bytes_run`, `C91_bytes_accept`, `C91_bytes_determine`, `C91_same_bytes_same_run`, `C91_leaf_preimage_injective`, `C91_accepted`, `C91_accepts`

### C92 Size in bytes of the leaf scripts (proved)

* Model: `ScriptBytes.v`, `TcsModel.v`, `WinternitzModel.v`
* Proof: sizes of the pieces added up by induction on words and digits; length of the minimal encoding of a number from its magnitude
* Theorems (PropBytesSize.v): `C92_leaf_size`, `C92_block_limit`

### C93 Folding a word that is no codeword, and words of different lengths that cancel (proved)

* Model: `FriModel.v`: fold_even_odd, commit_phase, verify_query; words as lists, no degree assumed
* Proof: every word is the codeword of its interpolant, so folding acts on coefficients: two challenges that both give low degree force both coefficient halves to be low; induction over the commit loop and over the layers of the path; the cancelling pair is an even word whose half is the negative of the second word
* Theorems (PropFold.v): `C93_one_unlucky_challenge`, `C93_codewords_stay`, `C93_prover`, `C93_query_iff`, `C93_all_positions`, `C93_cancelling_inputs_accepted`

### C94 A trace that violates a constraint passes the out-of-domain check for few challenges (proved)

* Model: `StarkModel.v`: verify and its out-of-domain check, check_constraints, the folder; true openings stated in `PropSound.v` as evaluations of polynomials
* Proof: a refused trace has a row and a constraint whose polynomial is not zero there; for all but fewer alphas than constraints the folded polynomial is not zero there either; acceptance at zeta is a root of a polynomial of bounded length, so enough zetas make it vanish everywhere, also at the row, where the vanishing polynomial is zero
* Theorems (PropSound.v): `C94_violations_show`

### C95 The reduced openings are of low degree exactly when the claimed values are right (proved)

* Model: `PcsModel.v`: the opening check of verify for all queries; what the claims say is stated in `PropDeep.v` with polynomials through the committed values
* Proof: C39 gives the reduced opening as a combination of the quotients with powers of alpha; divided differences in alpha recover each quotient from as many combinations as there are quotients, so each is of low degree; multiplying by x - z gives the polynomial
* Theorems (PropDeep.v): `C95_openings_sound`, `C95_right_claims_pass`, `C95_spelled`, `C95_true_value`

### C96 How many query positions notice an inconsistent layer, and how many lists of queries a false FRI proof survives (proved)

* Model: verify_challenges, verify_queries, verify_query of FriModel over committed words (the spec words `path_ok`, `halving`, `unlucky` are those of C93)
* Proof: `links` lists the folds next to the layers they must meet; `path_ok` is decided by the entries of the links at q/2^(j+1), whose preimages are counted; lists of positions are counted as tuples over the positions that do not notice; the near-miss word is a unit vector, which no codeword of rate below 1 is
* Theorems (PropQuery.v): `C96_broken_noticed`, `C96_accepted_lists`, `C96_not_a_codeword`, `C96_verify_iff`, `C96_near_miss`

### C97 If the first FRI layer is the word of the reduced openings, an accepted STARK proof means that the committed trace satisfies the AIR (proved)

* Model: verify of StarkModel with pcs_verify of PcsModel and verify_challenges of FriModel, any challenger; that openings read the committed matrices and words is part of the specification (C29 and C60 are about this), and so is that the first layer is the word of the reduced openings, which the code does not check (C68)
* Proof: a word that survives is of low degree by C96 (words of low degree are decidable), so the claims are right by the Vandermonde argument of C95; the polynomials over the extension come down to the base field by interpolation; then C94 with one coefficient more (C95 allows degree 2^k)
* Theorems (PropEnd.v): `C97_openings`, `C97_sound`

### C98 The equivocation script neither accepts evidence of equivocation nor needs it (proved)

* Model: equivocation (PropEquiv.v) and checksig_verify of WinternitzModel on the byte machine, any hash function; the verdict is that of a tapscript spend (one true element left)
* Proof: by the definition of the verdict; a signature takes twenty elements; honest signatures are valid by C09 and C10. The claim of the comment in the source is refuted (C98_sound_refuted, C98_evidence_rejected)
* Theorems (PropEquiv.v): `C98_accepts_iff`, `C98_evidence_rejected`, `C98_sound_refuted`, `C98_signed_twice`, `C98_checkable`

### C99 convert_digits_to_u32 makes a leaf script spendable by anyone (proved)

* Model: convert_digits_to_u32 as bytes (PropShift.v) in execute_bytes of ScriptBytes, which treats OP_SUCCESS as BIP 342 says; that the external interpreter does so is taken from the consensus rules
* Proof: the instructions before it are read one by one (C91), so the reader reaches OP_LSHIFT; the value is refuted by a run with an OP_LSHIFT as described in the comment of the source
* Theorems (PropShift.v): `C99_anyone_can_spend`, `C99_one_digit`, `C99_value_refuted`

### C100 Which leaves get_leaf_index_by_query_index names (proved)

* Model: get_leaf_index_by_query_index (PropLeafIndex.v) over the natural numbers; the leaves of the layers are written out as in prover.rs
* Proof: division by two and the two cases of exclusive or with 1
* Theorems (PropLeafIndex.v): `C100_indices`, `C100_first_layer`

## Findings

Behaviour a user would not expect, each with a theorem.

* `u32_compress` reads the word as sign-magnitude: 0x80000000 becomes 0 (C07, C08).
* A Winternitz digit 15 may be replaced by any larger number (C10); the honest witness
  of a word of 2^31 or more is rejected (C12); byte-wise comparison of x and -x accepts
  mixtures and rejects x when bytes are shared (C56).
* BLAKE3 of the empty message is wrong in script (C14); numbers too large for the bit
  decomposition are read as all ones (C15).
* Observations shorter than a block are padded with zeros without a length (C20);
  `sample_bits` never sets its top bit (C21); grinding tries 4096 witnesses only and
  panics otherwise (C22).
* `verify_inclusion` fails for a tree with one leaf (C27); `verify_inclusion_by_index`
  looks at another leaf (C28).
* `open_batch` panics unless the matrices are listed tallest first (C30).
* Openings are not tied to the queried index (C31), surplus opened values are not
  checked (C61).
* The FRI verifier does not compare the first layer with the reduced opening of that
  height, zips query proofs to the shortest (C36, C37), so claimed values of the
  tallest matrices are not checked (C66) and every statement has an accepted proof
  (C68). The smallest height cannot be proved (C35).
* Shorter FRI inputs are added to the folded word with no random factor, so two inputs that
  are not of low degree can cancel for every challenge and be accepted (C93).
* The reduced openings admit committed columns with one coefficient more than the committed height needs
  (2^log_n + 1), opened truthfully, for every batching challenge (C95).
* Nested `is_transition` factors make the degree estimate wrong (C40); public values and the
  degree are not in the transcript (C45); PCS verification rejects by panicking (C65).
* Sharing a multi-output node makes script generation panic (C49).
* Embedded checks are combined by parity: two failing checks cancel (C50).
* `set_value_count` ignores hints (C52), `next_manager` and `current_manager`
  disagree (C53).
* The script-side challenger gives another value for a second sample without an
  observation in between (C23); the query index checks built from it fail for honest
  proofs and cancel in pairs (C51).
* The quotient expression panics for two or more chunks (C44); `z_h` of the selector
  expressions is computed with `2 ^ log_n`, exclusive or in Rust (C73).
* Query scripts do not compare the carried value with the committed one (C72); the
  input for 1/(x - z) is not constrained, so any final value can be reached (C74).
* An AIR without constraints has the native accumulator zero, but its script cannot be
  generated (C75).
* The script verifier panics on a proof accepted by the native verifier when an odd
  number of the query indices sampled in script differs; it never accepts several
  quotient chunks, a one-row trace or an AIR without constraints; where the native
  query checks return errors it panics (C76).
* A leaf with more than 48 32-bit words (48 base or 12 extension elements) is committed
  and opened, but its script exceeds the interpreter's 1000 stack elements, so no
  opening of it is ever accepted there (C78).
* `get_generator` of utils.rs does not check its index: beyond the table it copies the
  caller's stack (C79).
* Commitments made with `ConstantSecretGen` bind nothing: witnesses are exchangeable
  between words and values (C81). Two signatures of different values with one key let
  anybody sign every value whose digits all lie above the smaller of the two (C84).
* `verify_with_query_times` accepts anything for zero queries, which cannot be opened
  (C85).
* Variables converted by `expr_helper.rs` are never found by the script builder (C82).
* A query script pushes ten words for each trace column before it starts: 99 columns exceed
  the 1000 elements a script may use on chain, and 126 exceed them in the constraint script
  (C87).
* `equivocation` is the empty script: it accepts any single true element and refuses real
  evidence (C98). `convert_digits_to_u32` contains OP_LSHIFT, an OP_SUCCESS opcode: a leaf
  with it can be spent by anyone (C99).

## What is not modelled

* External crates: `bitcoin` (types and Taproot builder, patched in the project),
  `bitcoin_scriptexec`, `p3-*`, `StackTracker`, `bitcomm`, `rust_bitcoin_u31_or_u30`,
  `primitives`. The operations used are modelled by their documented behaviour next to
  their first use, or appear as functions with a stated contract.
* usize and u32 overflow, except where a theorem says so; allocation; logging,
  `tracing` spans, `Debug` output, names of variables; `parallel` feature.
* the random source of `ThreadSecretGen` (any generator is allowed in C81), benches, tests, `common`, trait declarations
  without code, serialisation of proofs.
* Cost: sizes of scripts other than those of leaves (C92), weight, fees. The limit of 1000 stack elements is treated
  in C77-C79 (BLAKE3, the leaf scripts and the generator tables) and, as a lower bound on
  what is needed, in C87 and, from above, in C88 (scripts of the expression language).

## Reading seeded/LOG.jsonl

`failed` lists the lemmas at which the build of the edited copy stopped. That shows that the
proofs do not go through for the edited program. It does not by itself show that the theorem
named in `claim` is false for it: the first failure is often a helper lemma, and a proof can
also break because it follows the form of a definition (the C100 entry "pair computed from
the sibling" was such a case). Entries were not all re-examined for this.

## Trusted base

* Coq's kernel (8.16.1) with its conversion by `vm_compute`.
* Axioms: `Print Assumptions` was run on every theorem in `MANIFEST.json`; see the list
  below.
* The correspondence between the Gallina model and the Rust source, made by reading,
  including the external crates named above.

`Print Assumptions` printed "Closed under the global context" for each of the theorems
in `MANIFEST.json`: no axiom is used, neither of the standard library nor of another.
No file declares an axiom, parameter or functor; section variables are generalised.
