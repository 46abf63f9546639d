(** Property C100: the indices given by get_leaf_index_by_query_index. *)
From Coq Require Import NArith ZArith Lia.
Local Open Scope N_scope.

(** fri/src/proof.rs 35-40; no caller in the repository. usize is any natural number: no operation overflows. *)
Definition get_leaf_index_by_query_index (query_index : N) : N * N * N :=
  let index_i := N.shiftr query_index 1 in
  let index_i_sibling := N.lxor index_i 1 in
  let index_pair := N.shiftr index_i 1 in
  (index_pair, index_i, index_i_sibling).

Lemma lxor_one_cases : forall i, (N.lxor i 1 = i + 1 /\ i mod 2 = 0) \/ (i = N.lxor i 1 + 1 /\ i mod 2 = 1).
Proof. intros [|[p|p|]]; [left|right|left|right]; (split; [cbn; lia|]); try reflexivity.
  - change (N.pos p~1) with (2 * N.pos p + 1)%N. rewrite N.add_comm, N.mul_comm, N.mod_add by lia. reflexivity.
  - change (N.pos p~0) with (2 * N.pos p)%N. rewrite N.mul_comm, N.mod_mul by lia. reflexivity. Qed.

Lemma shiftr_sibling : forall i, N.shiftr (N.lxor i 1) 1 = N.shiftr i 1.
Proof. intros i. rewrite N.shiftr_lxor. apply N.lxor_0_r. Qed.

(** The prover opens, for layer k, the leaf query_index >> k >> 1 (fri/src/prover.rs 83). The second result is that leaf
    for the first layer and the first result that of the second layer; the third is the other of the two leaves of the
    first layer whose values fold into that leaf. *)
Theorem C100_indices : forall q p i s, get_leaf_index_by_query_index q = (p, i, s) ->
  i = q / 2 ^ 0 / 2 /\ p = q / 2 ^ 1 / 2 /\ s <> i /\ (forall j, j / 2 = p <-> j = i \/ j = s).
Proof.
  intros q p i s E. unfold get_leaf_index_by_query_index in E. cbv zeta in E.
  assert (Ei : i = N.shiftr q 1) by congruence. assert (Es : s = N.lxor i 1) by congruence.
  assert (Ep : p = N.shiftr i 1)
    by (first [congruence | rewrite <- (shiftr_sibling i); congruence]). clear E.
  rewrite N.shiftr_div_pow2 in Ei, Ep. change (2 ^ 1) with 2 in *.
  change (2 ^ 0) with 1. rewrite N.div_1_r, <- Ei, <- Ep.
  pose proof (N.div_mod i 2 ltac:(lia)) as Di. pose proof (lxor_one_cases i) as C. rewrite <- Es in C. rewrite <- Ep in Di.
  split; [reflexivity|]. split; [reflexivity|]. split; [clear - C; lia|].
  intros j. split.
  - intros Ej. pose proof (N.div_mod j 2 ltac:(lia)) as Dj. pose proof (N.mod_lt j 2 ltac:(lia)) as Mj. rewrite Ej in Dj.
    remember (j mod 2) as r eqn:Er. assert (R : r = 0 \/ r = 1) by (clear - Mj; lia). clear Er Ej Mj Ei Ep Es.
    destruct C as [[C M]|[C M]]; rewrite M in Di; clear M; destruct R; subst r; lia.
  - intros [-> | ->]; [symmetry; exact Ep|]. symmetry. clear Ei Ep Es.
    destruct C as [[C M]|[C M]]; rewrite M in Di; clear M; [apply (N.div_unique _ _ _ 1)|apply (N.div_unique _ _ _ 0)]; lia.
Qed.

(** Read as positions in the first layer, as in the verifier (fri/src/verifier.rs 126-127: the pair of a queried position
    is query_index >> 1), the results are those of the queried position only for the first positions. *)
Theorem C100_first_layer : forall q p i s, get_leaf_index_by_query_index q = (p, i, s) ->
  (p = q / 2 <-> q < 2) /\ (i = q <-> q = 0).
Proof.
  intros q p i s E. unfold get_leaf_index_by_query_index in E. cbv zeta in E.
  assert (Ei : i = N.shiftr q 1) by congruence. assert (Es : s = N.lxor i 1) by congruence.
  assert (Ep : p = N.shiftr i 1)
    by (first [congruence | rewrite <- (shiftr_sibling i); congruence]). clear E.
  rewrite N.shiftr_div_pow2 in Ei, Ep. change (2 ^ 1) with 2 in *.
  clear Es. pose proof (N.div_mod q 2 ltac:(lia)) as D. pose proof (N.mod_lt q 2 ltac:(lia)) as M. rewrite <- Ei in D |- *.
  pose proof (N.div_mod i 2 ltac:(lia)) as D2. pose proof (N.mod_lt i 2 ltac:(lia)) as M2. rewrite <- Ep in D2.
  remember (q mod 2) as r eqn:Er. remember (i mod 2) as t eqn:Et. clear Er Et Ei Ep. split; split; lia.
Qed.
(** Position 13: leaf 6 of the first layer, whose neighbour is 7, and leaf 3 of the second. *)
Example C100_example : get_leaf_index_by_query_index 13 = (3, 6, 7).
Proof. reflexivity. Qed.
