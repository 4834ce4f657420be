(** Property theorems C22-C24: the chain method of irreps.py:408-559. *)
From Coq Require Import QArith List ZArith Znumtheory Lia.
From mathcomp Require Import all_ssreflect all_algebra all_fingroup.
From Verif Require Import Py GroupModel GroupSpec GroupProofs ChainSpec RepSpec RepModel CExpSpec ChainModel
  RepTheory IndexRepSpec IndexGroup CompleteTheory ChainTheory ChainLoop ExpInstance ChainProofs.
Import Order.TTheory GRing.Theory Num.Theory.
Set Implicit Arguments.
Unset Strict Implicit.
Local Open Scope ring_scope.

(** The assumptions on NumPy's elementary functions, in exact arithmetic. *)
Record oracles (C : numClosedFieldType) (around : C -> C) (cpowinv nroot : C -> nat -> C) (cexp : Q -> C) (atol : C) : Prop := {
  or_around : forall m, around m%:R = m%:R;
  or_cpowinv : forall z m, (0 < m)%N -> cpowinv z m ^+ m = z;
  or_nroot : forall z m, (0 < m)%N -> nroot z m ^+ m = z;
  or_cexp : exp_spec cexp;
  or_atol : 0 <= atol }.

Section Claims.
Variables (C : numClosedFieldType) (around : C -> C) (cpowinv nroot : C -> nat -> C)
  (rnd : nat -> forall d, 'M[C]_d) (cexp : Q -> C) (atol : C) (max_num : nat).
Local Notation run := (enumerate_unitary_irreps_from_solvable_group_chain around cpowinv nroot rnd cexp).

(** The outcome: all irreps, or the intertwiner warning, which occurs only for unlucky
    random matrices. *)
Theorem C22_C24_chain_outcome : forall n t e mu gens,
  oracles around cpowinv nroot cexp atol ->
  wf_table n t -> group_law n (tget t) e -> ifactor_system n (tget t) e mu ->
  chain_of_group n (tget t) e gens ->
  (run t mu atol max_num gens = CWarn /\ unlucky_samples n rnd atol max_num) \/
  exists L, run t mu atol max_num gens = COk (L, true) /\
    (forall k, (k < size L)%N -> aorder (lget L k) = n) /\
    complete_irreps n (tget t) e mu (size L) (fun k => aget (lget L k)).
Proof.
move=> n t e mu gens [o1 o2 o3 o4 o5] W G fs ch.
case: (chain_result W G fs rnd max_num o1 o2 o3 o4 o5 ch) => [h|[L [h1 h2 h3]]]; [by left|right].
by exists L.
Qed.

Theorem C22_chain_unitary_projective : forall n t e mu gens L b k,
  oracles around cpowinv nroot cexp atol ->
  wf_table n t -> group_law n (tget t) e -> ifactor_system n (tget t) e mu ->
  chain_of_group n (tget t) e gens ->
  run t mu atol max_num gens = COk (L, b) -> (k < size L)%N ->
  b = true /\ aorder (lget L k) = n /\
  aget (lget L k) e = 1%:M /\
  (forall g h, (g < n)%N -> (h < n)%N ->
     aget (lget L k) g *m aget (lget L k) h = mu g h *: aget (lget L k) (tget t g h)) /\
  (forall g, (g < n)%N -> aget (lget L k) g *m adj (aget (lget L k) g) = 1%:M).
Proof.
move=> n t e mu gens L b k O W G fs ch.
case: (C22_C24_chain_outcome O W G fs ch) => [[-> //]|[L' [-> [sz ci]]] [<- <-] kl].
have [h1 h2] := ci_rep ci kl; have h3 := ci_unitary ci kl.
by split=> //; split; [exact: sz|].
Qed.

Theorem C23_chain_irreducible_inequivalent : forall n t e mu gens L b,
  oracles around cpowinv nroot cexp atol ->
  wf_table n t -> group_law n (tget t) e -> ifactor_system n (tget t) e mu ->
  chain_of_group n (tget t) e gens ->
  run t mu atol max_num gens = COk (L, b) ->
  (forall k, (k < size L)%N -> iirreducible n (aget (lget L k))) /\
  (forall k l, (k < size L)%N -> (l < size L)%N -> k <> l ->
     ~ iequivalent n (aget (lget L k)) (aget (lget L l))) /\
  (forall k l, (k < size L)%N -> (l < size L)%N ->
     \sum_(g < n) (\tr (aget (lget L k) g))^* * \tr (aget (lget L l) g) = if k == l then n%:R else 0).
Proof.
move=> n t e mu gens L b O W G fs ch.
case: (C22_C24_chain_outcome O W G fs ch) => [[-> //]|[L' [-> [sz ci]]] [<- _]].
split; first exact: (ci_irreducible ci).
split; first exact: (ci_inequivalent ci).
exact: (ci_orthogonal ci).
Qed.

Theorem C24_chain_complete : forall n t e mu gens L b,
  oracles around cpowinv nroot cexp atol ->
  wf_table n t -> group_law n (tget t) e -> ifactor_system n (tget t) e mu ->
  chain_of_group n (tget t) e gens ->
  run t mu atol max_num gens = COk (L, b) ->
  (forall d (F : nat -> 'M[C]_d), iprojrep n (tget t) e mu F -> iirreducible n F ->
     exists k, [/\ (k < size L)%N, iequivalent n (aget (lget L k)) F &
       forall l, (l < size L)%N -> iequivalent n (aget (lget L l)) F -> l = k]) /\
  (\sum_(k < size L) adim (lget L k) ^ 2 = n)%N.
Proof.
move=> n t e mu gens L b O W G fs ch.
case: (C22_C24_chain_outcome O W G fs ch) => [[-> //]|[L' [-> [sz ci]]] [<- _]].
split; first exact: (ci_complete ci).
exact: (ci_squares ci).
Qed.
End Claims.
Print Assumptions C22_C24_chain_outcome.
Print Assumptions C22_chain_unitary_projective.
Print Assumptions C23_chain_irreducible_inequivalent.
Print Assumptions C24_chain_complete.

(** The assumptions can be met: in every algebraically closed field with conjugation
    there are functions with the required properties. *)
Example C22_oracles_exist (C : numClosedFieldType) :
  oracles (C := C) id (fun z m => m.-root z) (fun z m => m.-root z) (@cexp_inst C) 0.
Proof.
split=> //; try by move=> z m m0; rewrite rootCK.
exact: cexp_inst_spec.
Qed.

(** The spin-1/2 factor system of the group 222: quaternions, a projective
    representation that is not linear. *)
Definition ex_t : table := [:: [:: 0; 1; 2; 3]; [:: 1; 0; 3; 2]; [:: 2; 3; 0; 1]; [:: 3; 2; 1; 0]]%N.
Definition ex_mu (C : numClosedFieldType) (i j : nat) : C :=
  if (i, j) \in [:: (1, 1); (1, 3); (2, 2); (2, 1); (3, 3); (3, 2)]%N then -1 else 1.
Example C22_hypotheses_met (C : numClosedFieldType) :
  wf_table 4 ex_t /\ group_law 4 (tget ex_t) 0 /\ ifactor_system 4 (tget ex_t) 0 (@ex_mu C) /\
  chain_of_group 4 (tget ex_t) 0 [:: 2; 1]%N /\ (@ex_mu C 1 2 != @ex_mu C 2 1).
Proof.
have case4 i : (i < 4)%coq_nat -> i = 0%N \/ i = 1%N \/ i = 2%N \/ i = 3%N by lia.
split; first by split=> // i /case4; intuition; subst.
split.
  split.
  - by move=> i j /case4 hi /case4 hj; intuition; subst; apply/ssrnat.ltP.
  - by move=> i j k /case4 hi /case4 hj /case4 hk; intuition; subst.
  - exact/ssrnat.ltP.
  - by move=> i /case4 hi; intuition; subst.
  - by move=> i /case4 hi; intuition; subst.
  - by move=> i /case4 hi; exists i; intuition; subst; try apply/ssrnat.ltP.
split.
  split=> //.
  - move=> i j k /ssrnat.ltP/case4 hi /ssrnat.ltP/case4 hj /ssrnat.ltP/case4 hk.
    by intuition; subst; rewrite /ex_mu /= ?inE /= ?mulN1r ?mulr1 ?opprK ?mul1r.
  - by move=> i j _ _; rewrite /ex_mu; case: ifP; rewrite ?normrN normr1.
split; last first.
  by rewrite /ex_mu !inE /= -subr_eq0 opprK -(natrD _ 1 1) pnatr_eq0.
have sub : ChainSpec.subgroup 4 (tget ex_t) 0 [:: 0%N] by apply: subgroupb_sound.
have [F [h1 h2]] := chain_check_sound 4 (tget ex_t) 0 [:: 1; 2]%N [:: 0%N] sub (erefl true).
by exists F; split=> // x; split=> [/case4 h|/h2 //]; apply/h2.
Qed.
