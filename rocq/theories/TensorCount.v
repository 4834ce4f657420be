(** The number of independent invariant tensors is the average of the power of the character. *)
From Coq Require Import ZArith List.
From mathcomp Require Import all_ssreflect all_algebra all_fingroup.
From mathcomp.real_closed Require Import mxtens.
From Verif Require Import Mat3 GroupSpec RepSpec RepModel RepTheory IsoTheory MultTheory IndexRepSpec ChainModel ProjModel ProjSpec GrassTheory ProjProofs
  TensorModel TensorSpec TensorTheory TensorProofs TensorIndex.
Import Order.TTheory GRing.Theory Num.Theory.
Set Implicit Arguments.
Unset Strict Implicit.
Unset Printing Implicit Defensive.
Local Open Scope ring_scope.

Section Count.
Variable C : numClosedFieldType.
Variables (n : nat) (mul : nat -> nat -> nat) (e : nat).
Hypothesis GL : group_law n mul e.
Variables (m : nat) (R : nat -> 'M[C]_m).
Hypothesis pR : iprojrep n mul e (fun _ _ => 1) R.

Lemma tact_mul p (A B : 'M[C]_m) : tact p (A *m B) = tact p A *m tact p B.
Proof. by elim: p => [//|p IH]; rewrite /= IH tensmx_mul. Qed.
Lemma tact_trace p (A : 'M[C]_m) : \tr (tact p A) = (\tr A) ^+ p.+1.
Proof.
rewrite /mxtrace sum_flat -[in RHS](card_ord p.+1) -prodr_const bigA_distr_bigA; apply: eq_bigr => x _.
by rewrite tactE.
Qed.

Variable p : nat.
Local Notation P := (n%:R^-1 *: \sum_(g < n) tact p (R g)).
Let n0 : (n%:R : C) != 0.
Proof. by have /ssrnat.ltP := gl_e _ _ _ GL; rewrite pnatr_eq0; case: (n). Qed.
Let absorb g : (g < n)%N -> tact p (R g) *m (\sum_(h < n) tact p (R h)) = \sum_(h < n) tact p (R h).
Proof.
move=> hg; have hg' := ssrnat.ltP hg.
have cl (h : 'I_n) : (mul g h < n)%N by apply/ssrnat.ltP; apply: (gl_closed _ _ _ GL) => //; apply/ssrnat.ltP.
have [gi [hi [_ ig]]] := gl_inv _ _ _ GL g hg'.
have cl' (h : 'I_n) : (mul gi h < n)%N by apply/ssrnat.ltP; apply: (gl_closed _ _ _ GL) => //; apply/ssrnat.ltP.
have inj : injective (fun h : 'I_n => Ordinal (cl h)).
  move=> h h' [] hh; apply: val_inj => /=.
  have := congr1 (mul gi) hh.
  rewrite !(gl_assoc _ _ _ GL) ?ig ?(gl_1l _ _ _ GL) //; exact/ssrnat.ltP.
rewrite mulmx_sumr [RHS](reindex_inj inj) /=; apply: eq_bigr => h _.
by rewrite -tact_mul; case: pR => _ ->; rewrite ?scale1r.
Qed.
Lemma invariantP (T : 'rV[C]_(tdim m p)) : tensor_invariant n R T <-> P *m T^T = T^T.
Proof.
split=> [h|h g hg].
  rewrite -scalemxAl mulmx_suml (eq_bigr (fun=> T^T)) => [|g _]; last by apply/tact_entry; exact: h.
  by rewrite sumr_const card_ord -scaler_nat scalerA mulVf // scale1r.
by apply/tact_entry; rewrite -h mulmxA -scalemxAr absorb.
Qed.
Lemma count_idem : P *m P = P.
Proof.
rewrite -scalemxAl -scalemxAr scalerA mulmx_suml (eq_bigr _ (fun g _ => absorb (ltn_ord g))) sumr_const card_ord.
by rewrite -scaler_nat scalerA -mulrA mulVf // mulr1.
Qed.
Lemma stack_ind N (vs : seq 'rV[C]_N) : vectors_independent vs -> row_free (stack vs).
Proof.
move=> ind; apply: independent_stack => c h a ha; apply/matrixP => i j; rewrite !ord1 mxE.
apply: (ind (fun a => c a 0 0)) => //; rewrite -[RHS]h; apply: eq_bigr => k _.
by rewrite [in RHS](mx11_scalar (c k)) mul_scalar_mx.
Qed.
Lemma invariants_count : exists N : nat,
  [/\ \sum_(g < n) (\tr (R g)) ^+ p.+1 = n%:R * N%:R,
      forall ts : seq 'rV[C]_(tdim m p), (forall T, T \in ts -> tensor_invariant n R T) -> vectors_independent ts -> (size ts <= N)%N &
      forall ts : seq 'rV[C]_(tdim m p), (forall T, T \in ts -> tensor_invariant n R T) -> vectors_independent ts ->
        (forall T, tensor_invariant n R T -> combination ts T) -> size ts = N].
Proof.
have QQ : P^T *m P^T = P^T by rewrite -trmx_mul count_idem.
have up (ts : seq 'rV[C]_(tdim m p)) : (forall T, T \in ts -> tensor_invariant n R T) -> (stack ts <= P^T)%MS.
  elim: ts => [|T ts IH] h; first by apply/row_subP => -[].
  rewrite (stack_cons T ts) addsmx_sub IH ?andbT => [|T' h']; last by apply: h; rewrite inE h' orbT.
  have /invariantP hT := h T (mem_head _ _); apply/submxP; exists T.
  by rewrite -[LHS]trmxK -hT trmx_mul trmxK.
have sz (ts : seq 'rV[C]_(tdim m p)) : vectors_independent ts -> \rank (stack ts) = size ts.
  by move=> /stack_ind /eqP ->; rewrite muln1.
exists (\rank P^T); split.
- have /(congr1 (fun x => n%:R * x)) := idem_trace QQ; rewrite mxtrace_tr mxtraceZ mulVKf // => <-.
  by rewrite raddf_sum /=; apply: eq_bigr => g _; rewrite tact_trace.
- by move=> ts h ind; rewrite -(sz ts ind); apply: mxrankS; apply: up.
move=> ts h ind all; rewrite -(sz ts ind); apply/eqP; rewrite eqn_leq (mxrankS (up ts h)) /=; apply: mxrankS.
apply/row_subP => i; apply: comb_vectors; apply: all; apply/invariantP.
by rewrite tr_row trmxK !colE mulmxA count_idem.
Qed.
End Count.
