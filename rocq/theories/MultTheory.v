(** Multiplicities are natural numbers; completeness from a dimension count. *)
From mathcomp Require Import all_ssreflect all_algebra all_fingroup.
From Verif Require Import GroupSpec RepSpec RepTheory IsoTheory.
Import Order.TTheory GRing.Theory Num.Theory.
Set Implicit Arguments.
Unset Strict Implicit.
Unset Printing Implicit Defensive.
Local Open Scope ring_scope.

Lemma idem_trace (F : fieldType) N (Q : 'M[F]_N) : Q *m Q = Q -> \tr Q = (\rank Q)%:R.
Proof.
move=> QQ; have e := mulmx_base Q; rewrite -[in LHS]e mxtrace_mulC idem_factor // mxtrace1 //.
Qed.

Section LinTrace.
Variables (F : fieldType) (m n : nat) (f : {linear 'M[F]_(m, n) -> 'M[F]_(m, n)}).
Lemma lin_trace : \tr (lin_mx f) = \sum_i \sum_k f (delta_mx i k) i k.
Proof.
rewrite /mxtrace (reindex _ (curry_mxvec_bij m n)) pair_bigA /=; apply: eq_bigr => -[i k] _ /=.
transitivity (row (mxvec_index i k) (lin_mx f) 0 (mxvec_index i k)); first by rewrite [RHS]mxE.
by rewrite rowE -mxvec_delta mul_vec_lin mxvecE.
Qed.
Lemma lin_idem : (forall X, f (f X) = f X) -> lin_mx f *m lin_mx f = lin_mx f.
Proof.
move=> ff; apply/row_matrixP => i; rewrite !rowE mulmxA !mul_rV_lin /=.
by rewrite mxvecK ff.
Qed.
End LinTrace.

Section Mult.
Variables (C : numClosedFieldType) (gT : finGroupType) (mu : gT -> gT -> C).
Hypothesis mufs : factor_system mu.
Variable H : {group gT}.

Lemma cip_rank d1 d2 (A : gT -> 'M[C]_d1) (B : gT -> 'M[C]_d2) :
  projrep mu H A -> projrep mu H B -> unirep H B ->
  exists k : nat, cip H A B = k%:R * #|H|%:R /\ (k = 0%N -> forall X, avg H A B X = 0).
Proof.
move=> pA pB uB; pose f X := (#|H|%:R)^-1 *: avg H A B X.
have n0 := cardH_neq0 C H.
have fl : linear f.
  move=> a X Y; rewrite /f /avg scalerA mulrC -scalerA -scalerDr; congr (_ *: _).
  rewrite scaler_sumr -big_split; apply: eq_bigr => s _ /=.
  by rewrite mulmxDr mulmxDl -scalemxAr -scalemxAl.
pose lf := Linear fl.
have ff X : lf (lf X) = lf X.
  have hT := avg_intertwines mufs X pA pB uB.
  rewrite /= /f; set T := avg H A B X in hT *.
  have -> : avg H A B (#|H|%:R^-1 *: T) = T.
    rewrite /avg (eq_bigr (fun=> #|H|%:R^-1 *: T)) => [|s sH].
      by rewrite sumr_const -scaler_nat scalerA divff // scale1r.
    by rewrite -scalemxAr hT // -scalemxAl -mulmxA uB // mulmx1.
  by [].
have tr := idem_trace (lin_idem ff); rewrite lin_trace in tr.
exists (\rank (lin_mx lf)); split; last first.
  move/eqP; rewrite mxrank_eq0 => /eqP l0 X.
  have : lf X = 0 by apply: (can_inj mxvecK); rewrite -mul_vec_lin l0 mulmx0 linear0.
  by move=> /= /eqP; rewrite scaler_eq0 invr_eq0 (negbTE n0) => /eqP.
rewrite -tr cipE /= /f.
have -> : \sum_i \sum_k (#|H|%:R^-1 *: avg H A B (delta_mx i k)) i k =
   #|H|%:R^-1 * \sum_i \sum_k avg H A B (delta_mx i k) i k.
  rewrite mulr_sumr; apply: eq_bigr => i _; rewrite mulr_sumr; apply: eq_bigr => k _.
  by rewrite mxE.
rewrite mulrC mulrA divff // mul1r; set S := \sum_i _.
have : \sum_i \sum_k lf (delta_mx i k) i k = #|H|%:R^-1 * S.
  rewrite /S mulr_sumr; apply: eq_bigr => i _; rewrite mulr_sumr; apply: eq_bigr => k _.
  by rewrite /= /f mxE.
rewrite tr => /(congr1 (fun x => #|H|%:R * x)); rewrite mulrA divff // mul1r => <-.
by rewrite rmorphM !conjC_nat.
Qed.
Lemma cip_nat d1 d2 (A : gT -> 'M[C]_d1) (B : gT -> 'M[C]_d2) :
  projrep mu H A -> projrep mu H B -> unirep H B ->
  exists k : nat, cip H A B = k%:R * #|H|%:R.
Proof. by move=> pA pB uB; have [k [h _]] := cip_rank pA pB uB; exists k. Qed.
(** A non-zero intertwiner forces a non-zero inner product. *)
Lemma cip_intertwiner d1 d2 (A : gT -> 'M[C]_d1) (B : gT -> 'M[C]_d2) Y :
  projrep mu H A -> projrep mu H B -> unirep H B ->
  (forall s, s \in H -> A s *m Y = Y *m B s) -> Y != 0 ->
  exists k : nat, cip H A B = k.+1%:R * #|H|%:R.
Proof.
move=> pA pB uB hY Y0; have [[|k] [-> h]] := cip_rank pA pB uB; last by exists k.
case/eqP: Y0; have n0 := cardH_neq0 C H; apply: (scalerI n0); rewrite scaler0 -[RHS](h erefl Y) /avg.
rewrite (eq_bigr (fun=> Y)) => [|s sH]; first by rewrite sumr_const -scaler_nat.
by rewrite hY // -mulmxA uB // mulmx1.
Qed.

Section Family.
Variables (I : finType) (dim : I -> nat) (D : forall i, gT -> 'M[C]_(dim i)).
Hypothesis pD : forall i, projrep mu H (D i).
Hypothesis uD : forall i, unirep H (D i).
Hypothesis nD : forall i, cip H (D i) (D i) = #|H|%:R.
Hypothesis oD : forall i j, i != j -> cip H (D i) (D j) = 0.

Section OneRep.
Variables (N : nat) (L : gT -> 'M[C]_N).
Hypothesis pL : projrep mu H L.
Let P := \sum_i proj_iso H L (D i).
Lemma psum_idem : P *m P = P.
Proof.
rewrite {1}/P mulmx_suml; apply: eq_bigr => i _.
rewrite /P mulmx_sumr (bigD1 i) //= big1 => [|j ji].
  by rewrite addr0 (proj_iso_idem mufs pL).
by apply: (proj_iso_orth mufs pL) => //; apply: oD; rewrite eq_sym.
Qed.
Lemma proj_tr i : \tr (proj_iso H L (D i)) = (dim i)%:R / #|H|%:R * cip H (D i) L.
Proof.
rewrite proj_isoE mxtraceZ raddf_sum; congr (_ * _).
by apply: eq_bigr => g _; rewrite /= mxtraceZ.
Qed.
Lemma psum_full : N%:R = \tr P -> P = 1%:M.
Proof.
move=> e; pose Q := 1%:M - P.
have QQ : Q *m Q = Q by rewrite /Q mulmxBl mul1mx mulmxBr mulmx1 psum_idem subrr subr0.
have := idem_trace QQ; rewrite /Q raddfB /= mxtrace1 -e subrr => /eqP.
by rewrite eq_sym pnatr_eq0 mxrank_eq0 subr_eq0 => /eqP ->.
Qed.
Lemma psum_le : \tr P <= N%:R.
Proof. by rewrite (idem_trace psum_idem) ler_nat rank_leq_row. Qed.
End OneRep.
End Family.

End Mult.

(** Pairwise orthogonal irreducible representations whose squared dimensions add up to the
    order of the group meet every representation. *)
Section Squares.
Variables (C : numClosedFieldType) (gT : finGroupType) (mu : gT -> gT -> C).
Hypothesis mufs : factor_system mu.
Let G := [set: gT]%G.
Variables (I : finType) (dim : I -> nat) (D : forall i, gT -> 'M[C]_(dim i)).
Hypothesis pD : forall i, projrep mu G (D i).
Hypothesis uD : forall i, unirep G (D i).
Hypothesis nD : forall i, cip G (D i) (D i) = #|G|%:R.
Hypothesis oD : forall i j, i != j -> cip G (D i) (D j) = 0.
Hypothesis sq : (\sum_i dim i ^ 2 = #|gT|)%N.

Lemma reg_cip i : cip G (D i) (regrep mu) = (dim i)%:R * #|G|%:R.
Proof.
rewrite /cip (bigD1 1%g) ?inE //= big1 => [|g /andP [_ g1]].
  by rewrite addr0 (regrep_tr mufs) eqxx (pr_one (pD i)) mxtrace1 conjC_nat cardsT.
by rewrite (regrep_tr mufs) (negbTE g1) mulr0.
Qed.
Lemma reg_psum : \sum_i proj_iso G (regrep mu) (D i) = 1%:M.
Proof.
have n0 := cardH_neq0 C G.
apply: (psum_full mufs pD uD nD oD (regrep_proj mufs)).
rewrite raddf_sum /=; transitivity ((\sum_i dim i ^ 2)%:R : C); first by rewrite sq.
rewrite natr_sum; apply: eq_bigr => i _.
by rewrite proj_tr reg_cip mulrACA mulVf // mulr1 natrX expr2.
Qed.
Definition coef (g : gT) : C := \sum_i (dim i)%:R / #|G|%:R * (\tr (D i g))^*.
Lemma psum_coef N (L : gT -> 'M[C]_N) : \sum_i proj_iso G L (D i) = \sum_(g in G) coef g *: L g.
Proof.
under [RHS]eq_bigr => g _ do rewrite /coef scaler_suml.
rewrite exchange_big /=; apply: eq_bigr => i _; rewrite proj_isoE scaler_sumr.
by apply: eq_bigr => g _; rewrite scalerA.
Qed.
Lemma coefE g : coef g = (g == 1%g)%:R.
Proof.
have := reg_psum; rewrite psum_coef => /(congr1 (fun M : 'M[C]_#|gT| => M (enum_rank g) (enum_rank (1%g : gT)))).
rewrite summxE (bigD1 g) ?inE //= big1 => [|h /andP [_ hg]].
  rewrite !mxE !enum_rankK mulg1 eqxx (mux1 mufs) mulr1 addr0 => ->.
  by rewrite (inj_eq enum_rank_inj).
by rewrite !mxE !enum_rankK mulg1 eq_sym (negbTE hg) mulr0.
Qed.
Lemma squares_cover m (B : gT -> 'M[C]_m) : (0 < m)%N -> projrep mu G B -> exists i, cip G (D i) B != 0.
Proof.
move=> m0 pB; have [/existsP //|] := boolP [exists i, cip G (D i) B != 0]; rewrite negb_exists => /forallP h; exfalso.
have e : \sum_i proj_iso G B (D i) = 1%:M.
  rewrite psum_coef (bigD1 1%g) ?inE //= big1 => [|g /andP [_ g1]].
    by rewrite coefE eqxx scale1r addr0 (pr_one pB).
  by rewrite coefE (negbTE g1) scale0r.
have := congr1 mxtrace e; rewrite mxtrace1 raddf_sum big1 => [|i _] /=.
  by move/eqP; rewrite eq_sym pnatr_eq0 -leqn0 leqNgt m0.
by rewrite proj_tr; have := h i; rewrite negbK => /eqP ->; rewrite mulr0.
Qed.
End Squares.
