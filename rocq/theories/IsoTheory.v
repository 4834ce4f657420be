(** Projection operators onto irreducible components, complete reducibility, regular
    representation and the sum of squared dimensions. *)
From mathcomp Require Import all_ssreflect all_algebra all_fingroup.
From Verif Require Import RepSpec RepTheory.
Import Order.TTheory GRing.Theory Num.Theory.
Set Implicit Arguments.
Unset Strict Implicit.
Unset Printing Implicit Defensive.
Local Open Scope ring_scope.

Section Iso.
Variables (C : numClosedFieldType) (gT : finGroupType) (mu : gT -> gT -> C).
Hypothesis mufs : factor_system mu.
Variable H : {group gT}.
Variables (N : nat) (L : gT -> 'M[C]_N).
Hypothesis pL : projrep mu H L.

(** S_ij = sum_g conj(D_ij(g)) L(g). *)
Definition proj_op d (D : gT -> 'M[C]_d) i j : 'M[C]_N := \sum_(g in H) (D g i j)^* *: L g.

Lemma proj_shift d (D : gT -> 'M[C]_d) h i j : projrep mu H D -> unirep H D -> h \in H ->
  L h *m proj_op D i j = \sum_k D h k i *: proj_op D k j.
Proof.
move=> pD uD hH; rewrite /proj_op mulmx_sumr.
transitivity (\sum_(g in H) \sum_k (D h k i * (D (h * g)%g k j)^*) *: L (h * g)%g).
  apply: eq_bigr => g gH; rewrite -scalemxAr (pr_mul pL) // scalerA -scaler_suml; congr (_ *: _).
  have -> : D g = mu h g *: (adj (D h) *m D (h * g)%g).
    by rewrite scalemxAr -(pr_mul pD) // mulmxA (unirep_l uD hH) mul1mx.
  rewrite mxE rmorphM /= mulrC mulrA (norm1_mul_conj (fs_norm mufs h g)) mul1r.
  rewrite mxE rmorph_sum /=; apply: eq_bigr => k _.
  by rewrite rmorphM /= adjE conjCK.
rewrite exchange_big /=; apply: eq_bigr => k _.
rewrite scaler_sumr [RHS](reindex_inj (mulgI h)) /=.
by apply: eq_big => [g|g gH]; rewrite ?groupMl ?scalerA.
Qed.

Definition orthonormal d1 d2 (D : gT -> 'M[C]_d1) (D' : gT -> 'M[C]_d2) (same : bool) : Prop :=
  forall i j k l, \sum_(g in H) (D g i j)^* * D' g k l =
    if same then #|H|%:R / d1%:R * ((val i == val k) && (val j == val l))%:R else 0.

Lemma proj_mul d1 d2 (D : gT -> 'M[C]_d1) (D' : gT -> 'M[C]_d2) i j k l :
  projrep mu H D' -> unirep H D' ->
  proj_op D i j *m proj_op D' k l = \sum_m (\sum_(g in H) (D g i j)^* * D' g m k) *: proj_op D' m l.
Proof.
move=> pD' uD'; rewrite {1}/proj_op mulmx_suml.
under eq_bigr => g gH do rewrite -scalemxAl proj_shift // scaler_sumr.
rewrite exchange_big /=; apply: eq_bigr => m _; rewrite scaler_suml.
by apply: eq_bigr => g _; rewrite scalerA.
Qed.

Definition proj_iso d (D : gT -> 'M[C]_d) : 'M[C]_N := (d%:R / #|H|%:R) *: \sum_i proj_op D i i.

Lemma proj_isoE d (D : gT -> 'M[C]_d) :
  proj_iso D = (d%:R / #|H|%:R) *: \sum_(g in H) (\tr (D g))^* *: L g.
Proof.
congr (_ *: _); rewrite /proj_op exchange_big /=; apply: eq_bigr => g _.
by rewrite -scaler_suml rmorph_sum.
Qed.

Lemma ortho_eq d (D : gT -> 'M[C]_d) : projrep mu H D -> unirep H D -> cip H D D = #|H|%:R ->
  forall i j k l, \sum_(g in H) (D g i j)^* * D g k l =
     #|H|%:R / d%:R * ((i == k) && (j == l))%:R.
Proof.
move=> pD uD nD i j k l; have := great_orthogonality mufs pD uD nD k l i j.
rewrite [k == i]eq_sym [l == j]eq_sym => <-.
by apply: eq_bigr => g _; rewrite mulrC.
Qed.
Lemma ortho_neq d1 d2 (D : gT -> 'M[C]_d1) (D' : gT -> 'M[C]_d2) :
  projrep mu H D -> unirep H D -> cip H D D = #|H|%:R ->
  projrep mu H D' -> unirep H D' -> cip H D' D' = #|H|%:R ->
  cip H D D' = 0 -> forall i j k l, \sum_(g in H) (D g i j)^* * D' g k l = 0.
Proof.
move=> pD uD nD pD' uD' nD' c0 i j k l.
have := avgE H D' D l j k i; set X := delta_mx _ _ => e.
suff z : avg H D' D X = 0.
  by move: e; rewrite z mxE => e; rewrite [RHS]e; apply: eq_bigr => g _; rewrite mulrC.
apply/eqP; apply/negPn/negP => nz.
have eq : equivalent H D' D.
  exact: (intertwiner_equivalent mufs pD' uD' nD' pD uD nD (avg_intertwines mufs X pD' pD uD) nz).
have := equivalent_cip nD (equivalent_sym eq).
by rewrite c0 => /eqP; rewrite eq_sym (negbTE (cardH_neq0 C H)).
Qed.

Lemma proj_iso_idem d (D : gT -> 'M[C]_d) : projrep mu H D -> unirep H D -> cip H D D = #|H|%:R ->
  proj_iso D *m proj_iso D = proj_iso D.
Proof.
move=> pD uD nD; rewrite /proj_iso -scalemxAl -scalemxAr; congr (_ *: _).
have d0 : (d%:R : C) != 0 by rewrite pnatr_eq0 -lt0n (norm1_dim nD).
rewrite mulmx_suml scaler_sumr; apply: eq_bigr => i _.
rewrite mulmx_sumr (bigD1 i) //= big1 => [|k ki].
  rewrite addr0 proj_mul //; under eq_bigr => m _ do rewrite ortho_eq //.
  rewrite (bigD1 i) //= big1 => [|m mi].
    by rewrite addr0 !eqxx mulr1 scalerA mulrA divfK ?divff ?scale1r // (cardH_neq0 C H).
  by rewrite eq_sym (negbTE mi) mulr0 scale0r.
rewrite proj_mul // big1 // => m _.
by rewrite ortho_eq // [i == k]eq_sym (negbTE ki) andbF mulr0 scale0r.
Qed.
Lemma proj_iso_orth d1 d2 (D : gT -> 'M[C]_d1) (D' : gT -> 'M[C]_d2) :
  projrep mu H D -> unirep H D -> cip H D D = #|H|%:R ->
  projrep mu H D' -> unirep H D' -> cip H D' D' = #|H|%:R ->
  cip H D D' = 0 -> proj_iso D *m proj_iso D' = 0.
Proof.
move=> pD uD nD pD' uD' nD' c0; rewrite /proj_iso -scalemxAl -scalemxAr.
rewrite mulmx_suml big1 ?scaler0 // => i _; rewrite mulmx_sumr big1 // => k _.
by rewrite proj_mul // big1 // => m _; rewrite ortho_neq // scale0r.
Qed.
Lemma proj_iso_comm d (D : gT -> 'M[C]_d) h : projrep mu H D -> unirep H D -> h \in H ->
  L h *m proj_iso D = proj_iso D *m L h.
Proof.
move=> pD uD hH; rewrite proj_isoE -scalemxAr -scalemxAl; congr (_ *: _).
rewrite mulmx_sumr mulmx_suml (reindex_inj (conjg_inj h)) /=.
apply: eq_big => [g|g gJ]; first by rewrite groupJr.
have gH : g \in H by rewrite groupJr in gJ.
rewrite -scalemxAl -scalemxAr !(pr_mul pL) // -conjgC !scalerA; congr (_ *: _).
have : \tr (D g) * mu h (g ^ h)%g = mu g h * \tr (D (g ^ h)%g).
  have e : D g *m D h = (mu g h / mu h (g ^ h)%g) *: (D h *m D (g ^ h)%g).
    by rewrite !(pr_mul pD) // scalerA mulfVK ?(mu_neq0 mufs) // -conjgC.
  have : \tr (D g) = (mu g h / mu h (g ^ h)%g) * \tr (D (g ^ h)%g).
    rewrite -mxtraceZ.
    rewrite -[D g]mulmx1 -(uD h hH) mulmxA e -scalemxAl mxtraceZ mxtraceZ mxtrace_mulC mulmxA.
    by rewrite (unirep_l uD hH) mul1mx.
  by move=> ->; rewrite mulrAC divfK ?(mu_neq0 mufs).
move=> e; have e' : \tr (D (g ^ h)%g) = (mu g h)^-1 * (\tr (D g) * mu h (g ^ h)%g).
  by rewrite e mulKf ?(mu_neq0 mufs).
rewrite e' !rmorphM /= fmorphV -!mulrA.
rewrite [(mu h (g ^ h)%g)^* * _]mulrC (norm1_mul_conj (fs_norm mufs _ _)) mulr1.
rewrite mulrC; congr (_ * _).
by rewrite -(norm1_inv (fs_norm mufs _ _)) invrK.
Qed.
End Iso.

(** An idempotent is a product U V with V U = 1. *)
Lemma idem_factor_gen (F : fieldType) N k (U : 'M[F]_(N, k)) (V : 'M[F]_(k, N)) X Y :
  X *m U = 1%:M -> V *m Y = 1%:M -> (U *m V) *m (U *m V) = U *m V -> V *m U = 1%:M.
Proof.
move=> hX hY /(congr1 (fun M => X *m M *m Y)).
by rewrite !mulmxA hX !mul1mx -!mulmxA hY !mulmx1.
Qed.
Lemma idem_factor (F : fieldType) N (Q : 'M[F]_N) : Q *m Q = Q ->
  row_base Q *m col_base Q = 1%:M.
Proof.
move=> QQ.
have [X hX] : exists X, X *m col_base Q = 1%:M by apply/row_fullP; exact: col_base_full.
have [Y hY] : exists Y, row_base Q *m Y = 1%:M by apply/row_freeP; exact: row_base_free.
apply: (idem_factor_gen hX hY).
have e := mulmx_base Q; move: (col_base Q *m row_base Q) e => Z ->; exact: QQ.
Qed.

(** ** Complete reducibility *)
Section Complete.
Variables (C : numClosedFieldType) (gT : finGroupType) (mu : gT -> gT -> C).
Hypothesis mufs : factor_system mu.
Variable H : {group gT}.
(** A finite family of irreps. *)
Variables (I : finType) (dim : I -> nat) (D : forall i, gT -> 'M[C]_(dim i)).
Hypothesis pD : forall i, projrep mu H (D i).
Hypothesis uD : forall i, unirep H (D i).
Hypothesis nD : forall i, cip H (D i) (D i) = #|H|%:R.
Hypothesis oD : forall i j, i != j -> cip H (D i) (D j) = 0.
Hypothesis cD : forall m (B : gT -> 'M[C]_m), (0 < m)%N -> projrep mu H B ->
  exists i, cip H (D i) B != 0.

Lemma proj_sum N (L : gT -> 'M[C]_N) : projrep mu H L -> \sum_i proj_iso H L (D i) = 1%:M.
Proof.
move=> pL; set P := \sum_i _.
have PP i : proj_iso H L (D i) *m P = proj_iso H L (D i).
  rewrite /P mulmx_sumr (bigD1 i) //= big1 => [|j ji].
    by rewrite addr0 (proj_iso_idem mufs pL).
  by apply: (proj_iso_orth mufs pL) => //; apply: oD; rewrite eq_sym.
have Pc h : h \in H -> L h *m P = P *m L h.
  by move=> hH; rewrite /P mulmx_sumr mulmx_suml; apply: eq_bigr => i _; apply: (proj_iso_comm mufs pL).
have PPP : P *m P = P by rewrite {1}/P mulmx_suml; apply: eq_bigr => i _.
pose Q := 1%:M - P.
have QQ : Q *m Q = Q by rewrite /Q mulmxBl mul1mx mulmxBr mulmx1 PPP subrr subr0.
have Qc h : h \in H -> L h *m Q = Q *m L h.
  by move=> hH; rewrite /Q mulmxBl mulmxBr mul1mx mulmx1 Pc.
suff /eqP : Q = 0 by rewrite subr_eq0 => /eqP.
apply/eqP; rewrite -mxrank_eq0 -leqn0 leqNgt; apply/negP => Q0.
have [m [U [V [m0 UV VU]]]] : exists m (U : 'M[C]_(N, m)) (V : 'M[C]_(m, N)),
    [/\ (0 < m)%N, U *m V = Q & V *m U = 1%:M].
  by exists (\rank Q), (col_base Q), (row_base Q); split; rewrite ?mulmx_base ?idem_factor.
have VQ : V *m Q = V by rewrite -UV mulmxA VU mul1mx.
pose B h := V *m L h *m U.
have pB : projrep mu H B.
  split; first by rewrite /B (pr_one pL) mulmx1.
  move=> x y xH yH; rewrite /B !mulmxA -[V *m L x *m U *m V]mulmxA UV -[V *m L x *m Q]mulmxA Qc //.
  by rewrite mulmxA VQ -[V *m L x *m L y]mulmxA (pr_mul pL) // -scalemxAr -scalemxAl.
have [i /negP ci] := cD m0 pB; apply: ci; apply/eqP.
have : \tr (proj_iso H L (D i) *m Q) = 0.
  by rewrite /Q mulmxBr mulmx1 PP subrr mxtrace0.
rewrite proj_isoE -scalemxAl mxtraceZ => /eqP.
rewrite mulf_eq0 mulf_eq0 invr_eq0 (negbTE (cardH_neq0 C H)) orbF.
have -> : ((dim i)%:R == 0 :> C) = false by rewrite pnatr_eq0; apply: gtn_eqF; apply: (norm1_dim (nD i)).
move/eqP => <-; rewrite mulmx_suml raddf_sum /=; apply: eq_bigr => g gH.
rewrite -scalemxAl mxtraceZ; congr (_ * _).
by rewrite /B mxtrace_mulC mulmxA UV mxtrace_mulC.
Qed.

(** Multiplicities: dimension count. *)
Lemma dim_count N (L : gT -> 'M[C]_N) : projrep mu H L ->
  N%:R = \sum_i (dim i)%:R / #|H|%:R * cip H (D i) L.
Proof.
move=> pL; rewrite -(mxtrace1 C N) -(proj_sum pL) raddf_sum; apply: eq_bigr => i _.
rewrite /= proj_isoE mxtraceZ raddf_sum; congr (_ * _).
by apply: eq_bigr => g _; rewrite /= mxtraceZ.
Qed.
End Complete.

(** ** Regular representation *)
Section Regular.
Variables (C : numClosedFieldType) (gT : finGroupType) (mu : gT -> gT -> C).
Hypothesis mufs : factor_system mu.
Definition regrep (g : gT) : 'M[C]_#|gT| :=
  \matrix_(i, j) if enum_val i == (g * enum_val j)%g then mu g (enum_val j) else 0.
Lemma regrep_proj : projrep mu [set: gT] regrep.
Proof.
split.
  apply/matrixP => i j; rewrite !mxE mul1g (mu1x mufs) (inj_eq enum_val_inj).
  by case: eqP.
move=> x y _ _; apply/matrixP => i j; rewrite !mxE.
pose k0 := enum_rank (y * enum_val j)%g.
rewrite (bigD1 k0) //= big1 => [|k kk0]; last first.
  rewrite !mxE; have -> : (enum_val k == (y * enum_val j)%g) = false.
    by apply: contraNF kk0 => /eqP e; rewrite /k0 -e enum_valK.
  by rewrite mulr0.
rewrite addr0 !mxE enum_rankK eqxx mulgA; case: eqP => _; last by rewrite mul0r mulr0.
by rewrite (fs_cocycle mufs) mulrC.
Qed.
Lemma regrep_tr g : \tr (regrep g) = if g == 1%g then #|gT|%:R else 0.
Proof.
rewrite /mxtrace; case: eqP => [->|/eqP ne].
  under eq_bigr => i _ do rewrite mxE mul1g eqxx (mu1x mufs).
  by rewrite sumr_const card_ord.
rewrite big1 // => i _; rewrite mxE; case: eqP => // e; case/eqP: ne.
by apply: (mulIg (enum_val i)); rewrite -e mul1g.
Qed.

Section Squares.
Variables (I : finType) (dim : I -> nat) (D : forall i, gT -> 'M[C]_(dim i)).
Let G := [set: gT]%G.
Hypothesis pD : forall i, projrep mu G (D i).
Hypothesis uD : forall i, unirep G (D i).
Hypothesis nD : forall i, cip G (D i) (D i) = #|G|%:R.
Hypothesis oD : forall i j, i != j -> cip G (D i) (D j) = 0.
Hypothesis cD : forall m (B : gT -> 'M[C]_m), (0 < m)%N -> projrep mu G B ->
  exists i, cip G (D i) B != 0.
Lemma sum_squares : (\sum_i dim i ^ 2 = #|gT|)%N.
Proof.
apply/eqP; rewrite -(eqr_nat C) natr_sum.
rewrite (dim_count mufs pD uD nD oD cD regrep_proj); apply/eqP; apply: eq_bigr => i _.
rewrite /cip (bigD1 1%g) ?inE //= big1 => [|g /andP [_ g1]].
  have n0 : (#|gT|%:R : C) != 0 by have := cardH_neq0 C G; rewrite cardsT.
  by rewrite addr0 regrep_tr eqxx (pr_one (pD i)) mxtrace1 conjC_nat cardsT mulrACA mulVf // mulr1 natrX expr2.
by rewrite regrep_tr (negbTE g1) mulr0.
Qed.
End Squares.
End Regular.
