(** The blocks obtained by projecting onto an irreducible representation: intertwining
    matrices, their reproducing property, the projectors they form, and the count. *)
From mathcomp Require Import all_ssreflect all_algebra all_fingroup.
From mathcomp Require Import zify.
From Verif Require Import RepSpec RepTheory ProjModel ProjSpec GrassTheory LinAlgExists.
Import Order.TTheory GRing.Theory Num.Theory.
Set Implicit Arguments.
Unset Strict Implicit.
Unset Printing Implicit Defensive.
Local Open Scope ring_scope.

Section Hom.
Variables (C : numClosedFieldType) (gT : finGroupType) (mu : gT -> gT -> C).
Hypothesis mufs : factor_system mu.
Variable H : {group gT}.
Local Notation cardH := (#|H|%:R : C).
Variables (N d : nat) (R : gT -> 'M[C]_N) (D : gT -> 'M[C]_d).
Hypotheses (pR : projrep mu H R) (uR : unirep H R) (pD : projrep mu H D) (uD : unirep H D).

Definition hom (T : 'M[C]_(N, d)) : Prop := forall x, x \in H -> R x *m T = T *m D x.
Definition blk (n : 'I_N) (j : 'I_d) : 'M[C]_(N, d) := (d%:R / cardH) *: avg H R D (delta_mx n j).

Lemma hom_adj T : hom T -> forall x, x \in H -> adj T *m R x = D x *m adj T.
Proof.
move=> hT x xH; have := congr1 (@adj C _ _) (hT x xH); rewrite !adjM => h.
rewrite -[RHS]mulmx1 -(unirep_l uR xH) mulmxA -(mulmxA (D x)) h mulmxA uD // mul1mx //.
Qed.
Lemma homD S T : hom S -> hom T -> hom (S + T).
Proof. by move=> hS hT x xH; rewrite mulmxDr mulmxDl hS // hT. Qed.
Lemma homZ a T : hom T -> hom (a *: T).
Proof. by move=> hT x xH; rewrite -scalemxAr -scalemxAl hT. Qed.
Lemma homB S T : hom S -> hom T -> hom (S - T).
Proof. by move=> hS hT; rewrite -scaleN1r; apply: homD => //; apply: homZ. Qed.
Lemma hom0 : hom 0.
Proof. by move=> x _; rewrite mulmx0 mul0mx. Qed.
Lemma hom_sum (I : finType) (F : I -> 'M[C]_(N, d)) : (forall i, hom (F i)) -> hom (\sum_i F i).
Proof. by move=> h; apply: big_ind => [||i _]; [exact: hom0|exact: homD|exact: h]. Qed.
Lemma hom_blk n j : hom (blk n j).
Proof. by apply: homZ => x xH; apply: (avg_intertwines mufs). Qed.

Hypothesis nD : cip H D D = cardH.
Let d0 : (0 < d)%N. Proof. exact: norm1_dim nD. Qed.
Let dn : d%:R != 0 :> C. Proof. by rewrite pnatr_eq0 -lt0n. Qed.

Lemma hom_scalar S T : hom S -> hom T -> adj S *m T = (\tr (adj S *m T) / d%:R)%:M.
Proof.
move=> hS hT; apply: (schur_scalar mufs pD uD nD) => x xH.
by rewrite mulmxA -hom_adj // -!mulmxA hT.
Qed.
Lemma hom_diag S T j : hom S -> hom T -> \tr (adj S *m T) = d%:R * (adj S *m T) j j.
Proof. by move=> hS hT; rewrite {2}hom_scalar // mxE eqxx mulr1n mulrC divfK. Qed.

Lemma blk_dual T n j : hom T -> \tr (adj T *m blk n j) = d%:R * (T n j)^*.
Proof.
move=> hT; rewrite /blk -scalemxAr mxtraceZ /avg mulmx_sumr raddf_sum /=.
rewrite (eq_bigr (fun _ => (T n j)^*)) => [|x xH]; last first.
  rewrite !mulmxA hom_adj // mxtrace_mulC !mulmxA (unirep_l uD xH) mul1mx.
  rewrite /mxtrace (bigD1 j) //= mxE (bigD1 n) //= !mxE !eqxx mulr1 big1 => [|i ni]; last by rewrite !mxE (negbTE ni) mulr0.
  rewrite big1 ?addr0 // => i ni; rewrite mxE big1 // => k _; by rewrite !mxE (negbTE ni) andbF mulr0.
by rewrite sumr_const -(mulr_natl (T n j)^*) mulrA divfK // cardH_neq0.
Qed.

(** The blocks reproduce every intertwining matrix. *)
Lemma hom_perp T : hom T -> (forall S, hom S -> \tr (adj S *m T) = 0) -> T = 0.
Proof.
move=> hT h; have := h T hT; rewrite mxtrace_mulC => e; exact: sqn_eq0.
Qed.
Lemma blk_repro T i j : hom T -> \sum_n T n i *: blk n j = (i == j)%:R *: T.
Proof.
move=> hT; apply/eqP; rewrite -subr_eq0; apply/eqP; apply: hom_perp.
  by apply: homB; [apply: hom_sum => n; apply/homZ/hom_blk|exact: homZ].
move=> S hS; rewrite mulmxBr raddfB /= mulmx_sumr raddf_sum /=.
rewrite (eq_bigr (fun n => d%:R * ((T n i) * (S n j)^*))) => [|n _]; last first.
  by rewrite -scalemxAr mxtraceZ blk_dual // mulrCA.
rewrite -mulr_sumr -scalemxAr mxtraceZ.
have -> : \sum_n T n i * (S n j)^* = (adj S *m T) j i.
  by rewrite mxE; apply: eq_bigr => n _; rewrite adjE mulrC.
rewrite hom_scalar // mxE [j == i]eq_sym mxtrace_scalar.
case: eqP => _; last by rewrite mulr0n mul0r mulr0 subrr.
by rewrite mulr1n mul1r -[X in _ - X]mulr_natl subrr.
Qed.

(** The projectors P_j and their sum. *)
Definition proj (j : 'I_d) : 'M[C]_N := \matrix_(m, n) blk n j m j.
Lemma projE j m n : proj j m n = blk n j m j. Proof. by rewrite mxE. Qed.
Lemma proj_hom j T i : hom T -> proj j *m col i T = (i == j)%:R *: col j T.
Proof.
move=> hT; apply/matrixP => m k; have := congr1 (fun X : 'M[C]_(N, d) => X m j) (blk_repro i j hT).
rewrite summxE !mxE => <-; apply: eq_bigr => n _; by rewrite !mxE mulrC.
Qed.
Lemma proj_idem j : proj j *m proj j = proj j.
Proof.
apply/matrixP => m n; have := congr1 (fun X : 'cV[C]_N => X m 0) (proj_hom j j (hom_blk n j)).
by rewrite eqxx scale1r !mxE => <-; apply: eq_bigr => k _; rewrite !mxE.
Qed.
Lemma proj_adj j : adj (proj j) = proj j.
Proof.
apply/matrixP => m n; rewrite adjE !projE.
have h1 := blk_dual n j (hom_blk m j); have h2 := blk_dual m j (hom_blk n j).
have : (\tr (adj (blk m j) *m blk n j))^* = \tr (adj (blk n j) *m blk m j).
  by rewrite -mxtrace_adj adjM adjK.
rewrite h1 h2 rmorphM rmorph_nat conjCK => /(mulfI dn) ->; by rewrite conjCK.
Qed.
(** The traces of the projectors are one and the same natural number. *)
Definition unit_mx (i j : 'I_d) : 'M[C]_N := \matrix_(m, n) blk n j m i.
Lemma unit_hom i j T l : hom T -> unit_mx i j *m col l T = (l == j)%:R *: col i T.
Proof.
move=> hT; apply/matrixP => m k; have := congr1 (fun X : 'M[C]_(N, d) => X m i) (blk_repro l j hT).
rewrite summxE !mxE => <-; apply: eq_bigr => n _; by rewrite !mxE mulrC.
Qed.
Lemma unit_mul i j : unit_mx i j *m unit_mx j i = proj i.
Proof.
apply/matrixP => m n; have := congr1 (fun X : 'cV[C]_N => X m 0) (unit_hom i j j (hom_blk n i)).
by rewrite eqxx scale1r !mxE => <-; apply: eq_bigr => k _; rewrite !mxE.
Qed.
Lemma idem_trace n (P : 'M[C]_n) : P *m P = P -> \tr P = (\rank P)%:R.
Proof.
move=> idem; rewrite -[in LHS](mulmx_base P) mxtrace_mulC.
suff -> : row_base P *m col_base P = 1%:M by rewrite mxtrace1.
have rf := row_base_free P; have cf := col_base_full P.
have E : col_base P *m (row_base P *m col_base P - 1%:M) *m row_base P = 0.
  by rewrite mulmxBr mulmxBl mulmx1 mulmxA -mulmxA !mulmx_base idem subrr.
have : col_base P *m (row_base P *m col_base P - 1%:M) = 0 by apply/eqP; rewrite -(mulmx_free_eq0 _ rf) E.
move=> /(congr1 (mulmx (pinvmx (col_base P)))); rewrite mulmxA mulmx0 mulVpmx // mul1mx => /eqP.
by rewrite subr_eq0 => /eqP.
Qed.
Lemma proj_trace : exists m : nat, forall j, \tr (proj j) = m%:R.
Proof.
exists (\rank (proj (Ordinal d0))) => j; rewrite -idem_trace ?proj_idem //.
by rewrite -(unit_mul j (Ordinal d0)) mxtrace_mulC unit_mul.
Qed.
Definition isotypic : 'M[C]_N := \sum_j proj j.
Lemma isotypic_hom T : hom T -> isotypic *m T = T.
Proof.
move=> hT; apply/matrixP => m i.
have -> : (isotypic *m T) m i = (isotypic *m col i T) m 0.
  by rewrite !mxE; apply: eq_bigr => k _; rewrite !mxE.
rewrite /isotypic mulmx_suml summxE (bigD1 i) //= proj_hom // eqxx scale1r big1 ?addr0 ?mxE //.
by move=> j ji; rewrite proj_hom // eq_sym (negbTE ji) scale0r mxE.
Qed.
Lemma isotypic_tr : cardH * \tr isotypic = d%:R * cip H D R.
Proof.
have -> : \tr isotypic = \sum_j \sum_n blk n j n j.
  by rewrite /isotypic raddf_sum; apply: eq_bigr => j _; apply: eq_bigr => n _; rewrite mxE.
rewrite (eq_bigr (fun j => d%:R / cardH * \sum_n \sum_(s in H) R s n n * (D s j j)^*)); last first.
  by move=> j _; rewrite mulr_sumr; apply: eq_bigr => n _; rewrite mxE avgE.
rewrite -mulr_sumr mulrA mulrCA divff ?cardH_neq0 // mulr1; congr (_ * _).
rewrite /cip (eq_bigr (fun j => \sum_(s in H) (D s j j)^* * \tr (R s))); last first.
  move=> j _; rewrite exchange_big; apply: eq_bigr => s _; rewrite mulr_sumr.
  by apply: eq_bigr => n _; rewrite mulrC.
rewrite exchange_big; apply: eq_bigr => s _; rewrite /mxtrace rmorph_sum /= mulr_suml.
by [].
Qed.

Lemma cip_nat : exists m : nat, cip H D R = cardH * m%:R.
Proof.
have [m hm] := proj_trace; exists m; apply: (mulfI dn); rewrite -isotypic_tr mulrCA; congr (_ * _).
rewrite /isotypic raddf_sum /= (eq_bigr _ (fun j _ => hm j)) sumr_const card_ord -mulr_natr mulrC //.
Qed.

(** Squared distances of the generating vectors to a space spanned by intertwining blocks. *)
Section Count.
Variables (k : nat) (Y : 'M[C]_(N, k)).
Hypotheses (YY : adj Y *m Y = 1%:M) (PY : isotypic *m Y = Y).
Lemma count_dist : \sum_n \sum_j (\tr (adj (blk n j) *m blk n j) / d%:R
    - \sum_a `|(adj Y *m blk n j) a j| ^+ 2) = \tr isotypic - k%:R.
Proof.
rewrite (eq_bigr (fun n => \sum_j proj j n n - \sum_j \sum_a `|(adj Y *m blk n j) a j| ^+ 2)); last first.
  move=> n _; rewrite -sumrB; apply: eq_bigr => j _; congr (_ - _).
  rewrite blk_dual; last exact: hom_blk.
  by rewrite mulrC mulKf // -proj_adj adjE projE.
rewrite sumrB; congr (_ - _).
  by rewrite exchange_big /= /isotypic raddf_sum; apply: eq_bigr.
have E j : \sum_n \sum_a `|(adj Y *m blk n j) a j| ^+ 2 = \tr (adj Y *m proj j *m Y).
  transitivity (\tr ((adj Y *m proj j) *m adj (adj Y *m proj j))).
    rewrite tr_mul_adj exchange_big /= pair_big /=; apply: eq_bigr => -[a n] _ /=.
    have -> : (adj Y *m proj j) a n = (adj Y *m blk n j) a j by rewrite !mxE; apply: eq_bigr => i _; rewrite !mxE.
    by rewrite normCK.
  by rewrite adjM proj_adj adjK -!mulmxA (mulmxA (proj j)) proj_idem.
rewrite exchange_big /= (eq_bigr _ (fun j _ => E j)) -raddf_sum /=.
rewrite (_ : \sum_j _ = adj Y *m isotypic *m Y); last by rewrite /isotypic mulmx_sumr mulmx_suml.
by rewrite -mulmxA PY YY mxtrace1.
Qed.
End Count.

(** The part of a block outside an invariant space is again a block. *)
Lemma hom_off k (Y : 'M[C]_(N, k)) T : adj Y *m Y = 1%:M ->
  (forall x, x \in H -> exists M, R x *m Y = Y *m M) -> hom T -> hom (T - Y *m (adj Y *m T)).
Proof.
move=> YY inv hT x xH; have [M RY] := inv x xH.
have MM : adj M *m M = 1%:M.
  have : adj (R x *m Y) *m (R x *m Y) = 1%:M by rewrite adjM -mulmxA (mulmxA (adj (R x))) (unirep_l uR xH) mul1mx.
  by rewrite RY adjM -mulmxA (mulmxA (adj Y)) YY mul1mx.
have YR : adj Y *m R x = M *m adj Y.
  have : adj (R x) *m Y = Y *m adj M.
    rewrite -[Y in LHS]mulmx1 -(mulmx1C MM) !mulmxA -(mulmxA (adj (R x)) Y) -RY mulmxA (unirep_l uR xH) mul1mx //.
  by move=> /(congr1 (@adj C _ _)); rewrite !adjM !adjK.
rewrite mulmxBr mulmxBl hT //; congr (_ - _).
by rewrite mulmxA RY -!mulmxA -hT // (mulmxA (adj Y)) YR -!mulmxA.
Qed.
End Hom.
