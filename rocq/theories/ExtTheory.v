(** Extending projective representations from a normal subgroup H to K = <H, r>:
    extension of a self-conjugate representation and induction. *)
From Coq Require Import Field.
From mathcomp Require Import all_ssreflect all_algebra all_fingroup.
From mathcomp.real_closed Require Import mxtens.
From Verif Require Import RepSpec RepTheory FieldTac.
Import Order.TTheory GRing.Theory Num.Theory.
Set Implicit Arguments.
Unset Strict Implicit.
Unset Printing Implicit Defensive.
Local Open Scope ring_scope.

(** K is the disjoint union of r^m H (m < p), r normalises H and r^p = 1. *)
Record cext (gT : finGroupType) (H K : {group gT}) (r : gT) (p : nat) : Prop := CExt {
  cx_p : (0 < p)%N;
  cx_sub : H \subset K;
  cx_r : r \in K;
  cx_norm : forall s, s \in H -> (s ^ r)%g \in H;
  cx_pow : (r ^+ p)%g = 1%g;
  cx_cover : forall g, g \in K -> exists m s, [/\ (m < p)%N, s \in H & g = (r ^+ m * s)%g];
  cx_uniq : forall m m' s s', (m < p)%N -> (m' < p)%N -> s \in H -> s' \in H ->
     (r ^+ m * s = r ^+ m' * s')%g -> m = m' }.

Section Ext.
Variables (C : numClosedFieldType) (gT : finGroupType) (mu : gT -> gT -> C).
Add Field Ff : (fth C).
Hypothesis mufs : factor_system mu.
Let mu_norm := fs_norm mufs.
Let nz x y : mu x y <> 0.
Proof. by apply/eqP; exact: mu_neq0. Qed.

Lemma coc_r x y z : mu x (y * z)%g = mu (x * y)%g z * mu x y / mu y z.
Proof. by rewrite -(fs_cocycle mufs) mulfK ?(mu_neq0 mufs). Qed.
Lemma coc_l x y z : mu (x * y)%g z = mu x (y * z)%g * mu y z / mu x y.
Proof. by rewrite (fs_cocycle mufs) mulfK ?(mu_neq0 mufs). Qed.

Lemma muV_norm x y : `|(mu x y)^-1| = 1.
Proof. by rewrite normfV mu_norm invr1. Qed.

(** The scalar of the conjugation of s by x: u_x^-1 u_s u_x = cj x s u_(s^x). *)
Definition cj x s : C := mu s x / mu x (s ^ x)%g.
Lemma cj_neq0 x s : cj x s != 0.
Proof. by rewrite /cj mulf_neq0 ?invr_neq0 ?(mu_neq0 mufs). Qed.
Lemma cj_norm x s : `|cj x s| = 1.
Proof. by rewrite /cj normf_div !mu_norm divr1. Qed.
Lemma cj1 s : cj 1%g s = 1.
Proof. by rewrite /cj conjg1 (mu1x mufs) (mux1 mufs) divr1. Qed.
Lemma cj_comp x y s : cj x s * cj y (s ^ x)%g = cj (x * y)%g s.
Proof.
rewrite /cj; set s' := (s ^ x)%g.
have -> : (s ^ (x * y))%g = (s' ^ y)%g by rewrite conjgM.
set s'' := (s' ^ y)%g.
have e1 : (s * x)%g = (x * s')%g by rewrite /s' conjgC.
have e2 : (s' * y)%g = (y * s'')%g by rewrite /s'' conjgC.
have a1 := coc_r s x y; have a2 := coc_l x y s''; have a3 := coc_r x s' y.
rewrite a1 a2 e1 -e2 a3.
by to_field C; field; do ?split; try exact: nz.
Qed.

(** Conjugate representation. *)
Definition conjrep d (D : gT -> 'M[C]_d) x s := cj x s *: D (s ^ x)%g.
Lemma cj_mul x s t : cj x s * cj x t * mu (s ^ x)%g (t ^ x)%g = mu s t * cj x (s * t)%g.
Proof.
rewrite /cj conjMg; set s' := (s ^ x)%g; set t' := (t ^ x)%g.
have e1 : (s * x)%g = (x * s')%g by rewrite /s' conjgC.
have e2 : (t * x)%g = (x * t')%g by rewrite /t' conjgC.
rewrite (coc_l s t x) (coc_r x s' t') e2 (coc_r s x t') e1.
by to_field C; field; do ?split; try exact: nz.
Qed.

Lemma conjrep_projrep (H : {group gT}) d (D : gT -> 'M[C]_d) x :
  (forall s, s \in H -> (s ^ x)%g \in H) -> projrep mu H D -> projrep mu H (conjrep D x).
Proof.
move=> nx pD; split; first by rewrite /conjrep conj1g (pr_one pD) /cj conj1g (mu1x mufs) (mux1 mufs) divr1 scale1r.
move=> s t sH tH; rewrite /conjrep -scalemxAl -scalemxAr (pr_mul pD) ?nx // !scalerA conjMg.
by rewrite cj_mul.
Qed.
Lemma conjrep_unirep (H : {group gT}) d (D : gT -> 'M[C]_d) x :
  (forall s, s \in H -> (s ^ x)%g \in H) -> unirep H D -> unirep H (conjrep D x).
Proof.
move=> nx uD s sH; rewrite /conjrep adjZ -scalemxAl -scalemxAr uD ?nx // scalerA.
by rewrite norm1_mul_conj ?cj_norm // scale1r.
Qed.

Variables (H K : {group gT}) (r : gT) (p : nat).
Hypothesis cx : cext H K r p.
Let p0 := cx_p cx.

Lemma norm_pow m s : s \in H -> (s ^ (r ^+ m))%g \in H.
Proof.
move=> sH; elim: m => [|m IH]; first by rewrite expg0 conjg1.
by rewrite expgSr conjgM; apply: cx_norm cx _ IH.
Qed.
Lemma norm_powV m s : (s ^ (r ^+ m))%g \in H -> s \in H.
Proof.
move=> h; have := norm_pow (p.-1 * m) h; rewrite -conjgM -expgD.
have -> : (m + p.-1 * m = p * m)%N by rewrite -mulSn prednK.
by rewrite expgM (cx_pow cx) expg1n conjg1.
Qed.
Lemma powK m : (r ^+ m)%g \in K.
Proof. exact: groupX (cx_r cx). Qed.
Lemma subHK s : s \in H -> s \in K.
Proof. exact: (subsetP (cx_sub cx)). Qed.
Lemma pow_mod m : (r ^+ (m %% p) = r ^+ m)%g.
Proof. by rewrite {2}(divn_eq m p) expgD mulnC expgM (cx_pow cx) expg1n mul1g. Qed.
Lemma powH m : (r ^+ m)%g \in H -> (m %% p = 0)%N.
Proof.
rewrite -pow_mod => h; apply: (cx_uniq cx (s := 1%g) (s' := (r ^+ (m %% p))%g)) => //.
  by rewrite ltn_mod.
by rewrite mulg1 expg0 mul1g.
Qed.

(** Coset exponent. *)
Definition mof (g : gT) : nat :=
  if [pick m : 'I_p | ((r ^+ m)^-1 * g)%g \in H] is Some m then val m else 0%N.
Lemma mofE m s : (m < p)%N -> s \in H -> mof (r ^+ m * s)%g = m.
Proof.
move=> mp sH; rewrite /mof; case: pickP => [k kP|/(_ (Ordinal mp))] /=; last by rewrite mulKg sH.
by apply: (cx_uniq cx (s := ((r ^+ k)^-1 * (r ^+ m * s))%g) (s' := s)); rewrite ?ltn_ord // mulKVg.
Qed.
Lemma mof_lt g : (mof g < p)%N.
Proof. by rewrite /mof; case: pickP => [k _|_] //; apply: ltn_ord. Qed.
Lemma mofP g : g \in K -> ((r ^+ mof g)^-1 * g)%g \in H.
Proof. by case/(cx_cover cx)=> m [s [mp sH ->]]; rewrite mofE // mulKg. Qed.

Lemma sum_ext (V : zmodType) (F : gT -> V) :
  \sum_(g in K) F g = \sum_(m < p) \sum_(s in H) F (r ^+ m * s)%g.
Proof.
transitivity (\sum_(g in K) \sum_(m < p | val m == mof g) F g).
  apply: eq_bigr => g gK; rewrite (big_pred1 (Ordinal (mof_lt g))) //.
rewrite (exchange_big_dep xpredT) //=; apply: eq_bigr => m _.
rewrite (reindex_inj (mulgI (r ^+ m)%g)) /=; apply: eq_bigl => s.
rewrite groupMl ?powK //; apply/andP/idP => [[sK /eqP e]|sH].
  by have := mofP (groupM (powK m) sK); rewrite -e mulKg.
by rewrite mofE ?ltn_ord // eqxx subHK.
Qed.
Lemma card_ext : #|K| = (p * #|H|)%N.
Proof.
have := sum_ext (fun _ : gT => (1%:R : int)).
rewrite sumr_const (eq_bigr (fun _ => (#|H|%:R : int))) => [|m _]; last by rewrite sumr_const.
by rewrite sumr_const card_ord -mulr_natl mulr1 -[_ *+ p]mulr_natl -natrM => /eqP; rewrite eqr_nat => /eqP.
Qed.

(** ** Self-conjugate extension *)
Section Self.
Variables (d : nat) (D : gT -> 'M[C]_d) (R : 'M[C]_d).
Hypothesis pD : projrep mu H D.
Hypothesis RD : forall s, s \in H -> D s *m R = R *m conjrep D r s.
Definition mxpow m (M : 'M[C]_d) := iter m (mulmx M) 1%:M.
Hypothesis Rp : mxpow p R = (\prod_(m < p) mu r (r ^+ m)%g) *: 1%:M.

Fixpoint delta m : 'M[C]_d := if m is m'.+1 then (mu r (r ^+ m')%g)^-1 *: (R *m delta m') else 1%:M.
Lemma deltaE m : mxpow m R = (\prod_(k < m) mu r (r ^+ k)%g) *: delta m.
Proof.
elim: m => [|m IH]; first by rewrite big_ord0 scale1r.
rewrite /mxpow iterS -/(mxpow m R) IH big_ord_recr /= -scalemxAr scalerA mulfK //.
by apply/eqP; exact: nz.
Qed.
Lemma delta_p : delta p = 1%:M.
Proof.
have h := deltaE p; rewrite Rp in h.
apply: (@scalerI _ _ (\prod_(k < p) mu r (r ^+ k)%g)); last by rewrite -h.
by apply/prodf_neq0 => k _; apply: mu_neq0.
Qed.

Definition extrep g : 'M[C]_d :=
  (mu (r ^+ mof g)%g ((r ^+ mof g)^-1 * g)%g)^-1 *: (delta (mof g) *m D ((r ^+ mof g)^-1 * g)%g).

Lemma extE m s : (m <= p)%N -> s \in H ->
  extrep (r ^+ m * s)%g = (mu (r ^+ m)%g s)^-1 *: (delta m *m D s).
Proof.
rewrite leq_eqVlt => /orP[/eqP ->|mp] sH; last by rewrite /extrep mofE // mulKg.
rewrite (cx_pow cx) -(expg0 r) /extrep mofE // expg0 mul1g invg1 mul1g.
by rewrite delta_p.
Qed.
Lemma extH s : s \in H -> extrep s = D s.
Proof. by move=> sH; have := extE (leq0n p) sH; rewrite expg0 mul1g (mu1x mufs) invr1 scale1r mul1mx. Qed.
Lemma extr : extrep r = R.
Proof.
have := extE p0 (group1 H); rewrite expg1 mulg1 (mux1 mufs) invr1 scale1r (pr_one pD) mulmx1 /= => ->.
by rewrite expg0 (mux1 mufs) invr1 scale1r mulmx1.
Qed.

Lemma ext_r y : y \in K -> R *m extrep y = mu r y *: extrep (r * y)%g.
Proof.
case/(cx_cover cx)=> m [s [mp sH ->]].
rewrite mulgA -expgS !extE // ?(ltnW mp) //= -!scalemxAr -!scalemxAl !scalerA mulmxA.
congr (_ *: _).
rewrite expgS (coc_r r (r ^+ m)%g s).
by to_field C; field; do ?split; try exact: nz.
Qed.
Lemma delta_conj m t : t \in H -> D t *m delta m = cj (r ^+ m)%g t *: (delta m *m D (t ^ (r ^+ m))%g).
Proof.
elim: m t => [|m IH] t tH; first by rewrite expg0 conjg1 cj1 scale1r mulmx1 mul1mx.
rewrite /= -scalemxAr mulmxA RD // /conjrep -mulmxA -!scalemxAl IH ?(cx_norm cx) //.
rewrite -!scalemxAr !mulmxA !scalerA -conjgM -expgS; congr (_ *: _).
rewrite expgS -cj_comp; by to_field C; ring.
Qed.
Lemma ext_H t y : t \in H -> y \in K -> D t *m extrep y = mu t y *: extrep (t * y)%g.
Proof.
move=> tH; case/(cx_cover cx)=> m [s [mp sH ->]].
have e : (t * (r ^+ m * s) = r ^+ m * (t ^ (r ^+ m) * s))%g by rewrite [LHS]mulgA (conjgC t) -mulgA.
have tH' := norm_pow m tH.
rewrite e (extE (ltnW mp) sH) (extE (ltnW mp) (groupM tH' sH)) -!scalemxAr mulmxA delta_conj // -!scalemxAl -mulmxA.
rewrite (pr_mul pD) // -!scalemxAr !scalerA; congr (_ *: _).
rewrite /cj; set x := (r ^+ m)%g; set t' := (t ^ x)%g.
have e1 : (t * x)%g = (x * t')%g by rewrite /t' conjgC.
rewrite (coc_r t x s) (coc_r x t' s) e1.
by to_field C; field; do ?split; try exact: nz.
Qed.

Lemma ext_projrep : projrep mu K extrep.
Proof.
split; first by rewrite extH ?group1 // (pr_one pD).
pose ok x := forall y, y \in K -> extrep x *m extrep y = mu x y *: extrep (x * y)%g.
have okM x x' : x \in K -> x' \in K -> ok x -> ok x' -> ok (x * x')%g.
  move=> xK xK' h h' y yK.
  have -> : extrep (x * x')%g = (mu x x')^-1 *: (extrep x *m extrep x').
    by rewrite h // scalerA mulVf ?scale1r ?(mu_neq0 mufs).
  rewrite -scalemxAl -mulmxA h' // -scalemxAr h ?groupM // !scalerA mulgA; congr (_ *: _).
  rewrite (coc_r x x' y).
  by to_field C; field; do ?split; try exact: nz.
have okH s : s \in H -> ok s by move=> sH y yK; rewrite extH // ext_H.
have okr : ok r by move=> y yK; rewrite extr ext_r.
have okX m : ok (r ^+ m)%g.
  elim: m => [|m IH]; first by rewrite expg0; apply: okH; apply: group1.
  by rewrite expgS; apply: okM => //; [exact: cx_r cx | exact: powK].
move=> x y xK; case/(cx_cover cx): (xK) => m [s [mp sH ->]] yK.
exact: (okM _ _ (powK m) (subHK sH) (okX m) (okH _ sH) y yK).
Qed.

Lemma delta_unitary : R *m adj R = 1%:M -> forall m, delta m *m adj (delta m) = 1%:M.
Proof.
move=> uR; elim=> [|m IH] /=; first by rewrite adj1 mulmx1.
rewrite adjZ -scalemxAl -scalemxAr scalerA adjM mulmxA -[R *m _ *m _]mulmxA IH mulmx1 uR.
by rewrite norm1_mul_conj ?scale1r // normfV mu_norm invr1.
Qed.
Lemma ext_unirep : R *m adj R = 1%:M -> unirep H D -> unirep K extrep.
Proof.
move=> uR uD x; case/(cx_cover cx)=> m [s [mp sH ->]].
rewrite extE ?(ltnW mp) // adjZ -scalemxAl -scalemxAr scalerA adjM mulmxA -[_ *m _ *m adj (D s)]mulmxA.
rewrite uD // mulmx1 delta_unitary // norm1_mul_conj ?scale1r // normfV mu_norm invr1 //.
Qed.

(** sum over one coset *)
Hypotheses (uD : unirep H D) (nD : cip H D D = #|H|%:R) (uR : R *m adj R = 1%:M).
Lemma coset_norm m : (m < p)%N ->
  \sum_(s in H) (\tr (extrep (r ^+ m * s)%g))^* * \tr (extrep (r ^+ m * s)%g) = #|H|%:R.
Proof.
move=> mp.
transitivity (\sum_(s in H) (\tr (delta m *m D s))^* * \tr (delta m *m D s)).
  apply: eq_bigr => s sH; rewrite extE ?(ltnW mp) // mxtraceZ rmorphM /= mulrACA.
  by rewrite [(_^-1)^* * _]mulrC (norm1_mul_conj (muV_norm _ _)) mul1r.
set M := delta m.
have trE s : \tr (M *m D s) = \sum_(x : 'I_d * 'I_d) M x.2 x.1 * D s x.1 x.2.
  rewrite mxtrace_mulC /mxtrace.
  under eq_bigr => i _ do rewrite mxE.
  by rewrite pair_bigA /=; apply: eq_bigr => x _; rewrite mulrC.
under eq_bigr => s _ do rewrite trE mulrC rmorph_sum /= mulr_suml.
rewrite exchange_big /=.
transitivity (\sum_(x : 'I_d * 'I_d) M x.2 x.1 * (M x.2 x.1)^* * (#|H|%:R / d%:R)).
  apply: eq_bigr => x _.
  under eq_bigr => s _ do rewrite mulr_sumr.
  rewrite exchange_big (bigD1 x) //= [X in _ + X]big1 => [|y yx].
    rewrite addr0.
    transitivity (M x.2 x.1 * (M x.2 x.1)^* * \sum_(s in H) D s x.1 x.2 * (D s x.1 x.2)^*).
      by rewrite mulr_sumr; apply: eq_bigr => s _; rewrite rmorphM /= mulrACA.
    by rewrite (great_orthogonality mufs pD uD nD) !eqxx mulr1.
  transitivity (M x.2 x.1 * (M y.2 y.1)^* * \sum_(s in H) D s x.1 x.2 * (D s y.1 y.2)^*).
    by rewrite mulr_sumr; apply: eq_bigr => s _; rewrite rmorphM /= mulrACA.
  rewrite (great_orthogonality mufs pD uD nD).
  have -> : (x.1 == y.1) && (x.2 == y.2) = false.
    by apply/negbTE; move: yx; rewrite eq_sym; case: x y => x1 x2 [y1 y2].
  by rewrite !mulr0.
rewrite -mulr_suml.
have -> : \sum_(x : 'I_d * 'I_d) M x.2 x.1 * (M x.2 x.1)^* = d%:R.
  transitivity (\tr (M *m adj M)); last by rewrite delta_unitary // mxtrace1.
  rewrite tr_mul_adj (reindex (fun x : 'I_d * 'I_d => (x.2, x.1))) //=.
  by exists (fun x : 'I_d * 'I_d => (x.2, x.1)) => [[]|[]].
by rewrite mulrC mulfVK // pnatr_eq0 -lt0n (norm1_dim nD).
Qed.
Lemma ext_norm1 : cip K extrep extrep = #|K|%:R.
Proof.
rewrite /cip sum_ext (eq_bigr (fun _ => #|H|%:R)) => [|m _]; last exact: coset_norm.
by rewrite sumr_const card_ord card_ext -mulr_natl -natrM.
Qed.
End Self.

(** *** Scaling an intertwiner *)
Lemma mxpowZ d m (w : C) (T : 'M[C]_d) : mxpow m (w *: T) = w ^+ m *: mxpow m T.
Proof.
elim: m => [|m IH]; first by rewrite expr0 scale1r.
by rewrite /mxpow iterS -/(mxpow m _) IH -scalemxAl -scalemxAr scalerA exprS.
Qed.
Lemma pow_intertwines d (D : gT -> 'M[C]_d) T m s :
  (forall s, s \in H -> D s *m T = T *m conjrep D r s) -> s \in H ->
  D s *m mxpow m T = mxpow m T *m conjrep D (r ^+ m)%g s.
Proof.
move=> hT; elim: m s => [|m IH] s sH.
  by rewrite /mxpow /= /conjrep expg0 conjg1 cj1 scale1r mulmx1 mul1mx.
rewrite /mxpow iterS -/(mxpow m _) mulmxA hT // /conjrep -mulmxA -scalemxAl IH ?(cx_norm cx) //.
rewrite /conjrep -!scalemxAr scalerA -conjgM -expgS -mulmxA; congr (_ *: _).
by rewrite expgS -cj_comp.
Qed.
Lemma conjrep_p d (D : gT -> 'M[C]_d) s : conjrep D (r ^+ p)%g s = D s.
Proof. by rewrite (cx_pow cx) /conjrep conjg1 cj1 scale1r. Qed.

Section Scale.
Variables (d : nat) (D : gT -> 'M[C]_d) (T : 'M[C]_d).
Hypotheses (pD : projrep mu H D) (uD : unirep H D) (nD : cip H D D = #|H|%:R).
Hypothesis hT : forall s, s \in H -> D s *m T = T *m conjrep D r s.
Lemma pow_p_scalar : mxpow p T = (\tr (mxpow p T) / d%:R)%:M.
Proof.
apply: (schur_scalar mufs pD uD nD) => s sH.
by rewrite (pow_intertwines p hT sH) conjrep_p.
Qed.
Hypothesis T0 : T != 0.
Lemma conj_norm1 x : (forall s, s \in H -> (s ^ x)%g \in H) -> cip H (conjrep D x) (conjrep D x) = #|H|%:R.
Proof.
move=> nx; rewrite -nD /cip.
have E : [set (s ^ x)%g | s in H] = H.
  apply/eqP; rewrite eqEcard card_imset ?leqnn ?andbT //; last exact: conjg_inj.
  by apply/subsetP => y /imsetP [s sH ->]; apply: nx.
rewrite -[in RHS]E big_imset /=; last by move=> a b _ _; apply: conjg_inj.
apply: eq_bigr => s sH; rewrite mxtraceZ rmorphM /= mulrACA.
by rewrite [(cj _ _)^* * _]mulrC norm1_mul_conj ?cj_norm // mul1r.
Qed.
Lemma T_unitary_scaled : exists a, [/\ 0 < a, T *m adj T = a%:M & adj T *m T = a%:M].
Proof.
have [E|//] := intertwiner_scalar mufs pD uD nD
  (conjrep_projrep (cx_norm cx) pD) (conjrep_unirep (cx_norm cx) uD) (conj_norm1 (cx_norm cx)) hT.
by move: T0; rewrite E eqxx.
Qed.
Lemma mxpow_adj (a : C) m : T *m adj T = a%:M -> mxpow m T *m adj (mxpow m T) = (a ^+ m)%:M.
Proof.
move=> h; elim: m => [|m IH]; first by rewrite /mxpow /= adj1 mulmx1.
rewrite /mxpow iterS -/(mxpow m _) adjM mulmxA -[T *m _ *m _]mulmxA IH.
by rewrite -mulmxA mul_scalar_mx -scalemxAr h scale_scalar_mx exprSr.
Qed.
Lemma scalar_inj x y : (x%:M : 'M[C]_d) = y%:M -> x = y.
Proof.
have d0 : (d%:R : C) != 0 by rewrite pnatr_eq0 -lt0n (norm1_dim nD).
by move/(congr1 mxtrace); rewrite !mxtrace_scalar -[x *+ d]mulr_natr -[y *+ d]mulr_natr => /(mulIf d0).
Qed.
Lemma pow_p_norm a : T *m adj T = a%:M ->
  (\tr (mxpow p T) / d%:R) * (\tr (mxpow p T) / d%:R)^* = a ^+ p.
Proof.
move=> h; have := mxpow_adj p h; rewrite {1 2}pow_p_scalar adj_scalar -scalar_mxM.
exact: scalar_inj.
Qed.
Lemma pow_p_neq0 : \tr (mxpow p T) / d%:R != 0.
Proof.
have [a [a0 h _]] := T_unitary_scaled; apply/negP => /eqP k0.
have := pow_p_norm h; rewrite k0 mul0r => /esym/eqP; rewrite expf_eq0 (gt_eqF a0) andbF //.
Qed.

Variables (w P : C).
Hypotheses (nP : `|P| = 1) (wP : w ^+ p * (\tr (mxpow p T) / d%:R) = P).
Lemma scaled_pow : mxpow p (w *: T) = P *: 1%:M.
Proof. by rewrite mxpowZ pow_p_scalar scale_scalar_mx wP scalemx1. Qed.
Lemma scaled_intertwines s : s \in H -> D s *m (w *: T) = (w *: T) *m conjrep D r s.
Proof. by move=> sH; rewrite -scalemxAr -scalemxAl hT. Qed.
Lemma scaled_unitary : (w *: T) *m adj (w *: T) = 1%:M.
Proof.
have [a [a0 h _]] := T_unitary_scaled.
rewrite adjZ -scalemxAl -scalemxAr scalerA h scale_scalar_mx; congr (_%:M).
have x0 : 0 <= w * w^* * a by rewrite -normCK mulr_ge0 ?exprn_ge0 // ltW.
apply/eqP; rewrite -(pexpr_eq1 p0 x0); apply/eqP.
rewrite !exprMn -(pow_p_norm h) -rmorphX /= mulrACA -rmorphM /= wP.
exact: norm1_mul_conj.
Qed.
End Scale.

(** *** Dependence on the root of unity *)
Lemma delta_scale d (R : 'M[C]_d) z m : delta (z *: R) m = z ^+ m *: delta R m.
Proof.
elim: m => [|m IH] /=; first by rewrite expr0 scale1r.
by rewrite IH -scalemxAl -scalemxAr !scalerA; congr (_ *: _); rewrite exprS; to_field C; ring.
Qed.
Lemma ext_scale d (D : gT -> 'M[C]_d) R z g : extrep D (z *: R) g = z ^+ mof g *: extrep D R g.
Proof. by rewrite /extrep delta_scale -scalemxAl !scalerA mulrC. Qed.

Lemma sum_prim (z : C) m : p.-primitive_root z -> (m < p)%N ->
  \sum_(q < p) (z ^+ q) ^+ m = p%:R * (m == 0%N)%:R.
Proof.
move=> zp mp; case: eqP => [->|/eqP m0].
  by under eq_bigr => q _ do rewrite expr0; rewrite sumr_const card_ord mulr1.
rewrite mulr0; have x1 : z ^+ m != 1.
  by rewrite -(prim_order_dvd zp) gtnNdvd // lt0n.
under eq_bigr => q _ do rewrite -exprM mulnC exprM.
have := subrX1 (z ^+ m) p; rewrite -exprM mulnC exprM (prim_expr_order zp) expr1n subrr.
by move/esym/eqP; rewrite mulf_eq0 subr_eq0 (negbTE x1) /= => /eqP.
Qed.

(** Frobenius reciprocity for the extensions. *)
Lemma ext_frobenius d (D : gT -> 'M[C]_d) R z n (B : gT -> 'M[C]_n) :
  p.-primitive_root z ->
  \sum_(q < p) cip K (extrep D (z ^+ q *: R)) B = p%:R * cip H D B.
Proof.
move=> zp; rewrite /cip exchange_big /= sum_ext.
rewrite (bigD1 (Ordinal p0)) //= [X in _ + X]big1 => [|m m0].
  rewrite addr0 mulr_sumr; apply: eq_bigr => s sH.
  rewrite expg0 mul1g; have m0 : mof s = 0%N by have := mofE p0 sH; rewrite expg0 mul1g.
  have e : extrep D R s = D s.
    by rewrite /extrep m0 expg0 invg1 mul1g /= mul1mx (mu1x mufs) invr1 scale1r.
  under eq_bigr => q _ do rewrite ext_scale m0 expr0 scale1r e.
  by rewrite sumr_const card_ord [RHS]mulr_natl.
rewrite big1 // => s sH.
have e : mof (r ^+ m * s)%g = m by rewrite mofE // ltn_ord.
under eq_bigr => q _ do rewrite ext_scale e mxtraceZ rmorphM /= -mulrA.
rewrite -mulr_suml -rmorph_sum /= sum_prim ?ltn_ord //.
have -> : (val m == 0%N) = false by apply/negbTE; rewrite -val_eqE in m0.
by rewrite mulr0 rmorph0 mul0r.
Qed.

(** ** Induced representation *)
Lemma cip_conj (x : gT) d1 d2 (A : gT -> 'M[C]_d1) (B : gT -> 'M[C]_d2) :
  (forall s, s \in H -> (s ^ x)%g \in H) -> cip H (conjrep A x) (conjrep B x) = cip H A B.
Proof.
move=> nx; rewrite /cip.
have E : [set (s ^ x)%g | s in H] = H.
  apply/eqP; rewrite eqEcard card_imset ?leqnn ?andbT //; last exact: conjg_inj.
  by apply/subsetP => y /imsetP [s sH ->]; apply: nx.
rewrite -[in RHS]E big_imset /=; last by move=> a b _ _; apply: conjg_inj.
apply: eq_bigr => s sH; rewrite !mxtraceZ rmorphM /= mulrACA.
by rewrite [(cj _ _)^* * _]mulrC norm1_mul_conj ?cj_norm // mul1r.
Qed.
Lemma conjrep_comp d (D : gT -> 'M[C]_d) x y s : conjrep (conjrep D y) x s = conjrep D (x * y)%g s.
Proof. by rewrite /conjrep scalerA cj_comp -conjgM. Qed.
Lemma conjrep_inner (B : {group gT}) n (D : gT -> 'M[C]_n) x s : projrep mu B D -> x \in B -> s \in B ->
  \tr (conjrep D x s) = \tr (D s).
Proof.
move=> pB xB sB.
have e : D s *m D x = D x *m conjrep D x s.
  rewrite /conjrep -scalemxAr !(pr_mul pB) ?groupJ // scalerA -conjgC; congr (_ *: _).
  by rewrite /cj mulfVK // mu_neq0.
by rewrite -[conjrep D x s]mul1mx -(mulmx1C (prinvP mufs pB xB)) -mulmxA -e mxtrace_mulC -mulmxA
   (prinvP mufs pB xB) mulmx1.
Qed.

Section Ind.
Variables (d : nat) (D : gT -> 'M[C]_d).
Hypothesis pD : projrep mu H D.

Definition blk g (i j : nat) : 'M[C]_d :=
  let s := ((r ^+ i)^-1 * (g * r ^+ j))%g in
  if s \in H then (mu g (r ^+ j)%g / mu (r ^+ i)%g s) *: D s else 0.
Definition indrep g : 'M[C]_(p * d) :=
  \matrix_(x, y) blk g (mxtens_unindex x).1 (mxtens_unindex y).1 (mxtens_unindex x).2 (mxtens_unindex y).2.

Lemma sum_tens (V : zmodType) (F : 'I_(p * d) -> V) :
  \sum_x F x = \sum_(i < p) \sum_(a < d) F (mxtens_index (i, a)).
Proof.
rewrite pair_big /= (reindex (@mxtens_index p d)) /=; last first.
  by exists (@mxtens_unindex p d) => x _; [exact: mxtens_indexK | exact: mxtens_unindexK].
by apply: eq_bigr => [[i a]].
Qed.

Lemma in_cosets g i j : g \in K -> (i < p)%N -> ((r ^+ i)^-1 * (g * r ^+ j))%g \in H = (i == mof (g * r ^+ j)%g).
Proof.
move=> gK ip; apply/idP/eqP => [h|->]; last by apply: mofP; rewrite groupM ?powK.
by rewrite -[(g * _)%g](mulKVg (r ^+ i)%g) mofE.
Qed.

Lemma blk_mul g h i j : g \in K -> h \in K -> (i < p)%N ->
  \sum_(k < p) blk g i k *m blk h k j = mu g h *: blk (g * h)%g i j.
Proof.
move=> gK hK ip; pose k0 := Ordinal (mof_lt (h * r ^+ j)%g).
rewrite (bigD1 k0) //= big1 => [|k kk]; last first.
  rewrite /blk (in_cosets j hK (ltn_ord k)).
  have -> : (val k == mof (h * r ^+ j)%g) = false by apply/negbTE; rewrite -val_eqE in kk.
  by rewrite mulmx0.
rewrite addr0; set k := mof _; set s2 := ((r ^+ k)^-1 * (h * r ^+ j))%g.
have s2H : s2 \in H by apply: mofP; rewrite groupM ?powK.
set s1 := ((r ^+ i)^-1 * (g * r ^+ k))%g.
have e : ((r ^+ i)^-1 * ((g * h) * r ^+ j))%g = (s1 * s2)%g.
  by rewrite /s1 /s2 -!mulgA mulKVg.
rewrite /blk e -/s1 -/s2 s2H groupMr //; case: ifP => [s1H|_]; last by rewrite mul0mx scaler0.
rewrite -scalemxAl -scalemxAr (pr_mul pD) // !scalerA; congr (_ *: _).
have a1 : (r ^+ k * s2)%g = (h * r ^+ j)%g by rewrite mulKVg.
have a2 : (r ^+ i * s1)%g = (g * r ^+ k)%g by rewrite mulKVg.
rewrite (coc_r (r ^+ i)%g s1 s2) a2 (coc_l g h (r ^+ j)%g) -a1 (coc_r g (r ^+ k)%g s2).
by to_field C; field; do ?split; try exact: nz.
Qed.

Lemma ind_projrep : projrep mu K indrep.
Proof.
split.
  apply/matrixP => x y; rewrite -[x]mxtens_unindexK -[y]mxtens_unindexK mxE !mxtens_indexK.
  case: (mxtens_unindex x) (mxtens_unindex y) => i a [j b] /=.
  rewrite /blk (in_cosets j (group1 K) (ltn_ord i)) mul1g.
  have -> : mof (r ^+ j)%g = j by have := mofE (ltn_ord j) (group1 H); rewrite mulg1.
  rewrite !mxE (can_eq (@mxtens_indexK p d)) xpair_eqE val_eqE.
  case: eqP => [->|_]; last by rewrite mxE.
  by rewrite mulVg (mu1x mufs) (mux1 mufs) divr1 scale1r (pr_one pD) mxE.
move=> g h gK hK; apply/matrixP => x y; rewrite -[x]mxtens_unindexK -[y]mxtens_unindexK !mxE sum_tens !mxtens_indexK.
case: (mxtens_unindex x) (mxtens_unindex y) => i a [j b] /=.
transitivity ((\sum_(k < p) blk g i k *m blk h k j) a b); last by rewrite blk_mul // mxE.
rewrite summxE; apply: eq_bigr => k _; rewrite mxE; apply: eq_bigr => c _.
by rewrite !mxE !mxtens_indexK.
Qed.

Lemma ind_unirep : unirep H D -> unirep K indrep.
Proof.
move=> uD g gK; apply: mulmx1C.
apply/matrixP => x y; rewrite !mxE sum_tens.
rewrite -[x]mxtens_unindexK -[y]mxtens_unindexK (can_eq (@mxtens_indexK p d)).
case: (mxtens_unindex x) (mxtens_unindex y) => i a [j b] /=.
transitivity ((\sum_(k < p) adj (blk g k i) *m blk g k j) a b).
  rewrite summxE; apply: eq_bigr => k _; rewrite mxE; apply: eq_bigr => c _.
  by rewrite !adjE !mxE !mxtens_indexK.
pose k0 := Ordinal (mof_lt (g * r ^+ j)%g).
rewrite (bigD1 k0) //= big1 => [|k kk]; last first.
  rewrite {2}/blk (in_cosets j gK (ltn_ord k)).
  have -> : (val k == mof (g * r ^+ j)%g) = false by apply/negbTE; rewrite -val_eqE in kk.
  by rewrite mulmx0.
rewrite addr0 xpair_eqE; set k := mof _.
have sH : ((r ^+ k)^-1 * (g * r ^+ j))%g \in H by apply: mofP; rewrite groupM ?powK.
case: (i =P j) => [->|ij] /=.
  rewrite /blk sH adjZ -scalemxAl -scalemxAr (unirep_l uD sH) scalerA.
  rewrite [_^* * _]mulrC norm1_mul_conj ?scale1r ?mxE // normf_div !mu_norm divr1 //.
rewrite {1}/blk; case: ifP => [iH|_]; last by rewrite adj0 mul0mx mxE.
exfalso; apply: ij; apply: val_inj => /=.
apply: (cx_uniq cx (s := 1%g) (s' := (r ^+ j)^-1 * r ^+ i)%g); rewrite ?ltn_ord ?mulKVg ?mulg1 //.
have := groupM (groupVr sH) iH; rewrite !invMg invgK -!mulgA mulKVg mulKg //.
Qed.

Lemma tr_ind g : \tr (indrep g) = \sum_(i < p) \tr (blk g i i).
Proof.
rewrite /mxtrace sum_tens; apply: eq_bigr => i _; apply: eq_bigr => a _.
by rewrite mxE !mxtens_indexK.
Qed.
Lemma blk_diag s i : s \in H -> blk s i i = conjrep D (r ^+ i)%g s.
Proof. by move=> sH; rewrite /blk -/(conjg _ _) norm_pow // /conjrep. Qed.
Lemma tr_ind_H s : s \in H -> \tr (indrep s) = \sum_(i < p) \tr (conjrep D (r ^+ i)%g s).
Proof. by move=> sH; rewrite tr_ind; apply: eq_bigr => i _; rewrite blk_diag. Qed.
Lemma tr_ind_0 m s : (0 < m < p)%N -> s \in H -> \tr (indrep (r ^+ m * s)%g) = 0.
Proof.
case/andP=> m0 mp sH; rewrite tr_ind big1 // => i _.
rewrite /blk; case: ifP => [h|_]; last by rewrite mxtrace0.
exfalso; move: h; rewrite -/(conjg _ _) => /norm_powV.
by rewrite groupMr // => /powH; rewrite modn_small // => e; rewrite e in m0.
Qed.
Lemma cip_ind n (B : gT -> 'M[C]_n) : cip K indrep B = \sum_(i < p) cip H (conjrep D (r ^+ i)%g) B.
Proof.
rewrite /cip sum_ext (bigD1 (Ordinal p0)) //= [X in _ + X]big1 => [|m m0].
  rewrite addr0 exchange_big /=; apply: eq_bigr => s sH.
  by rewrite expg0 mul1g tr_ind_H // rmorph_sum mulr_suml.
rewrite big1 // => s sH; rewrite tr_ind_0 ?rmorph0 ?mul0r // ltn_ord andbT lt0n.
by rewrite -val_eqE in m0.
Qed.
Lemma ind_frobenius n (B : gT -> 'M[C]_n) : projrep mu K B -> cip K indrep B = p%:R * cip H D B.
Proof.
move=> pB; rewrite cip_ind (eq_bigr (fun _ => cip H D B)) => [|i _].
  by rewrite sumr_const card_ord mulr_natl.
rewrite -(cip_conj D B (@norm_pow i)); apply: eq_bigr => s sH.
by rewrite (conjrep_inner pB) ?powK ?subHK.
Qed.

Hypotheses (uD : unirep H D) (nD : cip H D D = #|H|%:R).
Hypothesis prp : prime p.
Hypothesis ineq : cip H D (conjrep D r) = 0.

Let same j := forall s, s \in H -> \tr (conjrep D (r ^+ j)%g s) = \tr (D s).
Lemma same_add j k : same j -> same k -> same (j + k)%N.
Proof.
move=> hj hk s sH; rewrite expgD -conjrep_comp {1}/conjrep mxtraceZ hk ?norm_pow //.
by rewrite -mxtraceZ; apply: hj.
Qed.
Lemma conj_dich k : cip H D (conjrep D (r ^+ k)%g) = 0 \/ same k.
Proof.
have [[h _]|[_ h]] := cip_dich mufs pD uD nD (conjrep_projrep (@norm_pow k) pD) (conjrep_unirep (@norm_pow k) uD)
   (conj_norm1 nD (@norm_pow k)); [by left|right].
by move=> s sH; rewrite -(equivalent_char h sH).
Qed.
Lemma conj_ineq k : (0 < k < p)%N -> cip H D (conjrep D (r ^+ k)%g) = 0.
Proof.
case/andP=> k0 kp; case: (conj_dich k) => // sk; exfalso.
have /(coprimeP _ k0) [[u v] /= e] : coprime k p.
  by rewrite coprime_sym prime_coprime // gtnNdvd.
have su i : same (i * k)%N.
  elim: i => [|i IH]; last by rewrite mulSn; apply: same_add.
  by move=> s sH; rewrite mul0n expg0 /conjrep conjg1 cj1 scale1r.
have e' : (u * k = v * p + 1)%N by rewrite -e addnC subnK //; apply: ltnW; rewrite -subn_gt0 e.
have s1 : same 1.
  have := su u; rewrite e' => h s sH; have := h s sH.
  by rewrite expgD mulnC expgM (cx_pow cx) expg1n mul1g.
have : cip H D (conjrep D r) = #|H|%:R.
  rewrite -nD; apply: eq_bigr => s sH; congr (_ * _).
  by have := s1 s sH; rewrite expg1.
by rewrite ineq => /eqP; rewrite eq_sym (negbTE (cardH_neq0 C H)).
Qed.
Lemma cip_conj_conj i j : (i < p)%N -> (j < p)%N ->
  cip H (conjrep D (r ^+ i)%g) (conjrep D (r ^+ j)%g) = #|H|%:R * (i == j)%:R.
Proof.
move=> ip jp; pose k := ((j + (p - i)) %% p)%N.
have e : (r ^+ j)%g = (r ^+ i * r ^+ k)%g.
  by rewrite /k pow_mod -expgD addnCA subnKC ?(ltnW ip) // expgD (cx_pow cx) mulg1.
have -> : cip H (conjrep D (r ^+ i)%g) (conjrep D (r ^+ j)%g) =
          cip H (conjrep D (r ^+ i)%g) (conjrep (conjrep D (r ^+ k)%g) (r ^+ i)%g).
  by apply: eq_bigr => s sH; rewrite conjrep_comp -e.
rewrite cip_conj; last exact: norm_pow.
have [ij|ij] := altP (i =P j).
  have -> : k = 0%N by rewrite /k ij subnKC ?(ltnW jp) // modnn.
  by rewrite mulr1 -nD; apply: eq_bigr => s sH; rewrite /conjrep expg0 conjg1 cj1 scale1r.
rewrite mulr0; apply: conj_ineq; rewrite ltn_mod p0 andbT lt0n; apply/negP => /eqP k0.
move: e; rewrite k0 expg0 mulg1 => e; move/negP: ij; apply; apply/eqP.
by apply: (cx_uniq cx (s := 1%g) (s' := 1%g)); rewrite ?mulg1 ?group1.
Qed.
Lemma ind_norm1 : cip K indrep indrep = #|K|%:R.
Proof.
have -> : cip K indrep indrep = \sum_(i < p) \sum_(j < p) cip H (conjrep D (r ^+ i)%g) (conjrep D (r ^+ j)%g).
  rewrite cip_ind; apply: eq_bigr => i _; rewrite /cip exchange_big /=.
  by apply: eq_bigr => s sH; rewrite tr_ind_H // mulr_sumr.
rewrite (eq_bigr (fun _ => #|H|%:R)) => [|i _].
  by rewrite sumr_const card_ord card_ext -[LHS]mulr_natl -natrM.
rewrite (bigD1 i) //= big1 => [|j ji]; last first.
  rewrite cip_conj_conj ?ltn_ord //; have -> : (val i == val j) = false; last by rewrite mulr0.
  by apply/negbTE; rewrite eq_sym val_eqE.
by rewrite cip_conj_conj ?ltn_ord // eqxx mulr1 addr0.
Qed.
End Ind.
End Ext.
