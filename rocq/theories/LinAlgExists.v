(** Singular value decomposition and QR decomposition exist over every algebraically closed
    field with conjugation, so that routines as assumed of NumPy exist. *)
From mathcomp Require Import all_ssreflect all_algebra all_fingroup.
From mathcomp Require Import zify.
From Verif Require Import RepSpec RepTheory ProjModel ProjSpec GrassTheory SpectralTheory.
Import Order.TTheory GRing.Theory Num.Theory.
Set Implicit Arguments.
Unset Strict Implicit.
Unset Printing Implicit Defensive.
Local Open Scope ring_scope.

Section Exists.
Variable C : numClosedFieldType.

Lemma normalise_unit n (v : 'rV[C]_n) : v != 0 -> exists2 a, a != 0 & (a *: v) *m adj (a *: v) = 1%:M.
Proof.
move=> v0; have nv : sqnorm v != 0 by apply: contra v0 => /eqP /sqnorm_eq0 ->.
exists (sqrtC (sqnorm v))^-1; first by rewrite invr_eq0 sqrtC_eq0.
rewrite sqnormE sqnormZ normfV ger0_norm ?sqrtC_ge0 ?sqnorm_ge0 // exprVn sqrtCK mulVf //.
Qed.

(** Orthonormal rows can be completed. *)
Lemma complete_rows k r m (Q : 'M[C]_(r, m)) : m = (r + k)%N -> Q *m adj Q = 1%:M ->
  exists Q' : 'M[C]_(k, m), Q' *m adj Q' = 1%:M /\ Q *m adj Q' = 0.
Proof.
elim: k r Q => [|k IH] r Q mE QQ.
  by exists 0; split; [rewrite [LHS]flatmx0 [RHS]flatmx0|rewrite adj0 mulmx0].
have [v v0 vQ] : exists2 v : 'rV[C]_m, v != 0 & v *m adj Q = 0.
  exists (nz_row (kermx (adj Q))).
    rewrite nz_row_eq0 -mxrank_eq0 mxrank_ker; have := rank_leq_col (adj Q); lia.
  by apply/sub_kermxP; apply: nz_row_sub.
have [a a0 uu] := normalise_unit v0; set u := a *: v in uu.
have uQ : u *m adj Q = 0 by rewrite /u -scalemxAl vQ scaler0.
have Qu : Q *m adj u = 0 by rewrite -[Q]adjK -adjM uQ adj0.
clearbody u.
have adj_col p q (X : 'M[C]_(p, m)) (Y : 'M[C]_(q, m)) : adj (col_mx X Y) = row_mx (adj X) (adj Y).
  by rewrite /adj map_col_mx tr_col_mx.
have [||Q' [h1 h2]] := IH (r + 1)%N (col_mx Q u); first by lia.
  by rewrite adj_col mul_col_row QQ uu Qu uQ -scalar_mx_block.
move: h2; rewrite mul_col_mx => /(congr1 (fun X => (usubmx X, dsubmx X))); rewrite col_mxKu col_mxKd.
move=> [h2 h3]; rewrite !linear0 /= in h2 h3.
have h4 : Q' *m adj u = 0 by rewrite -[Q']adjK -adjM h3 adj0.
pose Y : 'M[C]_(1 + k, m) := col_mx u Q'.
have YY : Y *m adj Y = 1%:M by rewrite /Y adj_col mul_col_row uu h3 h4 h1 -scalar_mx_block.
have QY : Q *m adj Y = 0 by rewrite /Y adj_col mul_mx_row Qu h2 row_mx0.
by exists Y.
Qed.
Lemma complete_unitary r m (Q : 'M[C]_(m, r)) : adj Q *m Q = 1%:M ->
  exists U : 'M[C]_m, [/\ adj U *m U = 1%:M, (r <= m)%N &
    forall (i : 'I_m) (j : 'I_r) (j' : 'I_m), j = j' :> nat -> U i j' = Q i j].
Proof.
move=> QQ; have rm : (r <= m)%N.
  rewrite -(mxrank1 C r) -QQ; apply: leq_trans (mxrankM_maxr _ _) (rank_leq_row _).
have [k mE] : exists k, m = (r + k)%N by exists (m - r)%N; lia.
subst m.
have [|Q' [h1 h2]] := @complete_rows k r (r + k) (adj Q) erefl; first by rewrite adjK.
exists (row_mx Q (adj Q')); split=> //.
- have -> : adj (row_mx Q (adj Q')) = col_mx (adj Q) Q'.
    by rewrite -[Q' in RHS]adjK /adj map_row_mx tr_row_mx.
  rewrite mul_col_row QQ h1 h2 (_ : Q' *m Q = 0) -?scalar_mx_block //.
  by rewrite -[Q']adjK -[Q]adjK -adjM h2 adj0.
- move=> i j j' e; have -> : j' = lshift k j by apply: val_inj.
  by rewrite row_mxEl.
Qed.

(** A positive Hermitian matrix, with eigenvalues in descending order. *)
Lemma sorted_spectral m n (A : 'M[C]_(m, n)) : exists (evs : seq C) (V : 'M[C]_n),
  [/\ size evs = n, adj V *m V = 1%:M, adj (A *m V) *m (A *m V) = diag_mx (\row_j nth 0 evs j),
      forall i, 0 <= nth 0 evs i & forall i j, (i <= j < n)%N -> nth 0 evs j <= nth 0 evs i].
Proof.
have [|evs [V [sz VV E]]] := hermitian_spectral (M := adj A *m A); first by rewrite adjM adjK.
have D : adj (A *m V) *m (A *m V) = diag_mx (\row_j nth 0 evs j).
  by rewrite adjM -mulmxA (mulmxA (adj A)) E mulmxA VV mul1mx.
have pos i : 0 <= nth 0 evs i.
  case: (ltnP i n) => ni; last by rewrite nth_default ?sz.
  have := congr1 (fun X : 'M[C]_n => X (Ordinal ni) (Ordinal ni)) D; rewrite !mxE /= eqxx mulr1n => <-.
  by apply: sumr_ge0 => k _; rewrite adjE mulrC -normCK exprn_ge0.
pose ge := fun x y : C => y <= x.
have szt : size evs == n by apply/eqP.
pose t : n.-tuple C := Tuple szt.
have : perm_eq (sort ge t) t by rewrite perm_sort.
move=> /tuple_permP [p pE].
set evs' := sort ge t in pE.
have sz' : size evs' = n by rewrite size_sort size_tuple.
have e' (i : 'I_n) : nth 0 evs' i = nth 0 evs (p i).
  by rewrite pE -[nth _ _ i](tnth_nth 0 [tuple tnth t (p i) | i < n] i) tnth_mktuple (tnth_nth 0).
exists evs', (col_perm p V); split=> //.
- apply/matrixP => i j; have := congr1 (fun X : 'M[C]_n => X (p i) (p j)) VV.
  rewrite !mxE (inj_eq perm_inj) => <-; by apply: eq_bigr => k _; rewrite !mxE.
- apply/matrixP => i j; have := congr1 (fun X : 'M[C]_n => X (p i) (p j)) D.
  rewrite !mxE (inj_eq perm_inj) e' => <-; apply: eq_bigr => k _; rewrite !mxE.
  by congr (conjC _ * _); apply: eq_bigr => l _; rewrite !mxE.
- move=> i; case: (ltnP i n) => ni; last by rewrite nth_default ?sz'.
  by rewrite (e' (Ordinal ni)).
- move=> i j /andP [ij jn].
  have tr : {in evs & &, transitive ge} by move=> x y z _ _ _ h1 h2; apply: le_trans h2 h1.
  have real x : x \in evs -> x \is Num.real by move=> /(nthP 0) [k _ <-]; rewrite ger0_real.
  have tot : {in evs &, total ge} by move=> x y hx hy; rewrite /ge orbC; apply: real_leVge; apply: real.
  have srt : sorted ge evs' by apply: (sort_sorted_in tot); apply/allP.
  have trg : transitive ge by move=> x y z h1 h2; apply: le_trans h2 h1.
  have rg : reflexive ge by move=> x; rewrite /ge.
  by have := @sorted_leq_nth _ ge trg rg 0 evs' srt i j; rewrite !inE sz' => h; apply: h; lia.
Qed.

Lemma svd_exists m n (A : 'M[C]_(m, n)) : exists (sv : seq C) (U : 'M[C]_m) (V : 'M[C]_n),
  [/\ size sv = minn m n, forall i, 0 <= nth 0 sv i,
      forall i j, (i <= j < size sv)%N -> nth 0 sv j <= nth 0 sv i,
      U *m adj U = 1%:M /\ V *m adj V = 1%:M & A = U *m Sig sv m n *m adj V].
Proof.
have [evs [V [sz VV D pos dec]]] := sorted_spectral A.
set W := A *m V in D.
have AW : A = W *m adj V by rewrite /W -mulmxA (mulmx1C VV) mulmx1.
clearbody W.
pose r := find (pred1 0) evs.
have rn : (r <= n)%N by rewrite -sz find_size.
have nz j : (j < r)%N -> nth 0 evs j != 0 by move=> jr; have := before_find 0 jr => /= ->.
have z j : (r <= j)%N -> nth 0 evs j = 0.
  move=> rj; case: (ltnP j n) => jn; last by rewrite nth_default ?sz.
  have r0 : nth 0 evs r = 0.
    by apply/eqP; have := @nth_find _ 0 (pred1 0) evs; rewrite has_find sz => h; apply: h; rewrite -/r; lia.
  have le : nth 0 evs j <= nth 0 evs r by apply: dec; rewrite rj jn.
  by apply/eqP; rewrite eq_le pos andbT -[X in _ <= X]r0.
have DE (i j : 'I_n) : \sum_k (W k i)^* * W k j = nth 0 evs i *+ (i == j).
  have := congr1 (fun X : 'M[C]_n => X i j) D; rewrite !mxE => <-; by apply: eq_bigr => k _; rewrite !mxE.
pose w := widen_ord rn.
pose Q : 'M[C]_(m, r) := \matrix_(i, j) (W i (w j) / sqrtC (nth 0 evs j)).
have QQ : adj Q *m Q = 1%:M.
  apply/matrixP => i j; rewrite !mxE.
  transitivity ((sqrtC (nth 0 evs i))^-1 * (sqrtC (nth 0 evs j))^-1 * \sum_k (W k (w i))^* * W k (w j)).
    rewrite mulr_sumr; apply: eq_bigr => k _; rewrite !mxE rmorphM fmorphV.
    rewrite (geC0_conj (x := sqrtC _)) ?sqrtC_ge0 ?pos //.
    by rewrite mulrACA mulrC.
  rewrite DE /= -(inj_eq val_inj) /= (inj_eq val_inj); case: eqP => [->|_]; last by rewrite mulr0n mulr0.
  by rewrite mulr1n -invfM -expr2 sqrtCK mulVf // nz.
have [U [UU rm UQ]] := complete_unitary QQ.
pose sv := mkseq (fun i => sqrtC (nth 0 evs i)) (minn m n).
have svE i : (i < minn m n)%N -> nth 0 sv i = sqrtC (nth 0 evs i) by move=> h; rewrite nth_mkseq.
have ssz : size sv = minn m n by rewrite size_mkseq.
exists sv, U, V; split=> //.
- move=> i; case: (ltnP i (minn m n)) => h; last by rewrite nth_default ?ssz.
  by rewrite svE // sqrtC_ge0.
- move=> i j; rewrite ssz => /andP [ij jn]; rewrite !svE //; last exact: leq_ltn_trans ij jn.
  by rewrite ler_sqrtC ?nnegrE ?pos // dec //; lia.
- by split; apply: mulmx1C.
rewrite AW.
congr (_ *m _); apply/matrixP => i j; rewrite mxE.
case: (ltnP j r) => jr.
  have jm : (j < m)%N by lia.
  rewrite (bigD1 (Ordinal jm)) //= big1 ?addr0; last first.
    by move=> l nl; rewrite mxE; case: eqP => [h|_]; [case/eqP: nl; apply: val_inj|rewrite mulr0].
  rewrite mxE /= eqxx (UQ i (Ordinal jr)) // mxE svE; last by have := ltn_ord j; lia.
  rewrite divfK ?sqrtC_eq0 ?nz //; congr (W i _); exact: val_inj.
have z' : nth 0 sv j = 0.
  case: (ltnP j (minn m n)) => h; last by rewrite nth_default ?ssz.
  by rewrite svE // z // sqrtC0.
rewrite big1; last by move=> l _; rewrite mxE; case: eqP => [->|_]; rewrite ?z' mulr0.
have := DE j j; rewrite eqxx mulr1n z // => /eqP; rewrite psumr_eq0 => [/allP h|k _]; last first.
  by rewrite mulrC -normCK exprn_ge0.
by have := h i; rewrite mem_index_enum mulrC -normCK expf_eq0 normr_eq0 /= => /(_ isT)/eqP.
Qed.

Lemma qr_exists m n (A : 'M[C]_(m, n)) : exists Q : 'M[C]_(m, minn m n),
  adj Q *m Q = 1%:M /\ exists R, A = Q *m R.
Proof.
have [sv [U [V [sz sv0 dec [UU VV] AE]]]] := svd_exists A.
pose w := widen_ord (geq_minl m n).
pose Q : 'M[C]_(m, minn m n) := \matrix_(i, j) U i (w j).
have UU' := mulmx1C UU; exists Q; split.
  apply/matrixP => i j; have := congr1 (fun X : 'M[C]_m => X (w i) (w j)) UU'.
  rewrite !mxE -(inj_eq val_inj) /= (inj_eq val_inj) => <-; by apply: eq_bigr => k _; rewrite !mxE.
exists (Sig sv (minn m n) n *m adj V); rewrite mulmxA [LHS]AE; congr (_ *m _).
apply/matrixP => i j; rewrite !mxE.
rewrite (eq_bigr (fun l : 'I_m => if (l == j :> nat)%N then U i l * nth 0 sv l else 0)); last first.
  by move=> l _; rewrite mxE; case: eqP; rewrite ?mulr0.
rewrite [RHS](eq_bigr (fun l : 'I_(minn m n) => if (l == j :> nat)%N then U i (w l) * nth 0 sv l else 0)); last first.
  by move=> l _; rewrite !mxE; case: eqP; rewrite ?mulr0.
case: (ltnP j m) => jm.
  have jl : (j < minn m n)%N by have := ltn_ord j; lia.
  rewrite (bigD1 (Ordinal jm)) //= eqxx big1 ?addr0; last first.
    by move=> l nl; case: eqP => // h; case/eqP: nl; apply: val_inj.
  rewrite (bigD1 (Ordinal jl)) //= eqxx big1 ?addr0; last first.
    by move=> l nl; case: eqP => // h; case/eqP: nl; apply: val_inj.
  by congr (U i _ * _); apply: val_inj.
rewrite !big1 // => l _; case: eqP => // h; have := ltn_ord l; [have := geq_minl m n|]; lia.
Qed.

(** Routines with the assumed properties. *)
Definition svd_spec m n (A : 'M[C]_(m, n)) (x : seq C * ('M[C]_m * 'M[C]_n)) : bool :=
  [&& size x.1 == minn m n, all (fun a => 0 <= a) x.1,
      [forall i : 'I_(size x.1), forall j : 'I_(size x.1), (i <= j)%N ==> (nth 0 x.1 j <= nth 0 x.1 i)],
      x.2.1 *m adj x.2.1 == 1%:M, x.2.2 *m adj x.2.2 == 1%:M &
      A == x.2.1 *m Sig x.1 m n *m adj x.2.2].
Lemma svd_ex m n (A : 'M[C]_(m, n)) : exists x, svd_spec A x.
Proof.
have [sv [U [V [sz sv0 dec [UU VV] AE]]]] := svd_exists A; exists (sv, (U, V)).
apply/and5P; split=> /=; [by apply/eqP| |idtac|by apply/eqP|].
- by apply/allP => a /(nthP 0) [i _ <-].
- by apply/forallP => i; apply/forallP => j; apply/implyP => ij; apply: dec; rewrite ij /=.
- by apply/andP; split; apply/eqP.
Qed.
Definition qr_spec m n (A : 'M[C]_(m, n)) (Q : 'M[C]_(m, minn m n)) : bool :=
  (adj Q *m Q == 1%:M) && (A == Q *m (adj Q *m A)).
Lemma qr_ex m n (A : 'M[C]_(m, n)) : exists Q, qr_spec A Q.
Proof.
have [Q [QQ [R AE]]] := qr_exists A; exists Q; apply/andP; split; apply/eqP => //.
by rewrite AE (mulmxA (adj Q)) QQ mul1mx.
Qed.
Definition ex_linalg : linalg C :=
  {| la_qr := fun m n A => xchoose (qr_ex A); la_svd := fun m n A => (xchoose (svd_ex A)).1;
     la_arccos := fun _ => 0 |}.
Lemma ex_linalg_ok : linalg_ok ex_linalg.
Proof.
split=> [m n A|m n A sv] /=.
  have /andP [/eqP h1 /eqP h2] := xchooseP (qr_ex A); split=> //.
  by exists (adj (xchoose (qr_ex A)) *m A).
have /and5P [/eqP h1 /allP h2 /forallP h3 /eqP h4 /andP [/eqP h5 /eqP h6]] := xchooseP (svd_ex A).
split=> //.
- move=> i; case: (ltnP i (size sv)) => h; last by rewrite nth_default.
  by apply: h2; apply: mem_nth.
- move=> i j /andP [ij jn]; have /forallP/(_ (Ordinal jn))/implyP/(_ ij) := h3 (Ordinal (leq_ltn_trans ij jn)); exact.
- by exists (xchoose (svd_ex A)).2.1, (xchoose (svd_ex A)).2.2.
Qed.
End Exists.
