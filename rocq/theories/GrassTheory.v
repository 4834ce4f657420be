(** The distance of two subspaces from the singular values of the product of orthonormal
    bases. *)
From Coq Require Import String.
From mathcomp Require Import all_ssreflect all_algebra.
From mathcomp Require Import zify.
From Verif Require Import Py RepSpec RepModel RepTheory ChainModel ProjModel ProjSpec.
Import Order.TTheory GRing.Theory Num.Theory.
Set Implicit Arguments.
Unset Strict Implicit.
Unset Printing Implicit Defensive.
Local Open Scope ring_scope.

Section Grass.
Variable C : numClosedFieldType.

Lemma sqnormE n (v : 'rV[C]_n) : v *m adj v = (sqnorm v)%:M.
Proof.
apply/matrixP => i j; rewrite !ord1 !mxE /= mulr1n; apply: eq_bigr => k _.
by rewrite adjE -normCK.
Qed.
Lemma sqnorm_tr n (v : 'rV[C]_n) : sqnorm v = \tr (v *m adj v).
Proof. by rewrite sqnormE mxtrace_scalar. Qed.
Lemma sqnorm_ge0 n (v : 'rV[C]_n) : 0 <= sqnorm v.
Proof. by apply: sumr_ge0 => i _; rewrite exprn_ge0. Qed.
Lemma sqnorm_eq0 n (v : 'rV[C]_n) : sqnorm v = 0 -> v = 0.
Proof. by rewrite sqnorm_tr; apply: sqn_eq0. Qed.
Lemma sqnorm0 n : sqnorm (0 : 'rV[C]_n) = 0.
Proof. by rewrite sqnorm_tr mul0mx mxtrace0. Qed.
Lemma sqnorm_iso m n (v : 'rV[C]_m) (B : 'M[C]_(m, n)) : B *m adj B = 1%:M -> sqnorm (v *m B) = sqnorm v.
Proof. by move=> h; rewrite !sqnorm_tr adjM mulmxA -(mulmxA v) h mulmx1. Qed.
(** Pythagoras. *)
Lemma sqnormD n (u v : 'rV[C]_n) : u *m adj v = 0 -> sqnorm (u + v) = sqnorm u + sqnorm v.
Proof.
move=> h; have h' : v *m adj u = 0 by rewrite -[v]adjK -adjM h adj0.
by rewrite !sqnorm_tr adjD mulmxDl !mulmxDr h h' addr0 add0r mxtraceD.
Qed.
Lemma sqnormN n (u : 'rV[C]_n) : sqnorm (- u) = sqnorm u.
Proof. by apply: eq_bigr => i _; rewrite mxE normrN. Qed.
Lemma sqnormZ n (a : C) (u : 'rV[C]_n) : sqnorm (a *: u) = `|a| ^+ 2 * sqnorm u.
Proof. by rewrite mulr_sumr; apply: eq_bigr => i _; rewrite mxE normrM exprMn. Qed.

(** Projection onto the row space of an orthonormal system. *)
Section Proj.
Variables (l n : nat) (T : 'M[C]_(l, n)).
Hypothesis TT : T *m adj T = 1%:M.
Definition onto (v : 'rV[C]_n) : 'rV[C]_n := v *m adj T *m T.
Lemma onto_sub v : (onto v <= T)%MS.
Proof. exact: submxMl. Qed.
Lemma onto_perp (v w : 'rV[C]_n) : (w <= T)%MS -> (v - onto v) *m adj w = 0.
Proof.
move=> /submxP [y ->]; by rewrite adjM mulmxA mulmxBl /onto -(mulmxA _ T) TT mulmx1 subrr mul0mx.
Qed.
Lemma onto_best (v w : 'rV[C]_n) : (w <= T)%MS -> sqnorm (v - onto v) <= sqnorm (v - w).
Proof.
move=> wT; have -> : v - w = (v - onto v) + (onto v - w) by rewrite addrA subrK.
rewrite [X in _ <= X]sqnormD; first by rewrite ler_addl sqnorm_ge0.
by apply: onto_perp; rewrite addmx_sub ?onto_sub // eqmx_opp.
Qed.
Lemma onto_dist v : sqnorm (v - onto v) = sqnorm v - sqnorm (v *m adj T).
Proof.
have -> : sqnorm v = sqnorm (v - onto v) + sqnorm (onto v).
  by rewrite -sqnormD ?subrK //; apply: onto_perp; apply: onto_sub.
by rewrite /onto (sqnorm_iso _ TT) addrK.
Qed.
End Proj.

(** Smallest singular value. *)
Section Sing.
Variables (k l : nat) (K : 'M[C]_(k, l)) (sv : seq C) (U : 'M[C]_k) (V : 'M[C]_l).
Hypotheses (kl : (k <= l)%N) (szk : (k <= size sv)%N) (sv0 : forall i, 0 <= nth 0 sv i).
Hypothesis dec : forall i j, (i <= j < size sv)%N -> nth 0 sv j <= nth 0 sv i.
Hypotheses (UU : U *m adj U = 1%:M) (VV : V *m adj V = 1%:M).
Let S : 'M[C]_(k, l) := \matrix_(i, j) if (i == j :> nat)%N then nth 0 sv i else 0.
Hypothesis KE : K = U *m S *m adj V.

Lemma sing_row (y : 'rV[C]_k) : sqnorm (y *m S) = \sum_(i < k) nth 0 sv i ^+ 2 * `|y 0 i| ^+ 2.
Proof.
have SS : S *m adj S = diag_mx (\row_(i < k) nth 0 sv i ^+ 2).
  apply/matrixP => i i'; rewrite !mxE (bigD1 (widen_ord kl i)) //= adjE !mxE /= eqxx big1 ?addr0; last first.
    move=> j nj; rewrite adjE !mxE; case: eqP => [h|_]; last by rewrite mul0r.
    by case/eqP: nj; apply: val_inj.
  rewrite eq_sym (inj_eq val_inj) eq_sym; case: eqP => [<-|_]; last by rewrite conjC0 mulr0 mulr0n.
  by rewrite mulr1n geC0_conj // expr2.
rewrite sqnorm_tr adjM mulmxA -(mulmxA y) SS tr_mul_adj.
rewrite (reindex (fun i : 'I_k => ((0 : 'I_1), i))) /=; last first.
  by exists snd => [i //|[i j] _]; rewrite ord1.
apply: eq_bigr => i _; rewrite mul_mx_diag !mxE [y 0 i * _]mulrC -mulrA; congr (_ * _).
by rewrite -normCK.
Qed.

Let s := nth 0 sv k.-1.
Lemma sing_ge (x : 'rV[C]_k) : s ^+ 2 * sqnorm x <= sqnorm (x *m K).
Proof.
have VV' : adj V *m adj (adj V) = 1%:M by rewrite adjK; apply: mulmx1C.
rewrite KE !mulmxA (sqnorm_iso _ VV') sing_row -(sqnorm_iso x UU) mulr_sumr.
apply: ler_sum => i _; rewrite ler_wpmul2r ?exprn_ge0 // ler_pexpn2r ?nnegrE ?sv0 //.
by apply: dec; have := ltn_ord i; have := szk; lia.
Qed.
Lemma sing_attained : (0 < k)%N -> exists x : 'rV[C]_k, sqnorm x = 1 /\ sqnorm (x *m K) = s ^+ 2.
Proof.
move=> k0; have lt : (k.-1 < k)%N by lia.
have VV' : adj V *m adj (adj V) = 1%:M by rewrite adjK; apply: mulmx1C.
have UU' : adj U *m adj (adj U) = 1%:M by rewrite adjK; apply: mulmx1C.
pose e : 'rV[C]_k := delta_mx 0 (Ordinal lt); exists (e *m adj U).
have e1 i : `|e 0 i| ^+ 2 = (i == Ordinal lt)%:R.
  by rewrite mxE /=; case: (i == _); rewrite ?normr1 ?normr0 ?expr1n ?expr0n.
rewrite (sqnorm_iso _ UU'); split.
  by rewrite /sqnorm (bigD1 (Ordinal lt)) //= e1 eqxx big1 ?addr0 // => i /negbTE ni; rewrite e1 ni.
rewrite KE !mulmxA (sqnorm_iso _ VV') -(mulmxA e) (mulmx1C UU) mulmx1 sing_row.
rewrite (bigD1 (Ordinal lt)) //= e1 eqxx mulr1 big1 ?addr0 // => i /negbTE ni.
by rewrite e1 ni mulr0.
Qed.
End Sing.

(** The distance in terms of the smallest correlation s: 1 - s^2 is the square of the
    largest gap. *)
Lemma gap_of_sing k l n (S : 'M[C]_(k, n)) (T : 'M[C]_(l, n)) (s d : C) :
  S *m adj S = 1%:M -> T *m adj T = 1%:M -> d ^+ 2 = 1 - s ^+ 2 ->
  (forall x : 'rV[C]_k, s ^+ 2 * sqnorm x <= sqnorm (x *m (S *m adj T))) ->
  (exists x : 'rV[C]_k, sqnorm x = 1 /\ sqnorm (x *m (S *m adj T)) = s ^+ 2) ->
  largest_gap S T d.
Proof.
move=> SS TT dE ge [x [x1 xs]]; split.
  move=> v /submxP [y ->]; exists (onto T (y *m S)); first exact: onto_sub.
  rewrite onto_dist // (sqnorm_iso _ SS) dE mulrBl mul1r -mulmxA ler_sub //; exact: ge.
exists (x *m S); split; last 2 first.
- exact: submxMl.
- move=> w wT; rewrite (le_trans _ (onto_best TT (x *m S) wT)) // onto_dist // (sqnorm_iso _ SS) x1 -mulmxA xs.
  by rewrite mulr1 dE.
apply/eqP => h; have := oner_neq0 C; rewrite -x1 -(sqnorm_iso x SS) h sqnorm0; by rewrite eqxx.
Qed.
(** Correlations are at most one. *)
Lemma corr_le1 k l n (S : 'M[C]_(k, n)) (T : 'M[C]_(l, n)) (x : 'rV[C]_k) :
  S *m adj S = 1%:M -> T *m adj T = 1%:M -> sqnorm (x *m (S *m adj T)) <= sqnorm x.
Proof.
move=> SS TT; rewrite -subr_ge0 -(sqnorm_iso x SS) mulmxA -onto_dist //; exact: sqnorm_ge0.
Qed.

Definition Sig (sv : seq C) k l : 'M[C]_(k, l) := \matrix_(i, j) if (i == j :> nat)%N then nth 0 sv i else 0.
Lemma adj_Sig sv k l : (forall i, 0 <= nth 0 sv i) -> adj (Sig sv k l) = Sig sv l k.
Proof.
move=> sv0; apply/matrixP => i j; rewrite adjE !mxE eq_sym; case: eqP => [->|_]; last by rewrite conjC0.
by rewrite geC0_conj.
Qed.
Lemma conj_Sig sv k l : (forall i, 0 <= nth 0 sv i) -> map_mx conjC (Sig sv k l) = Sig sv k l.
Proof.
move=> sv0; apply/matrixP => i j; rewrite !mxE; case: eqP => [_|_]; last by rewrite conjC0.
by rewrite geC0_conj.
Qed.
Lemma map_adj m n (A : 'M[C]_(m, n)) : map_mx conjC (adj A) = adj (map_mx conjC A).
Proof. by apply/matrixP => i j; rewrite !mxE. Qed.

Section Pair.
Variables (k l n : nat) (S : 'M[C]_(k, n)) (T : 'M[C]_(l, n)) (sv : seq C) (U : 'M[C]_k) (V : 'M[C]_l).
Hypotheses (SS : S *m adj S = 1%:M) (TT : T *m adj T = 1%:M).
Hypotheses (szk : (minn k l <= size sv)%N) (sv0 : forall i, 0 <= nth 0 sv i).
Hypothesis dec : forall i j, (i <= j < size sv)%N -> nth 0 sv j <= nth 0 sv i.
Hypotheses (UU : U *m adj U = 1%:M) (VV : V *m adj V = 1%:M).
Hypothesis KE : S *m adj T = U *m Sig sv k l *m adj V.
Hypothesis kl0 : (0 < minn k l)%N.
Let s := nth 0 sv (minn k l).-1.

Lemma pair_gap d : d ^+ 2 = 1 - s ^+ 2 ->
  [/\ s <= 1, (k <= l)%N -> largest_gap S T d & (l <= k)%N -> largest_gap T S d].
Proof.
move=> dE.
have sq : forall x y : C, 0 <= x -> 0 <= y -> x ^+ 2 <= y ^+ 2 -> x <= y.
  by move=> x y x0 y0; rewrite ler_pexpn2r ?nnegrE.
have KE' : T *m adj S = V *m Sig sv l k *m adj U.
  by rewrite -[T]adjK -adjM KE !adjM adjK adj_Sig // mulmxA.
have h1 : (k <= l)%N -> [/\ s <= 1 & largest_gap S T d].
  move=> kl; have mk : minn k l = k by lia.
  have [kp sz] : (0 < k)%N /\ (k <= size sv)%N by rewrite -mk.
  have sE : s = nth 0 sv k.-1 by rewrite /s mk.
  have ge := sing_ge kl sz sv0 dec UU VV KE; have at_ := sing_attained kl sz sv0 UU VV KE kp.
  rewrite sE in dE *; split; last by apply: (gap_of_sing SS TT dE).
  have [x [x1 xs]] := at_; apply: sq; rewrite ?sv0 ?ler01 // expr1n -xs -x1; exact: corr_le1.
have h2 : (l <= k)%N -> [/\ s <= 1 & largest_gap T S d].
  move=> kl; have mk : minn k l = l by lia.
  have [kp sz] : (0 < l)%N /\ (l <= size sv)%N by rewrite -mk.
  have sE : s = nth 0 sv l.-1 by rewrite /s mk.
  have ge := sing_ge kl sz sv0 dec VV UU KE'; have at_ := sing_attained kl sz sv0 VV UU KE' kp.
  rewrite sE in dE *; split; last by apply: (gap_of_sing TT SS dE).
  have [x [x1 xs]] := at_; apply: sq; rewrite ?sv0 ?ler01 // expr1n -xs -x1; exact: corr_le1.
split.
- by case: (leqP k l) => h; [case: (h1 h)|case: (h2 (ltnW h))].
- by move=> h; case: (h1 h).
- by move=> h; case: (h2 h).
Qed.
End Pair.

(** Change of bases. *)
Lemma largest_gap_eqmx k k' l l' n (S : 'M[C]_(k, n)) (S' : 'M[C]_(k', n)) (T : 'M[C]_(l, n)) (T' : 'M[C]_(l', n)) d :
  (S :=: S')%MS -> (T :=: T')%MS -> largest_gap S T d -> largest_gap S' T' d.
Proof.
move=> eS eT [h1 [v [v0 vS vb]]]; split=> [u|].
  by rewrite -eS => /h1 [w wT wb]; exists w => //; rewrite -eT.
by exists v; split; rewrite -?eS // => w; rewrite -eT; apply: vb.
Qed.

Variable L : linalg C.
Hypothesis ok : linalg_ok L.

Lemma svd_pair k l n (Q1 : 'M[C]_(n, k)) (Q2 : 'M[C]_(n, l)) dim :
  adj Q1 *m Q1 = 1%:M -> adj Q2 *m Q2 = 1%:M -> dim = minn k l -> (0 < dim)%N ->
  exists d, [/\ distance_of L "min" (la_svd L (adj Q1 *m Q2)) dim = COk d, 0 <= d, d <= 1,
    (k <= l)%N -> largest_gap Q1^T Q2^T d & (l <= k)%N -> largest_gap Q2^T Q1^T d].
Proof.
move=> h1 h2 dimE dim0; have := lo_svd ok (adj Q1 *m Q2); set sv := la_svd L _; cbv zeta.
move=> [sz sv0 dec [U [V [UU VV E]]]].
have tT m (Q : 'M[C]_(n, m)) : adj Q *m Q = 1%:M -> Q^T *m adj Q^T = 1%:M.
  by move=> h; rewrite -[adj Q^T]trmxK -trmx_mul (_ : (adj Q^T)^T = adj Q) ?h ?trmx1 //; apply/matrixP => i j; rewrite !mxE.
have cT m (W : 'M[C]_m) : W *m adj W = 1%:M -> map_mx conjC W *m adj (map_mx conjC W) = 1%:M.
  by move=> h; rewrite -map_adj -map_mxM h map_mx1.
have KE : Q1^T *m adj Q2^T = map_mx conjC U *m Sig sv k l *m adj (map_mx conjC V).
  rewrite -map_adj -(conj_Sig _ _ sv0) -!map_mxM -E map_mxM; congr (_ *m _); apply/matrixP => i j; rewrite !mxE ?conjCK //.
have sz' : (minn k l <= size sv)%N by rewrite sz.
set s := nth 0 sv (minn k l).-1.
have kl0 : (0 < minn k l)%N by rewrite -dimE.
have [|s1 _ _] := pair_gap (tT _ _ h1) (tT _ _ h2) sz' sv0 dec (cT _ _ UU) (cT _ _ VV) KE kl0 (d := sqrtC (1 - s ^+ 2)).
  by rewrite sqrtCK.
have s0 : 0 <= s by apply: sv0.
have s2 : 0 <= 1 - s ^+ 2 by rewrite subr_ge0 exprn_ile1.
have [|_ g1 g2] := pair_gap (tT _ _ h1) (tT _ _ h2) sz' sv0 dec (cT _ _ UU) (cT _ _ VV) KE kl0 (d := sqrtC (1 - s ^+ 2)).
  by rewrite sqrtCK.
exists (sqrtC (1 - s ^+ 2)); split=> //.
- rewrite /distance_of /= dimE; have -> : (match minn k l with 0 => (size sv).-1 | m.+1 => m end) = (minn k l).-1.
    by case: (minn k l) kl0.
  rewrite sz (_ : ((minn k l).-1 < minn k l)%N); last by lia.
  by rewrite /np_clip -/s (le_gtF s2).
- by rewrite sqrtC_ge0.
- by rewrite -[X in _ <= X]sqrtC1 ler_sqrtC ?nnegrE ?ler01 // ler_subl_addr ler_addl exprn_ge0.
Qed.

(** utils.grassmann_distance(ord="min"). *)
Lemma grassmann_gap k l n (B1 : 'M[C]_(k, n)) (B2 : 'M[C]_(l, n)) skip :
  (0 < k)%N -> (0 < l)%N ->
  (if skip then orthonormal B1 /\ orthonormal B2 else row_free B1 /\ row_free B2) ->
  exists d, [/\ grassmann_distance L B1 B2 "min" skip = COk d, 0 <= d, d <= 1,
    (k <= l)%N -> largest_gap B1 B2 d & (l <= k)%N -> largest_gap B2 B1 d].
Proof.
move=> k0 l0; rewrite /grassmann_distance; case: skip.
  move=> [o1 o2].
  have tT m (B : 'M[C]_(m, n)) : orthonormal B -> adj B^T *m B^T = 1%:M.
    rewrite /orthonormal => h; rewrite -[adj _]trmxK -trmx_mul (_ : (adj B^T)^T = adj B) ?h ?trmx1 //.
    by apply/matrixP => i j; rewrite !mxE.
  have [|d [e d0 d1 g1 g2]] := svd_pair (tT _ _ o1) (tT _ _ o2) erefl; first by lia.
  by exists d; split=> // h; [have := g1 h|have := g2 h]; rewrite !trmxK.
move=> [f1 f2].
have nk m (B : 'M[C]_(m, n)) : row_free B -> (m <= n)%N by move=> /eqP <-; apply: rank_leq_col.
have kn := nk _ _ f1; have ln := nk _ _ f2.
have [q1 [R1 e1]] := lo_qr ok B1^T; have [q2 [R2 e2]] := lo_qr ok B2^T.
have eqm m (B : 'M[C]_(m, n)) (R : 'M[C]_(minn n m, m)) (Q : 'M[C]_(n, minn n m)) : row_free B -> B^T = Q *m R -> (Q^T :=: B)%MS.
  move=> f e; have sub : (B <= Q^T)%MS by rewrite -[B]trmxK e trmx_mul submxMl.
  apply: eqmx_sym; apply/eqmxP; rewrite sub /=; have := mxrank_leqif_sup sub => -[_ <-].
  have a := nk _ _ f; have b := rank_leq_row Q^T; have c := mxrankS sub.
  by move: f c => /eqP -> c; apply/eqP; lia.
have [||d [e d0 d1 g1 g2]] := svd_pair q1 q2 (dim := minn k l); try by lia.
exists d; split=> // h.
- by apply: (largest_gap_eqmx (eqm _ _ _ _ f1 e1) (eqm _ _ _ _ f2 e2)); apply: g1; lia.
- by apply: (largest_gap_eqmx (eqm _ _ _ _ f2 e2) (eqm _ _ _ _ f1 e1)); apply: g2; lia.
Qed.

(** Principal angles. *)
Lemma row_unit m n (W : 'M[C]_(m, n)) i : W *m adj W = 1%:M -> sqnorm (row i W) = 1.
Proof.
move=> WW; rewrite rowE (sqnorm_iso _ WW) /sqnorm (bigD1 i) //= mxE !eqxx normr1 expr1n big1 ?addr0 // => j /negbTE nj.
by rewrite mxE nj andbF normr0 expr0n.
Qed.
Lemma principal_of_sing k l n (S : 'M[C]_(k, n)) (T : 'M[C]_(l, n)) sv (U : 'M[C]_k) (V : 'M[C]_l) :
  S *m adj S = 1%:M -> T *m adj T = 1%:M -> (k <= l)%N -> (forall i, 0 <= nth 0 sv i) ->
  U *m adj U = 1%:M -> V *m adj V = 1%:M -> S *m adj T = U *m Sig sv k l *m adj V ->
  principal_pairs S T (nth 0 sv).
Proof.
move=> SS TT kl sv0 UU VV KE.
have UU' := mulmx1C UU; have VV' := mulmx1C VV.
pose P := adj U *m S; pose W := adj V *m T; pose R : 'M[C]_(k, n) := \matrix_i row (widen_ord kl i) W.
have WW : W *m adj W = 1%:M by rewrite /W adjM adjK mulmxA -(mulmxA _ T) TT mulmx1.
have PP : P *m adj P = 1%:M by rewrite /P adjM adjK mulmxA -(mulmxA _ S) SS mulmx1.
have PT : P *m adj T = Sig sv k l *m adj V by rewrite /P -mulmxA KE !mulmxA UU' mul1mx.
have RR : R *m adj R = 1%:M.
  apply/matrixP => i j; have := congr1 (fun X : 'M[C]_l => X (widen_ord kl i) (widen_ord kl j)) WW.
  by rewrite !mxE -!(inj_eq val_inj) /= => <-; apply: eq_bigr => a _; rewrite !mxE.
have SgE (i : 'I_k) : row i (Sig sv k l) = nth 0 sv i *: delta_mx 0 (widen_ord kl i).
  by apply/rowP => j; rewrite !mxE eqxx /= -(inj_eq val_inj) /= eq_sym; case: eqP => _; rewrite ?mulr1 ?mulr0.
exists P, R; split.
- split=> //; apply/eqmxP; rewrite submxMl /= (_ : S = U *m P) ?submxMl //.
  by rewrite /P mulmxA UU mul1mx.
- split=> //; apply/row_subP => i; rewrite rowK; apply: (submx_trans (row_sub _ _)); exact: submxMl.
- move=> i; rewrite mulmxBl -row_mul PT row_mul SgE rowK -!scalemxAl -rowE -row_mul.
  by rewrite /W -mulmxA TT mulmx1 subrr.
move=> i; split=> //.
have : sqnorm (nth 0 sv i *: row (widen_ord kl i) (adj V)) <= sqnorm (row i (adj U)).
  have -> : nth 0 sv i *: row (widen_ord kl i) (adj V) = row i (adj U) *m (S *m adj T).
    by rewrite -row_mul mulmxA -/P PT row_mul SgE -scalemxAl -rowE.
  exact: corr_le1.
rewrite sqnormZ !row_unit ?adjK // mulr1 (ger0_norm (sv0 i)) -(expr1n _ 2) ler_pexpn2r ?nnegrE ?ler01 //.
by rewrite !expr1n.
Qed.
Lemma principal_eqmx k l l' n (S S' : 'M[C]_(k, n)) (T : 'M[C]_(l, n)) (T' : 'M[C]_(l', n)) c :
  (S :=: S')%MS -> (T :=: T')%MS -> principal_pairs S T c -> principal_pairs S' T' c.
Proof.
move=> eS eT [P [R [[h1 h2] [h3 h4] h5 h6]]]; exists P, R; split=> //.
- by split=> //; exact: eqmx_trans eS.
- by split=> //; rewrite -eT.
move=> i; have /submxP [X ->] : (T' <= T)%MS by rewrite eT.
by rewrite adjM mulmxA h5 mul0mx.
Qed.
Lemma principal_cast k k' l n (e : k = k') (S : 'M[C]_(k, n)) (T : 'M[C]_(l, n)) c :
  principal_pairs S T c -> principal_pairs (castmx (e, erefl n) S) T c.
Proof. by case: k' / e; rewrite castmx_id. Qed.

Lemma svd_angles k l n (Q1 : 'M[C]_(n, k)) (Q2 : 'M[C]_(n, l)) dim :
  adj Q1 *m Q1 = 1%:M -> adj Q2 *m Q2 = 1%:M -> dim = minn k l -> (0 < dim)%N ->
  exists d (c : nat -> C), [/\ distance_of L "projection" (la_svd L (adj Q1 *m Q2)) dim = COk d,
    (forall x, 0 <= x <= 1 -> la_arccos L x \is Num.real) -> 0 <= d,
    d ^+ 2 * dim%:R = \sum_(i < dim) la_arccos L (c i) ^+ 2,
    (k <= l)%N -> principal_pairs Q1^T Q2^T c & (l <= k)%N -> principal_pairs Q2^T Q1^T c].
Proof.
move=> h1 h2 dimE dim0; have := lo_svd ok (adj Q1 *m Q2); set sv := la_svd L _; cbv zeta.
move=> [sz sv0 dec [U [V [UU VV E]]]].
have tT m (Q : 'M[C]_(n, m)) : adj Q *m Q = 1%:M -> Q^T *m adj Q^T = 1%:M.
  by move=> h; rewrite -[adj Q^T]trmxK -trmx_mul (_ : (adj Q^T)^T = adj Q) ?h ?trmx1 //; apply/matrixP => i j; rewrite !mxE.
have cT m (W : 'M[C]_m) : W *m adj W = 1%:M -> map_mx conjC W *m adj (map_mx conjC W) = 1%:M.
  by move=> h; rewrite -map_adj -map_mxM h map_mx1.
have KE : Q1^T *m adj Q2^T = map_mx conjC U *m Sig sv k l *m adj (map_mx conjC V).
  rewrite -map_adj -(conj_Sig _ _ sv0) -!map_mxM -E map_mxM; congr (_ *m _); apply/matrixP => i j; rewrite !mxE ?conjCK //.
have KE' : Q2^T *m adj Q1^T = map_mx conjC V *m Sig sv l k *m adj (map_mx conjC U).
  by rewrite -[Q2^T]adjK -adjM KE !adjM adjK adj_Sig // mulmxA.
have g1 kl := principal_of_sing (tT _ _ h1) (tT _ _ h2) kl sv0 (cT _ _ UU) (cT _ _ VV) KE.
have g2 kl := principal_of_sing (tT _ _ h2) (tT _ _ h1) kl sv0 (cT _ _ VV) (cT _ _ UU) KE'.
have le1 (i : 'I_dim) : nth 0 sv i <= 1.
  have [kl|lk] := leqP k l.
    have ik : (i < k)%N by have := ltn_ord i; lia.
    by have [P [R [_ _ _ /(_ (Ordinal ik)) []]]] := g1 kl.
  have ik : (i < l)%N by have := ltn_ord i; lia.
  by have [P [R [_ _ _ /(_ (Ordinal ik)) []]]] := g2 (ltnW lk).
have sE : take dim sv = [seq nth 0 sv i | i <- iota 0 dim].
  apply: (@eq_from_nth _ 0); first by rewrite size_takel ?size_map ?size_iota // sz; lia.
  move=> i; rewrite size_takel ?sz; last by lia.
  by move=> il; rewrite nth_take // (nth_map 0%N) ?size_iota // nth_iota.
set cs := [seq la_arccos L (np_clip (Some (-1)) (Some 1) x) ^+ 2 | x <- take dim sv].
have csE : \sum_(x <- cs) x = \sum_(i < dim) la_arccos L (nth 0 sv i) ^+ 2.
  rewrite /cs sE -map_comp big_map -{1}[dim]subn0 big_mkord; apply: eq_bigr => i _ /=; congr (la_arccos L _ ^+ 2).
  rewrite /np_clip (le_gtF (le_trans _ (sv0 i))) ?(le_gtF (le1 i)) //.
  by rewrite oppr_le0 ler01.
have szc : size cs = dim by rewrite size_map size_takel ?sz; lia.
have dn0 : dim%:R != 0 :> C by rewrite pnatr_eq0 -lt0n.
exists (sqrtC ((\sum_(x <- cs) x) / (size cs)%:R)), (nth 0 sv); split=> //.
- by rewrite /distance_of /= -/cs; case: (cs) szc => // /esym e0; move: dim0; rewrite e0.
- move=> ar; rewrite sqrtC_ge0 szc csE divr_ge0 ?ler0n //; apply: sumr_ge0 => i _.
  by rewrite real_exprn_even_ge0 // ar // sv0 le1.
- by rewrite sqrtCK szc csE divfK.
Qed.

(** utils.grassmann_distance(ord="projection"). *)
Lemma grassmann_angles k l n (B1 : 'M[C]_(k, n)) (B2 : 'M[C]_(l, n)) skip :
  (0 < k)%N -> (0 < l)%N ->
  (if skip then orthonormal B1 /\ orthonormal B2 else row_free B1 /\ row_free B2) ->
  exists d (c : nat -> C), [/\ grassmann_distance L B1 B2 "projection" skip = COk d,
    (forall x, 0 <= x <= 1 -> la_arccos L x \is Num.real) -> 0 <= d,
    d ^+ 2 * (minn k l)%:R = \sum_(i < minn k l) la_arccos L (c i) ^+ 2,
    (k <= l)%N -> principal_pairs B1 B2 c & (l <= k)%N -> principal_pairs B2 B1 c].
Proof.
move=> k0 l0; rewrite /grassmann_distance; case: skip.
  move=> [o1 o2].
  have tT m (B : 'M[C]_(m, n)) : orthonormal B -> adj B^T *m B^T = 1%:M.
    rewrite /orthonormal => h; rewrite -[adj _]trmxK -trmx_mul (_ : (adj B^T)^T = adj B) ?h ?trmx1 //.
    by apply/matrixP => i j; rewrite !mxE.
  have [|d [c [e d0 d1 g1 g2]]] := svd_angles (tT _ _ o1) (tT _ _ o2) erefl; first by lia.
  by exists d, c; split=> // h; [have := g1 h|have := g2 h]; rewrite !trmxK.
move=> [f1 f2].
have nk m (B : 'M[C]_(m, n)) : row_free B -> (m <= n)%N by move=> /eqP <-; apply: rank_leq_col.
have kn := nk _ _ f1; have ln := nk _ _ f2.
have [q1 [R1 e1]] := lo_qr ok B1^T; have [q2 [R2 e2]] := lo_qr ok B2^T.
have eqm m (B : 'M[C]_(m, n)) (R : 'M[C]_(minn n m, m)) (Q : 'M[C]_(n, minn n m)) : row_free B -> B^T = Q *m R -> (Q^T :=: B)%MS.
  move=> f e; have sub : (B <= Q^T)%MS by rewrite -[B]trmxK e trmx_mul submxMl.
  apply: eqmx_sym; apply/eqmxP; rewrite sub /=; have := mxrank_leqif_sup sub => -[_ <-].
  have a := nk _ _ f; have b := rank_leq_row Q^T; have c := mxrankS sub.
  by move: f c => /eqP -> c; apply/eqP; lia.
have [||d [c [e d0 d1 g1 g2]]] := svd_angles q1 q2 (dim := minn k l); try by lia.
have mk : minn n k = k by lia. have ml : minn n l = l by lia.
exists d, c; split=> // h.
- apply: (principal_eqmx _ (eqm _ _ _ _ f2 e2) (principal_cast mk (g1 _))); last by lia.
  by apply: eqmx_trans (eqm _ _ _ _ f1 e1); exact: eqmx_cast.
- apply: (principal_eqmx _ (eqm _ _ _ _ f1 e1) (principal_cast ml (g2 _))); last by lia.
  by apply: eqmx_trans (eqm _ _ _ _ f2 e2); exact: eqmx_cast.
Qed.

(** What the largest gap says about the two spaces. *)
Lemma largest_gap_unique k l n (S : 'M[C]_(k, n)) (T : 'M[C]_(l, n)) d d' : 0 <= d -> 0 <= d' ->
  largest_gap S T d -> largest_gap S T d' -> d = d'.
Proof.
have half x y : 0 <= x -> 0 <= y -> largest_gap S T x -> largest_gap S T y -> x <= y.
  move=> x0 y0 [_ [v [v0 vS h]]] [b _]; have [w wT le] := b v vS.
  have := le_trans (h w wT) le; rewrite ler_pmul2r ?ler_pexpn2r ?nnegrE // lt_neqAle sqnorm_ge0 andbT eq_sym.
  by apply/eqP => z; rewrite (sqnorm_eq0 z) eqxx in v0.
by move=> d0 d0' g g'; apply/le_anti; rewrite (half _ _ d0 d0' g g') (half _ _ d0' d0 g' g).
Qed.

Lemma gap0_iff k l n (S : 'M[C]_(k, n)) (T : 'M[C]_(l, n)) d : 0 <= d -> largest_gap S T d ->
  d = 0 <-> (S <= T)%MS.
Proof.
move=> d0 [gb [v [v0 vS va]]]; split=> [d00|ST].
  apply/row_subP => i; have [w wT] := gb (row i S) (row_sub i S); rewrite d00 expr0n mul0r => le.
  have /eqP/sqnorm_eq0 /eqP : sqnorm (row i S - w) == 0 by rewrite eq_le le sqnorm_ge0.
  by rewrite subr_eq0 => /eqP ->.
have := va v (submx_trans vS ST); rewrite subrr sqnorm0 => le.
have : d ^+ 2 * sqnorm v == 0 by rewrite eq_le le mulr_ge0 ?exprn_ge0 ?sqnorm_ge0.
rewrite mulf_eq0 expf_eq0 /= => /orP [/eqP //|/eqP /sqnorm_eq0 h]; by rewrite h eqxx in v0.
Qed.
Lemma perp_of_best n (v u : 'rV[C]_n) : (forall t : C, sqnorm v <= sqnorm (v - t *: u)) -> v *m adj u = 0.
Proof.
move=> h; case: (eqVneq u 0) => [->|u0]; first by rewrite adj0 mulmx0.
have nu : sqnorm u != 0 by apply: contra u0 => /eqP /sqnorm_eq0 ->.
have [a aE] : exists a, v *m adj u = a%:M by exists ((v *m adj u) 0 0); exact: mx11_scalar.
pose t := a / sqnorm u; have := h t.
have perp : (v - t *: u) *m adj (t *: u) = 0.
  rewrite adjZ mulmxBl -!scalemxAr -scalemxAl aE sqnormE.
  rewrite -!mul_scalar_mx -!scalar_mxM -raddfB /= /t.
  by rewrite divfK // subrr raddf0.
have -> : sqnorm v = sqnorm (v - t *: u) + sqnorm (t *: u) by rewrite -sqnormD // subrK.
rewrite ger_addl => le; have /eqP/sqnorm_eq0 : sqnorm (t *: u) == 0 by rewrite eq_le le sqnorm_ge0.
move=> /eqP; rewrite scaler_eq0 (negbTE u0) orbF /t mulf_eq0 invr_eq0 (negbTE nu) orbF => /eqP a0.
by rewrite aE a0 raddf0.
Qed.
Lemma gap1_iff k l n (S : 'M[C]_(k, n)) (T : 'M[C]_(l, n)) d : 0 <= d -> d <= 1 -> largest_gap S T d ->
  d = 1 <-> exists v : 'rV[C]_n, [/\ v != 0, (v <= S)%MS & v *m adj T = 0].
Proof.
move=> d0 d1 [gb [v [v0 vS va]]]; split=> [d11|[u [u0 uS uT]]].
  exists v; split=> //; rewrite d11 expr1n in va; apply/matrixP => i j.
  have /matrixP/(_ 0 0) : v *m adj (row j T) = 0.
    apply: perp_of_best => t; rewrite -[X in X <= _]mul1r; apply: va; apply: scalemx_sub; apply: row_sub.
  by rewrite ord1 !mxE => h; rewrite -[RHS]h; apply: eq_bigr => x _; rewrite !mxE.
have [w /submxP [y wE] le] := gb u uS.
have perp : u *m adj (- w) = 0 by rewrite wE -mulNmx adjM mulmxA uT mul0mx.
rewrite sqnormD // sqnormN in le.
have nu : 0 < sqnorm u by rewrite lt_def sqnorm_ge0 andbT; apply: contra u0 => /eqP /sqnorm_eq0 ->.
have : sqnorm u <= d ^+ 2 * sqnorm u by apply: le_trans le; rewrite ler_addl sqnorm_ge0.
rewrite -[X in X <= _]mul1r ler_pmul2r // => le2.
apply/eqP; rewrite eq_le d1 /=; have : (1 : C) ^+ 2 <= d ^+ 2 by rewrite expr1n.
by rewrite ler_pexpn2r ?nnegrE ?ler01.
Qed.
End Grass.
