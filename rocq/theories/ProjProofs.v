(** Proofs about project_to_irrep. *)
From Coq Require Import String.
From mathcomp Require Import all_ssreflect all_algebra all_fingroup.
From mathcomp Require Import zify.
From Verif Require Import Py GroupSpec GroupModel RepSpec IndexRepSpec RepModel RepTheory IndexGroup RepProofs ChainModel.
From Verif Require Import ProjModel ProjSpec GrassTheory LinAlgExists ProjTheory.
Import Order.TTheory GRing.Theory Num.Theory.
Set Implicit Arguments.
Unset Strict Implicit.
Unset Printing Implicit Defensive.
Local Open Scope ring_scope.

Section Stack.
Variable C : numClosedFieldType.
Variables (d N : nat).
Implicit Types bs : seq 'M[C]_(d, N).

Lemma stack_cons b bs : (stack (b :: bs) :=: b + stack bs)%MS.
Proof. exact: (eqmx_sym (addsmxE b (stack bs))). Qed.
Lemma stack_sub m (Z : 'M[C]_(m, N)) bs : (forall b, b \in bs -> (b <= Z)%MS) -> (stack bs <= Z)%MS.
Proof.
elim: bs => [|b bs IH] h; first by rewrite sub0mx.
rewrite stack_cons addsmx_sub h ?mem_head //= IH // => b' hb; apply: h; by rewrite inE hb orbT.
Qed.
Lemma stack_mem b bs : b \in bs -> (b <= stack bs)%MS.
Proof.
elim: bs => [//|b' bs IH]; rewrite inE stack_cons => /orP [/eqP ->|hb]; first exact: addsmxSl.
exact: submx_trans (IH hb) (addsmxSr _ _).
Qed.
Lemma stack_rcons bs b : (stack (rcons bs b) :=: stack bs + b)%MS.
Proof.
apply/eqmxP; apply/andP; split.
  apply: stack_sub => b'; rewrite mem_rcons inE => /orP [/eqP ->|hb]; first exact: addsmxSr.
  exact: submx_trans (stack_mem hb) (addsmxSl _ _).
rewrite addsmx_sub stack_mem ?mem_rcons ?mem_head // andbT.
by apply: stack_sub => b' hb; apply: stack_mem; rewrite mem_rcons inE hb orbT.
Qed.
(** A combination of the rows of all blocks. *)
Lemma stack_comb bs (c : nat -> 'rV[C]_d) : exists2 x : 'rV[C]_(size bs * d),
  x *m stack bs = \sum_(a < size bs) c a *m nth 0 bs a & x = 0 -> forall a, (a < size bs)%N -> c a = 0.
Proof.
elim: bs c => [|b bs IH] c; first by exists 0 => //; rewrite mulmx0 big_ord0.
have [x xE x0] := IH (fun a => c a.+1).
pose y : 'rV[C]_(d + size bs * d) := row_mx (c 0%N) x.
exists y.
  rewrite big_ord_recl /= -xE; exact: mul_row_col.
move=> y0; have [c0 xz] : c 0%N = 0 /\ x = 0.
  have := congr1 (fun z : 'rV[C]_(d + size bs * d) => (lsubmx z, rsubmx z)) y0.
  by rewrite row_mxKl row_mxKr !linear0 => -[-> ->].
by move=> [//|a] ha; apply: x0.
Qed.
Lemma stack_independent bs : row_free (stack bs) -> independent bs.
Proof.
move=> f c; have [x xE x0] := stack_comb bs c; rewrite -xE => h; apply: x0.
by apply/eqP; rewrite -(mulmx_free_eq0 _ f) h.
Qed.
End Stack.

Section Ortho.
Variable C : numClosedFieldType.
(** An orthonormal basis of a row space. *)
Lemma ortho_basis m N (B : 'M[C]_(m, N)) : row_free B -> exists k (Q : 'M[C]_(k, N)),
  [/\ k = m, Q *m adj Q = 1%:M & (Q :=: B)%MS].
Proof.
move=> f; have mN : (m <= N)%N by move: f => /eqP <-; apply: rank_leq_col.
have [Q [QQ [R E]]] := qr_exists B^T.
exists (minn N m), Q^T; split; first by lia.
  rewrite -[adj Q^T]trmxK -trmx_mul (_ : (adj Q^T)^T = adj Q) ?QQ ?trmx1 //.
  by apply/matrixP => i j; rewrite !mxE.
have sub : (B <= Q^T)%MS by rewrite -[B]trmxK E trmx_mul submxMl.
apply: eqmx_sym; apply/eqmxP; rewrite sub /=; have := mxrank_leqif_sup sub => -[_ <-].
have b := rank_leq_row Q^T; have c := mxrankS sub.
by move: f c => /eqP -> c; apply/eqP; lia.
Qed.
Lemma adj_tr_conj m n (A : 'M[C]_(m, n)) : adj A^T = map_mx conjC A.
Proof. by apply/matrixP => i j; rewrite !mxE. Qed.
Lemma gram_tr m n (A : 'M[C]_(m, n)) : adj A^T *m A^T = (A *m adj A)^T.
Proof. by rewrite adj_tr_conj trmx_mul /adj trmxK. Qed.
(** Gram matrix c: rows are independent. *)
Lemma gram_free m n (A : 'M[C]_(m, n)) c : c != 0 -> A *m adj A = c%:M -> row_free A.
Proof.
by move=> c0 h; apply/row_freeP; exists (c^-1 *: adj A); rewrite -scalemxAr h scale_scalar_mx mulVf.
Qed.
Lemma normalise_scalar m n (A : 'M[C]_(m, n)) c : 0 < c -> A *m adj A = c%:M ->
  normalise_rows A = COk ((sqrtC c)^-1 *: A).
Proof.
move=> c0 h; have rn i : row_norm A i = sqrtC c.
  rewrite /row_norm; congr sqrtC; have := congr1 (fun X : 'M[C]_m => X i i) h.
  by rewrite !mxE eqxx mulr1n => <-; apply: eq_bigr => j _; rewrite adjE normCK.
rewrite /normalise_rows; have -> : [forall i, row_norm A i != 0].
  by apply/forallP => i; rewrite rn sqrtC_eq0 gt_eqF.
by congr COk; apply/matrixP => i j; rewrite !mxE rn mulrC.
Qed.
End Ortho.

Section Project.
Variables (C : numClosedFieldType) (n : nat) (mul : nat -> nat -> nat) (e : nat).
Hypothesis G : group_law n mul e.
Variable mu : nat -> nat -> C.
Hypothesis imufs : ifactor_system n mul e mu.
Variables rep irrep : arr C.
Hypotheses (szR : aorder rep = n) (szD : aorder irrep = n).
Local Notation N := (adim rep).
Local Notation d := (adim irrep).
Hypotheses (iR : iprojrep n mul e mu (aget rep)) (vR : iunitary n (aget rep)).
Hypotheses (iD : iprojrep n mul e mu (aget irrep)) (vD : iunitary n (aget irrep)).

Let T := [set: igT G]%G.
Let FR (g : igT G) := aget rep (ival g).
Let FD (g : igT G) := aget irrep (ival g).
Let mufs := ifs_fs G imufs.
Let pR : projrep (imu mu) T FR. Proof. exact/(iprojrepE G). Qed.
Let pD : projrep (imu mu) T FD. Proof. exact/(iprojrepE G). Qed.
Let uR : unirep T FR. Proof. exact/(iunitaryE G). Qed.
Let uD : unirep T FD. Proof. exact/(iunitaryE G). Qed.
Let cT : #|T| = n. Proof. by rewrite cardsT ival_card. Qed.
Local Notation hom := (@hom C (igT G) T N d FR FD).
Local Notation blk := (@blk C (igT G) T N d FR FD).

Lemma projectedE (k : 'I_N) (j : 'I_d) : (projected k j)^T = blk k j.
Proof.
apply/matrixP => m i; rewrite !mxE avgE cT szD; congr (_ * _).
rewrite [RHS](eq_bigl predT) => [|g]; last by rewrite inE.
by apply: eq_bigr => g _; rewrite mulrC.
Qed.
Lemma hom_transforms (b : 'M[C]_(d, N)) : hom b^T <-> transforms n (aget rep) (aget irrep) b.
Proof.
split=> [h g i gn|h x _].
  have [x <-] := ival_surj G gn.
  apply/matrixP => m k; have := congr1 (fun X : 'M[C]_(N, d) => X m i) (h x (in_setT x)).
  rewrite summxE !mxE => E; transitivity (\sum_j FR x m j * b^T j i).
    by apply: eq_bigr => j _; rewrite !mxE.
  by rewrite E; apply: eq_bigr => l _; rewrite !mxE mulrC.
apply/matrixP => m i; have := congr1 (fun X : 'cV[C]_N => X m 0) (h (ival x) i (ival_lt x)).
rewrite summxE !mxE => E; transitivity (\sum_j aget rep (ival x) m j * (row i b)^T j 0).
  by apply: eq_bigr => j _; rewrite !mxE.
by rewrite E; apply: eq_bigr => j _; rewrite !mxE mulrC.
Qed.

(** The law holds without irreducibility and whatever the outcome of the search. *)
Lemma projected_transforms (k : 'I_N) (j : 'I_d) : transforms n (aget rep) (aget irrep) (projected k j).
Proof. by apply/hom_transforms; rewrite projectedE; exact: (hom_blk mufs pR pD uD). Qed.

Hypothesis irr : iirreducible n (aget irrep).
Let ID : irreducible T FD. Proof. exact/(iirreducibleE G). Qed.
Let nD := irreducible_norm1 mufs pD uD ID.
Let d0 : (0 < d)%N. Proof. exact: irr.1. Qed.

Lemma hom_gram (b : 'M[C]_(d, N)) : hom b^T -> b != 0 -> exists2 c, 0 < c & b *m adj b = c%:M.
Proof.
move=> hb b0; have := hom_scalar mufs uR pD uD nD hb hb.
rewrite gram_tr => E; have := congr1 trmx E; rewrite trmxK tr_scalar_mx mxtrace_tr => E'.
exists (\tr (b *m adj b) / d%:R) => //.
rewrite divr_gt0 ?ltr0n // lt_def sqn_ge0 andbT.
by apply: contra b0 => /eqP /sqn_eq0 ->.
Qed.

Definition okb (b : 'M[C]_(d, N)) : Prop := hom b^T /\ b *m adj b = 1%:M.
Definition near m k (X : 'M[C]_(m, N)) (Z : 'M[C]_(k, N)) : Prop :=
  forall v : 'rV[C]_N, (v <= X)%MS -> v != 0 ->
    exists2 w : 'rV[C]_N, (w <= Z)%MS & 4%:R * sqnorm (v - w) < sqnorm v.

Section Chosen.
Variables (bs : seq 'M[C]_(d, N)).
Hypotheses (all_ok : forall b, b \in bs -> okb b) (fr : row_free (stack bs)).

Lemma chosen_basis : exists k (Q : 'M[C]_(k, N)), [/\ k = (size bs * d)%N, Q *m adj Q = 1%:M, (Q :=: stack bs)%MS,
    forall x, x \in T -> exists M, FR x *m Q^T = Q^T *m M & isotypic T FR FD *m Q^T = Q^T].
Proof.
have [k [Q [kE QQ QS]]] := ortho_basis fr; exists k, Q; split=> //.
  move=> x xT; have : (Q *m (FR x)^T <= Q)%MS.
    have sub : (Q *m (FR x)^T <= stack bs *m (FR x)^T)%MS by apply: submxMr; rewrite QS.
    apply: submx_trans sub _; rewrite QS.
    have h : forall b, b \in bs -> (b *m (FR x)^T <= stack bs)%MS.
      move=> b hb; have [hm _] := all_ok hb; have := congr1 trmx (hm x xT); rewrite !trmx_mul trmxK => ->.
      exact: submx_trans (submxMl _ _) (stack_mem hb).
    have hs : forall m (Z : 'M[C]_(m, N)) (bs' : seq 'M[C]_(d, N)), (forall b, b \in bs' -> (b *m (FR x)^T <= Z)%MS) -> (stack bs' *m (FR x)^T <= Z)%MS; last exact: hs.
    move=> m Z; elim => [|b bs' IH] h'; first by rewrite mul0mx sub0mx.
    have -> : stack (b :: bs') *m (FR x)^T = col_mx (b *m (FR x)^T) (stack bs' *m (FR x)^T) by exact: mul_col_mx.
    rewrite -addsmxE addsmx_sub h' ?mem_head //=; apply: IH => b' hb; apply: h'; by rewrite inE hb orbT.
  by move=> /submxP [M E]; exists M^T; have := congr1 trmx E; rewrite !trmx_mul trmxK.
have : (Q *m (isotypic T FR FD)^T - Q) = 0.
  have h : stack bs *m ((isotypic T FR FD)^T - 1%:M) = 0.
    elim: (bs) all_ok => [|b bs' IH] ok; first by rewrite mul0mx.
    have -> : stack (b :: bs') *m ((isotypic T FR FD)^T - 1%:M) =
       col_mx (b *m ((isotypic T FR FD)^T - 1%:M)) (stack bs' *m ((isotypic T FR FD)^T - 1%:M)) by exact: mul_col_mx.
    rewrite IH => [|b' hb]; last by apply: ok; rewrite inE hb orbT.
    have [hm _] := ok b (mem_head _ _).
    have := congr1 trmx (isotypic_hom mufs pR uR pD uD nD hm); rewrite trmx_mul trmxK => E.
    by rewrite mulmxBr mulmx1 E subrr; exact: col_mx0.
  have /submxP [M ->] : (Q <= stack bs)%MS by rewrite QS.
  by rewrite -[X in _ - X]mulmx1 -mulmxBr -mulmxA h mulmx0.
move=> /eqP; rewrite subr_eq0 => /eqP E; by have := congr1 trmx E; rewrite trmx_mul trmxK.
Qed.

Lemma chosen_count : exists k (Q : 'M[C]_(k, N)), [/\ Q *m adj Q = 1%:M, (Q :=: stack bs)%MS &
  \sum_(m < N) \sum_(j < d) (sqnorm (row j (projected m j)) - sqnorm (row j (projected m j) *m adj Q))
   = d%:R * icip n (aget irrep) (aget rep) / n%:R - (size bs * d)%:R].
Proof.
have [k [Q [kE QQ QS inv iso]]] := chosen_basis; exists k, Q; split=> //.
have YY : adj Q^T *m Q^T = 1%:M by rewrite gram_tr QQ trmx1.
have := count_dist mufs pR uR pD uD nD YY iso.
have n0 : n%:R != 0 :> C by rewrite -cT cardH_neq0.
have -> : \tr (isotypic T FR FD) = d%:R * icip n (aget irrep) (aget rep) / n%:R.
  have := isotypic_tr T FR FD; rewrite cT (icipE G) => <-; by rewrite mulrC mulKf.
rewrite -kE => <-; apply: eq_bigr => m _; apply: eq_bigr => j _; congr (_ - _).
  rewrite (hom_diag mufs uR pD uD nD j (hom_blk mufs pR pD uD m j) (hom_blk mufs pR pD uD m j)).
  rewrite mulrC mulKf ?pnatr_eq0 -?lt0n // -projectedE gram_tr !mxE; apply: eq_bigr => i _.
  by rewrite adjE mxE -normCK.
apply: eq_bigr => a _; rewrite -projectedE adj_tr_conj; congr (`|_| ^+ 2).
rewrite !mxE; apply: eq_bigr => i _; rewrite !mxE mulrC //.
Qed.

Lemma chosen_more b : okb b -> ~~ (b <= stack bs)%MS -> row_free (stack (rcons bs b)).
Proof.
move=> [hb bb] nsub; have [k [Q [kE QQ QS inv iso]]] := chosen_basis.
have YY : adj Q^T *m Q^T = 1%:M by rewrite gram_tr QQ trmx1.
have := hom_off uR YY inv hb.
pose b' := b - b *m adj Q *m Q.
have -> : b^T - Q^T *m (adj Q^T *m b^T) = b'^T.
  have trB (A B : 'M[C]_(d, N)) : (A - B)^T = A^T - B^T by apply/matrixP => i j; rewrite !mxE.
  by rewrite /b' trB !trmx_mul adj_tr_conj /adj trmxK.
move=> hb'; have b'Q : b' *m adj Q = 0 by rewrite /b' mulmxBl -mulmxA QQ mulmx1 subrr.
have b'S : (b' <= stack (rcons bs b))%MS.
  rewrite stack_rcons /b' addmx_sub ?addsmxSr // eqmx_opp.
  by apply: submx_trans (submxMl _ _) _; rewrite QS addsmxSl.
have b'0 : b' != 0.
  apply: contra nsub; rewrite /b' subr_eq0 => /eqP ->; by rewrite -QS submxMl.
have [c c0 gram] := hom_gram hb' b'0.
clearbody b'.
have c0' : c != 0 by rewrite gt_eqF.
have fS : row_free (col_mx Q b').
  apply/row_freeP; exists (row_mx (adj Q) (c^-1 *: adj b')).
  rewrite mul_col_row QQ -!scalemxAr gram b'Q (_ : Q *m adj b' = 0) ?scaler0 ?scale_scalar_mx ?mulVf //.
    by rewrite -scalar_mx_block.
  by rewrite -[Q]adjK -adjM b'Q adj0.
rewrite /row_free eqn_leq rank_leq_row /=.
have sub : (col_mx Q b' <= stack (rcons bs b))%MS.
  by rewrite -addsmxE addsmx_sub b'S andbT QS stack_rcons addsmxSl.
have le := mxrankS sub; move: fS le => /eqP -> le; apply: leq_trans le.
by rewrite kE size_rcons mulSn addnC.
Qed.
End Chosen.

Variable L : linalg C.
Hypothesis ok : linalg_ok L.
Variable a : C.
Hypothesis a0 : 0 <= a.
Local Notation step := (project_step L a).

Definition Inv (done : seq ('I_N * 'I_d)) (bs : seq 'M[C]_(d, N)) : Prop :=
  [/\ forall b, b \in bs -> okb b, row_free (stack bs),
      forall nj, nj \in done -> allclose0 a (projected nj.1 nj.2) \/ near (projected nj.1 nj.2) (stack bs) &
      forall b, b \in bs -> exists c k j, 0 < c /\ b = c *: projected k j].

Lemma near_mono m k l (X : 'M[C]_(m, N)) (Z : 'M[C]_(k, N)) (Z' : 'M[C]_(l, N)) :
  (Z <= Z')%MS -> near X Z -> near X Z'.
Proof. by move=> ZZ h v vX v0; have [w wZ lt] := h v vX v0; exists w => //; exact: submx_trans ZZ. Qed.
Lemma near_sub m k (X : 'M[C]_(m, N)) (Z : 'M[C]_(k, N)) : (X <= Z)%MS -> near X Z.
Proof.
move=> XZ v vX v0; exists v; first exact: submx_trans XZ.
rewrite subrr sqnorm0 mulr0 lt_def sqnorm_ge0 andbT.
by apply: contra v0 => /eqP /sqnorm_eq0 ->.
Qed.

Lemma step_ok done bs nj : Inv done bs -> exists bs', step bs nj = COk bs' /\ Inv (rcons done nj) bs'.
Proof.
move=> [all_ok fr hd hf]; rewrite /project_step; set b0 := projected _ _.
case: ifP => [ac|nac].
  exists bs; split=> //; split=> // nj'; rewrite mem_rcons inE => /orP [/eqP ->|]; [by left|exact: hd].
have b00 : b0 != 0.
  apply/eqP => z; move/negP: nac; apply; apply/forallP => i; apply/forallP => j.
  by rewrite z mxE normr0.
have hb0 : hom b0^T by rewrite projectedE; exact: (hom_blk mufs pR pD uD).
have [c c0 gram] := hom_gram hb0 b00; rewrite (normalise_scalar c0 gram) /=.
have c0' : (sqrtC c)^-1 != 0 by rewrite invr_eq0 sqrtC_eq0 gt_eqF.
pose b := (sqrtC c)^-1 *: b0; rewrite -/b.
have hb : hom b^T by rewrite /b linearZ; apply: homZ.
have bb : b *m adj b = 1%:M.
  rewrite /b adjZ -scalemxAl -scalemxAr scalerA gram scale_scalar_mx; congr (_%:M).
  rewrite conj_Creal ?rpredV ?ger0_real ?sqrtC_ge0 ?ltW // -invfM -expr2 sqrtCK mulVf // gt_eqF //.
have okb_b : okb b by [].
have eb : (b :=: b0)%MS by apply: eqmx_scale.
have grow : ~~ (b <= stack bs)%MS -> Inv (rcons done nj) (rcons bs b).
  move=> nsub; split.
  - by move=> b'; rewrite mem_rcons inE => /orP [/eqP -> //|]; apply: all_ok.
  - exact: chosen_more.
  - move=> nj'; rewrite mem_rcons inE => /orP [/eqP ->|h].
      by right; apply: near_sub; rewrite -/b0 stack_rcons -eb addsmxSr.
    case: (hd _ h) => [?|nr]; [by left|right].
    by apply: near_mono nr; rewrite stack_rcons addsmxSl.
  - move=> b'; rewrite mem_rcons inE => /orP [/eqP ->|]; last exact: hf.
    by exists (sqrtC c)^-1, nj.1, nj.2; rewrite invr_gt0 sqrtC_gt0.
have fb : row_free b by apply: (gram_free (oner_neq0 C)).
case: bs all_ok fr hd hf grow => [|b1 bs] all_ok fr hd hf grow.
  exists [:: b]; split=> //; apply: (grow); apply: contra b00 => /submxP [M bE].
  have : b = 0 by rewrite bE; exact: mulmx0.
  by move=> /eqP; rewrite /b scaler_eq0 (negbTE c0').
set bs1 := b1 :: bs in all_ok fr hd hf grow *.
have [||dist [-> dist0 _ gap _]] := grassmann_gap ok (skip := false) (B1 := b) (B2 := stack bs1) d0.
- by rewrite /= muln_gt0 d0.
- by split.
rewrite /=; have {}gap := gap (leq_addr _ _).
case: ifP => lt.
  exists bs1; split=> //; split=> // nj'; rewrite mem_rcons inE => /orP [/eqP ->|]; last exact: hd.
  right=> v; rewrite -/b0 -eb => vb v0; have [w wS le] := lg_bound gap vb; exists w => //.
  have nv : 0 < sqnorm v by rewrite lt_def sqnorm_ge0 andbT; apply: contra v0 => /eqP /sqnorm_eq0 ->.
  apply: (@le_lt_trans _ _ (4%:R * (dist ^+ 2 * sqnorm v))); first by rewrite ler_pmul2l ?ltr0n.
  rewrite mulrA -[X in _ < X]mul1r ltr_pmul2r //.
  have : dist ^+ 2 < 2%:R^-1 ^+ 2 by rewrite ltr_pexpn2r ?nnegrE ?invr_ge0 ?ler0n.
  by rewrite exprVn -natrX -(ltr_pmul2l (x := 4%:R)) ?ltr0n // divff ?pnatr_eq0.
exists (rcons bs1 b); split=> //; apply: grow; apply/negP => /(gap0_iff dist0 gap) dz.
by move: lt; rewrite dz invr_gt0 ltr0n.
Qed.

Lemma fold_ok s done bs : Inv done bs -> exists bs', cfold step s bs = COk bs' /\ Inv (done ++ s) bs'.
Proof.
elim: s done bs => [|nj s IH] done bs hI; first by exists bs; rewrite cats0.
have [bs1 [e1 h1]] := step_ok nj hI; rewrite /= e1 /=.
have [bs2 [e2 h2]] := IH _ _ h1; exists bs2; split=> //.
by rewrite -cat_rcons.
Qed.
Lemma once_ok : exists bs, project_once L rep irrep a = COk bs /\
  [/\ forall b, b \in bs -> okb b, row_free (stack bs),
      forall k j, allclose0 a (projected k j) \/ near (projected (rep := rep) (irrep := irrep) k j) (stack bs) &
      forall b, b \in bs -> exists c k j, 0 < c /\ b = c *: projected k j].
Proof.
have [|bs [E h]] := fold_ok [seq (k, j) | k <- enum 'I_N, j <- enum 'I_d] (done := [::]) (bs := [::]).
  by split=> //; rewrite /row_free mxrank0.
exists bs; split=> //; case: h => h1 h2 h3 h4; split=> // k j; apply: (h3 (k, j)).
by apply/allpairsP; exists (k, j); rewrite !mem_enum.
Qed.

Lemma multiplicity_nat : exists m : nat, icip n (aget irrep) (aget rep) = n%:R * m%:R.
Proof.
have [m h] := cip_nat mufs pR uR pD uD nD; exists m; rewrite (icipE G).
by rewrite h cT.
Qed.

Section Bounds.
Variables (m : nat) (bs : seq 'M[C]_(d, N)).
Hypothesis mE : icip n (aget irrep) (aget rep) = n%:R * m%:R.
Local Notation X := (projected (rep := rep) (irrep := irrep)).
Let v k j := row j (X k j).
Let n0 : n%:R != 0 :> C. Proof. by rewrite -cT cardH_neq0. Qed.

Lemma total_norm : \sum_k \sum_j sqnorm (v k j) = (d * m)%:R.
Proof.
have fn : row_free (stack ([::] : seq 'M[C]_(d, N))) by rewrite /row_free mxrank0.
have on : forall b, b \in ([::] : seq 'M[C]_(d, N)) -> okb b by [].
have [q [Q [QQ QS E]]] := chosen_count on fn.
have {QQ}Q0 : Q = 0.
  have /submxP [M ->] : (Q <= stack ([::] : seq 'M[C]_(d, N)))%MS by rewrite QS.
  exact: mulmx0.
move: E; rewrite mul0n subr0 mE mulrCA [n%:R * _]mulrC mulfK // => E; rewrite natrM -E.
apply: eq_bigr => k _; apply: eq_bigr => j _.
by rewrite Q0 adj0 mulmx0 sqnorm0 subr0.
Qed.

Hypotheses (okbs : forall b, b \in bs -> okb b) (fr : row_free (stack bs)).
Lemma count_terms : exists t : 'I_N -> 'I_d -> C, [/\
  forall k j, 0 <= t k j <= sqnorm (v k j),
  forall k j, near (X k j) (stack bs) -> v k j != 0 -> 4%:R * t k j < sqnorm (v k j) &
  \sum_k \sum_j t k j + (size bs * d)%:R = (d * m)%:R].
Proof.
have [q [Q [QQ QS E]]] := chosen_count okbs fr.
exists (fun k j => sqnorm (v k j) - sqnorm (v k j *m adj Q)); split.
- move=> k j; rewrite -onto_dist // sqnorm_ge0 /= onto_dist // ler_subl_addr ler_addl; exact: sqnorm_ge0.
- move=> k j nr v0; have [w wS lt] := nr (v k j) (row_sub _ _) v0.
  rewrite -onto_dist //; apply: le_lt_trans lt; rewrite ler_pmul2l ?ltr0n //.
  by apply: onto_best => //; rewrite QS.
- by rewrite E mE mulrCA [n%:R * _]mulrC mulfK // subrK natrM.
Qed.
Lemma count_le : (size bs <= m)%N.
Proof.
have [t [t0 _ E]] := count_terms.
have : (size bs * d)%:R <= (d * m)%:R :> C.
  rewrite -E ler_addr sumr_ge0 // => k _; apply: sumr_ge0 => j _; by case/andP: (t0 k j).
by rewrite ler_nat mulnC leq_pmul2l.
Qed.
Hypothesis done : forall k j, allclose0 a (X k j) \/ near (X k j) (stack bs).
Lemma count_strict : (0 < m)%N -> (forall k j, allclose0 a (X k j) -> X k j = 0) -> (4 * (m - size bs) < m)%N.
Proof.
move=> m0 nt; have [t [t0 tn E]] := count_terms.
have nr k j : v k j != 0 -> 4%:R * t k j < sqnorm (v k j).
  move=> vn; apply: tn => //; case: (done k j) => // ac; case/eqP: vn.
  by rewrite /v nt // row0.
have le k j : 4%:R * t k j <= sqnorm (v k j).
  have [z|vn] := eqVneq (v k j) 0; last by rewrite ltW ?nr.
  by have := t0 k j; rewrite z sqnorm0 => h; rewrite -(le_anti h) mulr0.
rewrite ltnNge; apply/negP => ge.
have sle := count_le.
have : \sum_(x : 'I_N * 'I_d) (sqnorm (v x.1 x.2) - 4%:R * t x.1 x.2) = 0.
  apply/eqP; rewrite eq_le; apply/andP; split; last first.
    by apply: sumr_ge0 => x _; rewrite subr_ge0.
  rewrite sumrB -mulr_sumr -(pair_big xpredT xpredT (fun k j => sqnorm (v k j))) /= total_norm.
  rewrite -(pair_big xpredT xpredT t) /= subr_le0.
  have -> : \sum_k \sum_j t k j = (d * m - size bs * d)%:R.
    by rewrite natrB -?E ?addrK // mulnC leq_mul2l sle orbT.
  by rewrite -natrM ler_nat -(mulnC d (size bs)) -mulnBr mulnCA leq_mul2l ge orbT.
move=> /eqP; rewrite psumr_eq0 => [/allP h|x _]; last by rewrite subr_ge0.
have : (d * m)%:R = 0 :> C.
  rewrite -total_norm big1 // => k _; rewrite big1 // => j _.
  have [->|vn] := eqVneq (v k j) 0; first by rewrite sqnorm0.
  have /eqP := h (k, j) (mem_index_enum _) => /eqP; rewrite subr_eq0 /= => /eqP eq.
  by have := nr k j vn; rewrite eq ltxx.
by move/eqP; rewrite pnatr_eq0 muln_eq0 !eqn0Ngt d0 m0.
Qed.
Lemma count_tiny : 4%:R * (N%:R * a) ^+ 2 < 1 -> (4 * (m - size bs) < m.+1)%N.
Proof.
move=> tiny; have [t [t0 tn E]] := count_terms; have sle := count_le.
have le k j : 4%:R * t k j <= sqnorm (v k j) + 4%:R * (N%:R * a ^+ 2).
  have na : 0 <= 4%:R * (N%:R * a ^+ 2) by rewrite !mulr_ge0 ?ler0n ?exprn_ge0.
  have [z|vn] := eqVneq (v k j) 0.
    by have := t0 k j; rewrite z sqnorm0 => h; rewrite -(le_anti h) mulr0 add0r.
  case: (done k j) => [ac|nr]; last by rewrite (le_trans (ltW (tn k j nr vn))) // ler_addl.
  have /andP [_ tle] := t0 k j; rewrite -[X in X <= _]add0r ler_add ?sqnorm_ge0 // ler_pmul2l ?ltr0n //.
  apply: le_trans tle _; apply: (@le_trans _ _ (\sum_(i < N) a ^+ 2)).
    apply: ler_sum => i _; rewrite ler_pexpn2r ?nnegrE // mxE.
    by move: ac => /forallP/(_ j)/forallP/(_ i).
  by rewrite sumr_const card_ord mulr_natl.
have : \sum_k \sum_j 4%:R * t k j <= \sum_k \sum_j (sqnorm (v k j) + 4%:R * (N%:R * a ^+ 2)).
  by apply: ler_sum => k _; apply: ler_sum => j _.
have -> : \sum_k \sum_j 4%:R * t k j = d%:R * (4 * (m - size bs))%:R.
  under eq_bigr do rewrite -mulr_sumr; rewrite -mulr_sumr.
  have -> : \sum_k \sum_j t k j = (d * m - size bs * d)%:R.
    by rewrite natrB -?E ?addrK // mulnC leq_mul2l sle orbT.
  by rewrite -(mulnC d (size bs)) -mulnBr !natrM mulrCA.
under [X in _ <= X]eq_bigr do rewrite big_split /=.
rewrite big_split /= total_norm.
under [X in _ <= _ + X]eq_bigr do rewrite sumr_const card_ord.
rewrite sumr_const card_ord -mulrnA.
have -> : 4%:R * (N%:R * a ^+ 2) *+ (d * N) = d%:R * (4%:R * (N%:R * a) ^+ 2) :> C.
  by rewrite -mulr_natl natrM exprMn -!mulrA; congr (_ * _); rewrite mulrCA [X in _ * X]mulrA -expr2.
rewrite [(d * m)%:R]natrM -mulrDr ler_pmul2l ?ltr0n // => h.
by rewrite -(ltr_nat C) (le_lt_trans h) // [X in _ < X]mulrSr ltr_add2l.
Qed.
End Bounds.
End Project.
