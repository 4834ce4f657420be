(** Representations of the group of order two for the claims about the projection: the
    reflection 2P - 1 for a projector P, with the trivial irrep. *)
From Coq Require Import String.
From mathcomp Require Import all_ssreflect all_algebra all_fingroup.
From mathcomp Require Import zify.
From Verif Require Import Py GroupSpec GroupModel RepSpec IndexRepSpec RepModel RepTheory IndexGroup RepProofs ChainModel.
From Verif Require Import ProjModel ProjSpec GrassTheory LinAlgExists ProjTheory ProjProofs ProjSearch.
Import Order.TTheory GRing.Theory Num.Theory.
Set Implicit Arguments.
Unset Strict Implicit.
Unset Printing Implicit Defensive.
Local Open Scope ring_scope.

(** The group of order two. *)
Definition z2_mul (i j : nat) : nat := ((i + j) %% 2)%N.
Lemma z2_group : group_law 2 z2_mul 0.
Proof.
have lt i : (i < 2)%coq_nat -> z2_mul 0 i = i /\ z2_mul i 0 = i /\ z2_mul i i = 0%N.
  by case: i => [|[|i]] //; lia.
split.
- by move=> i j _ _; apply/ssrnat.ltP; rewrite ltn_mod.
- by move=> i j k _ _ _; rewrite /z2_mul modnDml modnDmr addnA.
- by apply/ssrnat.ltP.
- by move=> i /lt [].
- by move=> i /lt [_ []].
- by move=> i hi; exists i; have [_ [_ ->]] := lt i hi.
Qed.

Section Reflection.
Variable C : numClosedFieldType.
Definition z2_one (i j : nat) : C := 1.
Lemma z2_one_fs : ifactor_system 2 z2_mul 0 z2_one.
Proof. by split=> *; rewrite /z2_one ?normr1. Qed.

(** The trivial irrep. *)
Definition z2_trivial : arr C := Arr (adim := 1) [:: 1%:M; 1%:M].
Lemma z2_trivialE g : (g < 2)%N -> aget z2_trivial g = 1%:M.
Proof. by case: g => [|[|g]]. Qed.
Lemma z2_trivial_rep : iprojrep 2 z2_mul 0 z2_one (aget z2_trivial).
Proof.
split=> // i j hi hj; rewrite !z2_trivialE ?ltn_mod //.
by rewrite mul1mx scale1r.
Qed.
Lemma z2_trivial_unitary : iunitary 2 (aget z2_trivial).
Proof. by move=> i hi; rewrite z2_trivialE // adj1 mulmx1. Qed.
Lemma z2_trivial_irr : iirreducible 2 (aget z2_trivial).
Proof.
split=> // m W _; have [->|W0] := eqVneq W 0; [by left|right].
have [j hj] : exists j, W 0 j != 0.
  apply/existsP; rewrite -negb_forall; apply: contra W0 => /forallP h; apply/eqP/matrixP => i j.
  by rewrite ord1 mxE; apply/eqP.
exists (\matrix_(i, k) if i == j then (W 0 j)^-1 else 0).
apply/matrixP => i k; rewrite !ord1 !mxE (bigD1 j) //= !mxE eqxx mulfV // big1 ?addr0 // => l lj.
by rewrite !mxE (negbTE lj) mulr0.
Qed.

Variables (N : nat) (P : 'M[C]_N).
Hypotheses (PP : P *m P = P) (Ph : adj P = P).
Definition reflection : arr C := Arr [:: 1%:M; P + P - 1%:M].
Local Notation U := (P + P - 1%:M).
Lemma reflection_sq : U *m U = 1%:M.
Proof.
rewrite mulmxBr mulmx1 mulmxDr !mulmxBl !mulmxDl !mul1mx PP.
by rewrite !addrK opprB addrCA subrr addr0.
Qed.
Lemma reflection_rep : iprojrep 2 z2_mul 0 z2_one (aget reflection).
Proof.
split=> // [[|[|i]]] // [|[|j]] // _ _; rewrite /aget /= ?mul1mx ?mulmx1 scale1r //.
exact: reflection_sq.
Qed.
Lemma adj_U : adj U = U.
Proof. by rewrite -[in RHS]Ph -[1%:M in RHS]adj1; apply/matrixP => i j; rewrite !mxE rmorphB rmorphD. Qed.
Lemma reflection_unitary : iunitary 2 (aget reflection).
Proof.
move=> [|[|i]] // _; rewrite /aget /= ?adj1 ?mulmx1 //.
by rewrite adj_U reflection_sq.
Qed.
Lemma reflection_icip : icip 2 (aget z2_trivial) (aget reflection) = 2%:R * \tr P.
Proof.
rewrite /icip big_ord_recl big_ord1 /aget /= !mxtrace1 conjC_nat !mul1r raddfB raddfD /= mxtrace1.
by rewrite addrC subrK mulr2n mulrDl mul1r.
Qed.
(** The projected block number k is the k-th column of P. *)
Lemma reflection_projected (k : 'I_N) (j : 'I_1) :
  projected (rep := reflection) (irrep := z2_trivial) k j = (col k P)^T.
Proof.
apply/matrixP => i m; rewrite !mxE /= big_ord_recl big_ord1 /aget /= !mxE.
rewrite !ord1 eqxx conjC1 !mul1r [X in _ * X]addrC subrK -mulr2n -(mulr_natl (P m k)).
change ((2%:R : C)^-1 * (2%:R * P m k) = P m k); by rewrite mulKf ?pnatr_eq0.
Qed.
End Reflection.

Section Orthogonal.
Variables (C : numClosedFieldType) (N : nat).
(** Pairwise orthogonal non-zero rows. *)
Fixpoint orth (bs : seq 'rV[C]_N) : Prop :=
  if bs is b :: bs' then [/\ b != 0, forall b', b' \in bs' -> b *m adj b' = 0 & orth bs'] else True.
Lemma adj_col p q n (A : 'M[C]_(p, n)) (B : 'M[C]_(q, n)) : adj (col_mx A B) = row_mx (adj A) (adj B).
Proof. by rewrite /adj map_col_mx tr_col_mx. Qed.
Lemma adj_stack (v : 'rV[C]_N) (bs : seq 'rV[C]_N) : (forall b, b \in bs -> v *m adj b = 0) -> v *m adj (stack bs) = 0.
Proof.
elim: bs => [|b bs IH] h; first by apply/matrixP => i [].
have E : adj (stack (b :: bs)) = row_mx (adj b) (adj (stack bs)).
  exact: (adj_col b (stack bs)).
rewrite E (mul_mx_row v (adj b) (adj (stack bs))) h ?mem_head // IH ?row_mx0 //.
by move=> b' hb; apply: h; rewrite inE hb orbT.
Qed.
Lemma orth_free bs : orth bs -> row_free (stack bs).
Proof.
elim: bs => [_|b bs IH [b0 hb /IH fr]]; first by rewrite /row_free mxrank0.
apply/row_freeP; have /row_freeP [Z hZ] := fr.
have sb : stack bs *m adj b = 0.
  by rewrite -[LHS]adjK adjM adjK adj_stack // adj0.
have gE := sqnormE b; set s := sqnorm b in gE.
have s0 : s != 0 by apply: contra b0 => /eqP /sqnorm_eq0 ->.
pose B1 := s^-1 *: adj b; pose B2 := Z - B1 *m (b *m Z).
have e1 : b *m B1 = 1%:M by rewrite -scalemxAr gE scale_scalar_mx mulVf.
have e2 : stack bs *m B1 = 0 by rewrite -scalemxAr sb scaler0.
have E : col_mx b (stack bs) *m row_mx B1 B2 = 1%:M.
  rewrite mul_col_row !mulmxBr !mulmxA e1 e2 hZ mul1mx !mul0mx subr0 subrr.
  by rewrite -scalar_mx_block.
by exists (row_mx B1 B2); exact: E.
Qed.
End Orthogonal.

Section Steps.
Variables (C : numClosedFieldType) (N : nat) (P : 'M[C]_N).
Variable L : linalg C.
Hypothesis ok : linalg_ok L.
Variable a : C.
Local Notation X k := ((col k P)^T : 'rV[C]_N).
Local Notation step bs k := (project_step L a (rep := reflection P) (irrep := z2_trivial C) (bs : seq 'rV[C]_N) (k, ord0)).
Lemma skip_step bs k (w : 'rV[C]_N) : (0 < size bs)%N -> row_free (stack bs) -> (w <= stack bs)%MS ->
  4%:R * sqnorm (X k - w) < sqnorm (X k) -> step bs k = COk bs.
Proof.
move=> sz fr wS lt; rewrite /project_step reflection_projected /=; case: ifP => // _.
have n0 : 0 < sqnorm (X k).
  by apply: le_lt_trans lt; rewrite mulr_ge0 ?ler0n ?sqnorm_ge0.
have X0 : X k != 0 by apply/eqP => z; rewrite z sqnorm0 ltxx in n0.
rewrite (normalise_scalar n0 (sqnormE _)) /=.
set c := (sqrtC _)^-1; have c0 : c != 0 by rewrite invr_eq0 sqrtC_eq0 gt_eqF.
case: bs sz fr wS => // b bs _ fr wS.
have [||d [-> d0 _ gap _]] := grassmann_gap ok (skip := false) (B1 := c *: X k) (B2 := stack (b :: bs)) (ltn0Sn 0) => //.
  split=> //; apply: (gram_free (c := sqnorm (c *: X k))); last exact: sqnormE.
  by rewrite sqnormZ mulf_neq0 ?expf_neq0 ?normr_eq0 // gt_eqF.
have [_ [v [v0 vX h]]] := gap (leq_addr _ _).
rewrite /= ifT //.
have vE : exists t, v = t *: X k.
  by case/submxP: vX => D ->; exists (D 0 0 * c); rewrite [D in D *m _]mx11_scalar mul_scalar_mx scalerA.
case: vE => t vE; have t0 : t != 0 by apply: contra v0 => /eqP z; rewrite vE z scale0r.
have := h (t *: w) (scalemx_sub _ wS); rewrite vE -scalerBr !sqnormZ mulrCA ler_pmul2l ?exprn_gt0 ?normr_gt0 // => le.
have : 4%:R * d ^+ 2 < 1.
  rewrite -(ltr_pmul2r n0) mul1r -mulrA; apply: le_lt_trans lt; by rewrite ler_pmul2l ?ltr0n.
rewrite -ltr_pdivl_mull ?ltr0n // mulr1 => q.
by rewrite -(ltr_pexpn2r (n := 2)) ?nnegrE ?invr_ge0 ?ler0n // exprVn -natrX.
Qed.
Lemma take_step bs k : row_free (stack bs) -> ~~ allclose0 a (X k) -> (forall b, b \in bs -> X k *m adj b = 0) ->
  0 <= a -> exists2 c, 0 < c & step bs k = COk (rcons bs (c *: X k)).
Proof.
move=> fr nac orth a0; rewrite /project_step reflection_projected /= (negbTE nac).
have X0 : X k != 0.
  apply: contra nac => /eqP z; apply/forallP => i; apply/forallP => j; by rewrite z mxE normr0.
have n0 : 0 < sqnorm (X k) by rewrite lt_def sqnorm_ge0 andbT; apply: contra X0 => /eqP /sqnorm_eq0 ->.
rewrite (normalise_scalar n0 (sqnormE _)) /=.
set c := (sqrtC _)^-1; have c0 : 0 < c by rewrite invr_gt0 sqrtC_gt0.
exists c => //; have cn : c != 0 by rewrite gt_eqF.
case: bs fr orth => // b bs fr orth.
have fX : row_free (c *: X k).
  apply: (gram_free (c := sqnorm (c *: X k))); last exact: sqnormE.
  by rewrite sqnormZ mulf_neq0 ?expf_neq0 ?normr_eq0 // gt_eqF.
have [||d [-> d0 d1 gap _]] := grassmann_gap ok (skip := false) (B1 := c *: X k) (B2 := stack (b :: bs)) (ltn0Sn 0) => //.
have /(gap1_iff d0 d1 (gap (leq_addr _ _))) -> : exists v : 'rV[C]_N, [/\ v != 0, (v <= c *: X k)%MS & v *m adj (stack (b :: bs)) = 0].
  exists (X k); split=> //; first by rewrite eqmx_scale.
  exact: adj_stack.
by rewrite /= ifF //; apply/negbTE; rewrite -real_leNgt ?rpredV ?realn ?rpred1 // invf_le1 ?ltr0n // ler1n.
Qed.
End Steps.

(** Five orthonormal vectors in twenty dimensions, multiplied by 52. *)
Definition frame_z (i k : nat) : int :=
  if (k < 4)%N then (if i == k then 20 else 0)
  else if i == 4%N then 13
  else if i == ((k - 4) %/ 4)%N then (if ((k - 4) %% 4 < 2)%N then 24 else - 24%:Z) else 0.
Definition frame_s (k : nat) : int := if ((k - 4) %% 4 < 2)%N then 6 else - 6%:Z.
Definition last_z (i : nat) : int := if i == 4%N then 13 else 0.
Definition isum (n : nat) (f : nat -> int) : int := foldr +%R 0 [seq f i | i <- iota 0 n].
Lemma isumE n (f : nat -> int) : \sum_(i < n) f i = isum n f.
Proof. by rewrite -(big_mkord xpredT f) /index_iota subn0 /isum foldrE big_map. Qed.
Lemma frame_gram : all (fun i => all (fun j => isum 20 (fun k => frame_z i k * frame_z j k) ==
  if i == j then 2704 else 0) (iota 0 5)) (iota 0 5).
Proof. by vm_compute. Qed.
Lemma frame_first : all (fun k => all (fun l => isum 5 (fun i => frame_z i k * frame_z i l) ==
  if k == l then 400 else 0) (iota 0 4)) (iota 0 4).
Proof. by vm_compute. Qed.
Lemma frame_rest : all (fun k => all (fun i =>
    5 * frame_z i k - frame_s k * frame_z i ((k - 4) %/ 4) == 5 * last_z i) (iota 0 5) &&
    (4 * isum 5 (fun i => last_z i ^+ 2) < isum 5 (fun i => frame_z i k ^+ 2))) (iota 4 16).
Proof. by vm_compute. Qed.

Section Frame.
Variable C : numClosedFieldType.
Definition zrow n (f : nat -> int) : 'rV[C]_n := \row_i ((f i)%:~R / 52%:R).
Lemma zrow_prod n f g : zrow n f *m adj (zrow n g) = ((isum n (fun i => f i * g i))%:~R / 2704%:R)%:M.
Proof.
apply/matrixP => x y; rewrite (ord1 x) (ord1 y) !mxE eqxx mulr1n -isumE rmorph_sum /= mulr_suml; apply: eq_bigr => i _.
rewrite adjE !mxE rmorphM /= fmorphV rmorph_int rmorph_nat intrM mulrACA -invfM -natrM //.
Qed.
Lemma zrow_sq n f : sqnorm (zrow n f) = (isum n (fun i => f i ^+ 2))%:~R / 2704%:R.
Proof.
by have /matrixP/(_ 0 0) := sqnormE (zrow n f); rewrite zrow_prod !mxE eqxx !mulr1n => <-.
Qed.
Definition frame : 'M[C]_(5, 20) := \matrix_(i, k) ((frame_z i k)%:~R / 52%:R).
Lemma frame_real : map_mx conjC frame = frame.
Proof. by apply/matrixP => i k; rewrite !mxE rmorphM /= fmorphV rmorph_int rmorph_nat. Qed.
Lemma adj_frame : adj frame = frame^T.
Proof. by rewrite /adj frame_real. Qed.
Lemma frame_iso : frame *m adj frame = 1%:M.
Proof.
apply/matrixP => i j; rewrite adj_frame !mxE.
have := allP frame_gram i; rewrite mem_iota => /(_ (ltn_ord i)) /allP /(_ j); rewrite mem_iota => /(_ (ltn_ord j)) /eqP.
rewrite -isumE => /(congr1 (fun z : int => z%:~R / 2704%:R : C)) h; transitivity ((if val i == val j then 2704%:Z else 0)%:~R / 2704%:R : C).
  rewrite -h rmorph_sum /= mulr_suml; apply: eq_bigr => k _; rewrite !mxE intrM mulrACA -invfM -natrM //.
rewrite -val_eqE; case: eqP => _; last by rewrite mul0r.
by rewrite divff // pnatr_eq0.
Qed.
Definition frame_proj : 'M[C]_20 := frame^T *m frame.
Lemma frame_PP : frame_proj *m frame_proj = frame_proj.
Proof. by rewrite /frame_proj mulmxA -[X in X *m _]mulmxA -adj_frame frame_iso mulmx1. Qed.
Lemma frame_Ph : adj frame_proj = frame_proj.
Proof. by rewrite /frame_proj adjM adj_frame -adj_frame adjK. Qed.
Lemma frame_trace : \tr frame_proj = 5%:R.
Proof. by rewrite /frame_proj mxtrace_mulC -adj_frame frame_iso mxtrace1. Qed.
Lemma frame_col k : (col k frame_proj)^T = zrow 5 (frame_z^~ k) *m frame.
Proof.
apply/matrixP => i j; rewrite !ord1 !mxE; apply: eq_bigr => x _; rewrite !mxE mulrC //.
Qed.
Lemma frame_prod (u v : 'rV[C]_5) : (u *m frame) *m adj (v *m frame) = u *m adj v.
Proof. by rewrite adjM mulmxA -[u *m _ *m _]mulmxA frame_iso mulmx1. Qed.

Variable L : linalg C.
Hypothesis ok : linalg_ok L.
Variable a : C.
Hypotheses (a0 : 0 <= a) (a1 : a <= (10%:R ^+ 2)^-1).
Local Notation X k := ((col k frame_proj)^T : 'rV[C]_20).
Lemma first_prod (k l : 'I_20) : (k < 4)%N -> (l < 4)%N -> X k *m adj (X l) = (if k == l then 400%:R / 2704%:R else 0)%:M.
Proof.
move=> hk hl; rewrite !frame_col frame_prod zrow_prod.
have := allP frame_first k; rewrite mem_iota => /(_ hk) /allP /(_ l); rewrite mem_iota => /(_ hl) /eqP ->.
by rewrite val_eqE; case: eqP => // _; rewrite mul0r.
Qed.
Lemma first_entry (k : 'I_20) : (k < 4)%N -> ~~ allclose0 a (X k).
Proof.
move=> hk; apply/negP => /forallP /(_ 0) /forallP /(_ k).
have -> : X k 0 k = 400%:R / 2704%:R.
  have h := first_prod hk hk; rewrite eqxx !frame_col frame_prod in h.
  have /matrixP/(_ 0 0) := h; rewrite !mxE eqxx mulr1n => <-; apply: eq_bigr => i _.
  by rewrite adjE !mxE rmorphM /= fmorphV rmorph_int rmorph_nat.
rewrite ger0_norm ?divr_ge0 ?ler0n // => le; have := le_trans le a1.
rewrite ler_pdivr_mulr ?ltr0n // mulrC ler_pdivl_mulr ?exprn_gt0 ?ltr0n // -natrX -natrM ler_nat.
by vm_compute.
Qed.

(** One trial finds four blocks. *)
Lemma frame_trial : exists bs : seq 'rV[C]_20,
  project_once L (reflection frame_proj) (z2_trivial C) a = COk bs /\ size bs = 4%N.
Proof.
rewrite /project_once.
have -> : [seq (n, j) | n <- enum 'I_20, j <- enum 'I_1] = [seq (n, ord0 : 'I_1) | n <- enum 'I_20].
  rewrite enum_ordSl (_ : enum 'I_0 = [::]) ?allpairs1r //.
  by apply: size0nil; rewrite size_enum_ord.
have := val_enum_ord 20.
case: (enum 'I_20) => [//|o0 [//|o1 [//|o2 [//|o3 s]]]] /= [e0 e1 e2 e3 es].
have pr (k l : 'I_20) c : (k < 4)%N -> (l < 4)%N -> (k != l :> nat)%N -> X k *m adj (c *: X l) = 0.
  by move=> hk hl kl; rewrite adjZ -scalemxAr first_prod // -val_eqE (negbTE kl) raddf0 scaler0.
have nz (k : 'I_20) c : (k < 4)%N -> 0 < c -> c *: X k != 0.
  move=> hk c0; rewrite scaler_eq0 negb_or gt_eqF //=; apply: contra (first_entry hk) => /eqP z.
  by apply/forallP => i; apply/forallP => j; rewrite z mxE normr0.
have prZ (k l : 'I_20) b c : (k < 4)%N -> (l < 4)%N -> (k != l :> nat)%N -> (b *: X k) *m adj (c *: X l) = 0.
  by move=> hk hl kl; rewrite -scalemxAl pr ?scaler0.
have f0 : row_free (stack ([::] : seq 'rV[C]_20)) by apply: orth_free.
have [|//|c0 c0p E0] := take_step ok (k := o0) f0 (first_entry _) _ a0; first by rewrite e0.
rewrite E0 /=.
have o0f : orth [:: c0 *: X o0] by split=> //; apply: nz; rewrite ?e0.
have [||c1 c1p E1] := take_step ok (k := o1) (orth_free o0f) (first_entry _) _ a0; first by rewrite e1.
  by move=> b; rewrite inE => /eqP ->; apply: pr; rewrite ?e0 ?e1.
rewrite E1 /=.
have o1f : orth [:: c0 *: X o0; c1 *: X o1].
  split; [by apply: nz; rewrite ?e0| |by split=> //; apply: nz; rewrite ?e1].
  by move=> b; rewrite inE => /eqP ->; apply: prZ; rewrite ?e0 ?e1.
have [||c2 c2p E2] := take_step ok (k := o2) (orth_free o1f) (first_entry _) _ a0; first by rewrite e2.
  by move=> b; rewrite !inE => /orP [] /eqP ->; apply: pr; rewrite ?e0 ?e1 ?e2.
rewrite E2 /=.
have o2f : orth [:: c0 *: X o0; c1 *: X o1; c2 *: X o2].
  split; [by apply: nz; rewrite ?e0| |split; [by apply: nz; rewrite ?e1| |by split=> //; apply: nz; rewrite ?e2]].
    by move=> b; rewrite !inE => /orP [] /eqP ->; apply: prZ; rewrite ?e0 ?e1 ?e2.
  by move=> b; rewrite !inE => /eqP ->; apply: prZ; rewrite ?e0 ?e1 ?e2.
have [||c3 c3p E3] := take_step ok (k := o3) (orth_free o2f) (first_entry _) _ a0; first by rewrite e3.
  by move=> b; rewrite !inE => /or3P [] /eqP ->; apply: pr; rewrite ?e0 ?e1 ?e2 ?e3.
rewrite E3 /=.
have o3f : orth [:: c0 *: X o0; c1 *: X o1; c2 *: X o2; c3 *: X o3].
  split; [by apply: nz; rewrite ?e0| |split; [by apply: nz; rewrite ?e1| |split; [by apply: nz; rewrite ?e2| |by split=> //; apply: nz; rewrite ?e3]]].
  - by move=> b; rewrite !inE => /or3P [] /eqP ->; apply: prZ; rewrite ?e0 ?e1 ?e2 ?e3.
  - by move=> b; rewrite !inE => /orP [] /eqP ->; apply: prZ; rewrite ?e0 ?e1 ?e2 ?e3.
  - by move=> b; rewrite !inE => /eqP ->; apply: prZ; rewrite ?e0 ?e1 ?e2 ?e3.
set bs := [:: _; _; _; _] in o3f *; exists bs; split=> //.
have inX (q : nat) : (q < 4)%N -> exists2 o : 'I_20, val o = q & (X o <= stack bs)%MS.
  have sub (o : 'I_20) c : 0 < c -> c *: X o \in bs -> (X o <= stack bs)%MS.
    by move=> cp cin; rewrite -(eqmx_scale (X o) (a := c)) ?gt_eqF //; apply: stack_mem.
  case: q => [|[|[|[|//]]]] _; [exists o0|exists o1|exists o2|exists o3] => //.
  - by apply: (sub _ c0) => //; rewrite !inE eqxx.
  - by apply: (sub _ c1) => //; rewrite !inE eqxx ?orbT.
  - by apply: (sub _ c2) => //; rewrite !inE eqxx ?orbT.
  - by apply: (sub _ c3) => //; rewrite !inE eqxx ?orbT.
have : all (fun k : nat => k \in iota 4 16) [seq val k | k <- s] by rewrite es; apply/allP.
elim: s {es} => [//|k s IH] /= /andP [hk hs].
have /andP [/allP hz hlt] := allP frame_rest _ hk.
have {}hk : nat_of_ord k \in iota 4 16 by exact: hk.
rewrite mem_iota in hk; case/andP: hk => k4 k20.
have [o oE oS] : exists2 o : 'I_20, val o = ((k - 4) %/ 4)%N & (X o <= stack bs)%MS.
  by apply: inX; rewrite ltn_divLR // ltn_subLR.
have wE : X k - ((frame_s k)%:~R / 5%:R) *: X o = zrow 5 last_z *m frame.
  rewrite !frame_col oE scalemxAl -mulmxBl; congr (_ *m _); apply/matrixP => x i; rewrite !mxE.
  have := hz i; rewrite mem_iota => /(_ (ltn_ord i)) /eqP /(congr1 (fun z : int => z%:~R / (5%:R * 52%:R) : C)).
  rewrite rmorphB !rmorphM /= mulrBl => h.
  by move: h; rewrite -!mulf_div (_ : (5%:~R : C) = 5%:R) // divff ?pnatr_eq0 // !mul1r.
have wS : (((frame_s k)%:~R / 5%:R) *: X o <= stack bs)%MS by exact: scalemx_sub.
have lt : 4%:R * sqnorm (X k - ((frame_s k)%:~R / 5%:R) *: X o) < sqnorm (X k).
  rewrite wE frame_col !sqnorm_iso ?frame_iso // !zrow_sq mulrA ltr_pmul2r ?invr_gt0 ?ltr0n //.
  by rewrite -[4%:R]/(4%:~R) -intrM ltr_int.
have bs0 : (0 < size bs)%N by [].
have -> := skip_step ok a bs0 (orth_free o3f) wS lt.
exact: IH.
Qed.
End Frame.
