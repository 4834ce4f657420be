(** Real representations: the projection onto real irreducible representations, and the
    tensors built with them. *)
From Coq Require List.
From Coq Require Import String.
From mathcomp Require Import all_ssreflect all_algebra all_fingroup.
From mathcomp.real_closed Require Import mxtens.
From mathcomp Require Import zify.
From Verif Require Import Py GroupSpec GroupModel RepSpec IndexRepSpec RepModel RepTheory IndexGroup RepProofs ChainModel.
From Verif Require Import ProjModel ProjSpec GrassTheory ProjTheory ProjProofs ProjSearch SpinorSpec RealSpec.
From Verif Require Import TensorModel TensorSpec TensorTheory TensorProofs TensorIndex.
Import Order.TTheory GRing.Theory Num.Theory.
Set Implicit Arguments.
Unset Strict Implicit.
Unset Printing Implicit Defensive.
Local Open Scope ring_scope.

Section RealMatrices.
Variable C : numClosedFieldType.
Lemma real_mxP m n (A : 'M[C]_(m, n)) : real_mx A <-> map_mx conjC A = A.
Proof.
split=> [h|h i j]; first by apply/matrixP => i j; rewrite mxE; apply/CrealP; exact: h.
by apply/CrealP; have /matrixP/(_ i j) := h; rewrite mxE.
Qed.
Lemma real_adj m n (A : 'M[C]_(m, n)) : real_mx A -> adj A = A^T.
Proof. by move/real_mxP => h; rewrite /adj h. Qed.
Lemma real_mul m n p (A : 'M[C]_(m, n)) (B : 'M[C]_(n, p)) : real_mx A -> real_mx B -> real_mx (A *m B).
Proof. by move=> hA hB i j; rewrite mxE rpred_sum // => k _; rewrite rpredM. Qed.
Lemma real_tens m n p q (A : 'M[C]_(m, n)) (B : 'M[C]_(p, q)) : real_mx A -> real_mx B -> real_mx (A *t B).
Proof. by move=> hA hB i j; rewrite mxE rpredM. Qed.
Lemma real_trmx m n (A : 'M[C]_(m, n)) : real_mx A -> real_mx A^T.
Proof. by move=> h i j; rewrite mxE. Qed.

Lemma real_mxZ m n c (A : 'M[C]_(m, n)) : c \is Num.real -> real_mx A -> real_mx (c *: A).
Proof. by move=> hc h i j; rewrite mxE rpredM. Qed.
Lemma real_stack d N (bs : seq 'M[C]_(d, N)) : (forall b, b \in bs -> real_mx b) -> real_mx (stack bs).
Proof.
elim: bs => [|b bs IH] h; first by move=> i j; rewrite mxE rpred0.
have : real_mx (col_mx b (stack bs)); last exact.
move=> i j; rewrite mxE; case: splitP => k _; first by apply: h; rewrite mem_head.
by apply: IH => b' hb; apply: h; rewrite inE hb orbT.
Qed.

Section Irr.
Variables (n d : nat) (D : nat -> 'M[C]_d).
Hypothesis irr : real_irreducible n D.
(** A real invariant space of rows is zero or everything. *)
Lemma real_space k (K : 'M[C]_(k, d)) : real_mx K -> (forall g, (g < n)%N -> (K *m (D g)^T <= K)%MS) ->
  K = 0 \/ row_full K.
Proof.
move=> rK inv; case: (posnP (\rank K)) => [r0|r0].
  by left; apply/eqP; rewrite -mxrank_eq0 r0.
right; rewrite /row_full; apply/eqP; apply: (irr.2 _ (row_base K)^T) => //.
- apply: real_trmx; apply/real_mxP; rewrite map_row_base; move/real_mxP: rK => rK.
  by move: (mxrank_map _ K); rewrite rK => E; rewrite (eq_irrelevance E erefl) castmx_id.
- have /row_freeP [V hV] := row_base_free K.
  by exists V^T; rewrite -trmx_mul hV trmx1.
- move=> g gn; have : (row_base K *m (D g)^T <= row_base K)%MS.
    rewrite eq_row_base; apply: submx_trans (inv g gn); apply: submxMr; by rewrite eq_row_base.
  by move=> /submxP [Y hY]; exists Y^T; rewrite -[D g]trmxK -trmx_mul hY trmx_mul.
Qed.
(** A real symmetric matrix which commutes with a real irreducible representation is a
    multiple of the unit matrix. *)
Lemma real_schur (S : 'M[C]_d) : real_mx S -> S^T = S ->
  (forall g, (g < n)%N -> S *m D g = D g *m S) -> exists c, S = c%:M.
Proof.
move=> rS sS com; have d0 := irr.1.
have [a ra] : exists a, root (char_poly S) a.
  by apply/closed_rootP; rewrite size_char_poly; case: (d) d0.
have /eigenvalueP [v vS v0] : eigenvalue S a by rewrite eigenvalue_root_char.
have aR : a \is Num.real.
  have h1 : v *m S *m adj v = a *: (v *m adj v) by rewrite vS -scalemxAl.
  have h2 : v *m S *m adj v = a^* *: (v *m adj v).
    have -> : v *m S *m adj v = v *m adj (v *m S).
      by rewrite adjM (real_adj rS) sS mulmxA.
    by rewrite vS adjZ -scalemxAr.
  have nz : \tr (v *m adj v) != 0 by apply: contra v0 => /eqP /sqn_eq0 ->.
  have := congr1 mxtrace (etrans (esym h1) h2); rewrite !linearZ /= => /(mulIf nz) h.
  by apply/CrealP.
exists a; pose K := kermx (S - a%:M).
have rK : real_mx K.
  apply/real_mxP; rewrite /K map_kermx map_mxB /= map_scalar_mx /=.
  by move/real_mxP: rS => ->; move/CrealP: aR => ->.
have [|K0|] := real_space rK.
- move=> g gn; apply/sub_kermxP; rewrite -mulmxA.
  have -> : (D g)^T *m (S - a%:M) = (S - a%:M) *m (D g)^T.
    rewrite mulmxBr mulmxBl mul_scalar_mx mul_mx_scalar; congr (_ - _).
    by rewrite -{1}sS -trmx_mul com // trmx_mul sS.
  by rewrite mulmxA mulmx_ker mul0mx.
- case/negP: v0; have : (v <= K)%MS by apply/sub_kermxP; rewrite mulmxBr vS mul_mx_scalar subrr.
  by rewrite K0 submx0.
move=> /row_fullP [V VK]; apply/eqP; rewrite -subr_eq0; apply/eqP.
by rewrite -[LHS]mul1mx -VK -mulmxA mulmx_ker mulmx0.
Qed.
End Irr.
End RealMatrices.

Section RealProject.
Variables (C : numClosedFieldType) (n : nat) (mul : nat -> nat -> nat) (e : nat).
Hypothesis G : group_law n mul e.
Local Notation one := (fun _ _ : nat => 1 : C).
Variables rep irrep : arr C.
Hypotheses (uR : urep n mul e rep) (uD : urep n mul e irrep).
Hypotheses (rR : forall g, (g < n)%N -> real_mx (aget rep g)) (rD : forall g, (g < n)%N -> real_mx (aget irrep g)).
Hypothesis irr : real_irreducible n (aget irrep).
Local Notation N := (adim rep).
Local Notation d := (adim irrep).
Variable L : linalg C.
Hypothesis ok : linalg_ok L.

Definition carries (b : 'M[C]_(d, N)) : Prop := forall g, (g < n)%N -> aget rep g *m b^T = b^T *m aget irrep g.
Lemma carriesP b : carries b <-> transforms n (aget rep) (aget irrep) b.
Proof.
split=> [h|/(hom_transforms G) h g gn]; last by have [x <-] := ival_surj G gn; apply: h; rewrite inE.
by apply/(hom_transforms G) => x _; apply: h; exact: ival_lt.
Qed.
Lemma projected_carries k j : carries (projected k j).
Proof.
apply/carriesP; have [_ p1 _] := uR; have [sD p2 v2] := uD.
by apply: (projected_transforms G (one_fs C n mul e)).
Qed.
Lemma projected_real (k : 'I_N) (j : 'I_d) : real_mx (projected k j).
Proof.
apply: real_mxZ; first by rewrite rpredM ?rpredV ?realn.
move=> x y; rewrite mxE; apply: rpred_sum => g _; have [sD _ _] := uD.
have gn : (g < n)%N by rewrite -sD.
by apply: rpredM; [rewrite conj_Creal; apply: rD|apply: rR].
Qed.
Lemma real_gram b : real_mx b -> carries b -> b != 0 -> exists2 c, 0 < c & b *m adj b = c%:M.
Proof.
move=> rb hb b0; have [_ _ v1] := uR; have [_ _ v2] := uD.
have [c cE] : exists c, b *m b^T = c%:M.
  apply: (real_schur irr); first exact: real_mul rb (real_trmx rb).
    by rewrite trmx_mul trmxK.
  move=> g gn; rewrite -mulmxA -hb // mulmxA; have := congr1 trmx (hb g gn); rewrite !trmx_mul trmxK => E.
  have e1 : aget irrep g *m b = b *m aget rep g.
    rewrite -[RHS]mul1mx -(v2 g gn) real_adj; last exact: rD.
    rewrite -!mulmxA; congr (_ *m _); rewrite mulmxA -E -mulmxA.
    rewrite -[LHS]mulmx1; congr (_ *m _); rewrite -real_adj; last exact: rR.
    by rewrite (mulmx1C (v1 g gn)).
  by rewrite mulmxA e1.
have cE' : b *m adj b = c%:M by rewrite real_adj.
exists c => //; have d0 := irr.1.
have : 0 < \tr (b *m adj b) by rewrite lt_def sqn_ge0 andbT; apply: contra b0 => /eqP /sqn_eq0 ->.
by rewrite cE' mxtrace_scalar pmulrn_lgt0.
Qed.

Definition rok (b : 'M[C]_(d, N)) : Prop := [/\ carries b, real_mx b & b *m adj b = 1%:M].
Lemma real_more bs b : (forall b, b \in bs -> rok b) -> rok b -> row_free (stack bs) -> ~~ (b <= stack bs)%MS ->
  row_free (stack (rcons bs b)).
Proof.
move=> ok_bs [hb rb gb] fr nsub.
pose K := kermx (b *m cokermx (stack bs)).
have inK m (x : 'M[C]_(m, d)) : (x <= K)%MS = (x *m b <= stack bs)%MS.
  by rewrite [RHS]submxE -mulmxA; exact/sub_kermxP/eqP.
have rK : real_mx K.
  apply/real_mxP; rewrite /K map_kermx map_mxM map_cokermx /=.
  have /real_mxP -> : real_mx (stack bs) by apply: real_stack => b' /ok_bs [].
  by move/real_mxP: rb => ->.
have st g : (g < n)%N -> (stack bs *m (aget rep g)^T <= stack bs)%MS.
  move=> gn; have hs : forall m (Z : 'M[C]_(m, N)) (bs' : seq 'M[C]_(d, N)),
    (forall b, b \in bs' -> (b *m (aget rep g)^T <= Z)%MS) -> (stack bs' *m (aget rep g)^T <= Z)%MS.
    move=> m Z; elim => [|b1 bs' IH] h'; first by rewrite mul0mx sub0mx.
    have -> : stack (b1 :: bs') *m (aget rep g)^T = col_mx (b1 *m (aget rep g)^T) (stack bs' *m (aget rep g)^T) by exact: mul_col_mx.
    rewrite -addsmxE addsmx_sub h' ?mem_head //=; apply: IH => b' hb'; apply: h'; by rewrite inE hb' orbT.
  apply: hs => b' hb'; have [c1 _ _] := ok_bs _ hb'; have := congr1 trmx (c1 g gn); rewrite !trmx_mul trmxK => ->.
  exact: submx_trans (submxMl _ _) (stack_mem hb').
case: (real_space irr rK) => [g gn|K0|/row_fullP [V VK]].
- rewrite inK -mulmxA; have := congr1 trmx (hb g gn); rewrite !trmx_mul trmxK => <-.
  rewrite mulmxA; apply: submx_trans (st g gn); apply: submxMr.
  by rewrite -inK.
- have fb : row_free b by apply: (gram_free (oner_neq0 C)).
  have cap : (stack bs :&: b)%MS = 0.
    apply/eqP; rewrite -submx0; apply/row_subP => i.
    have : (row i (stack bs :&: b)%MS <= stack bs :&: b)%MS by exact: row_sub.
    rewrite sub_capmx => /andP [h1 /submxP [x xE]]; rewrite xE submx0.
    move: h1; rewrite xE -inK K0 submx0 => /eqP ->; by rewrite mul0mx.
  rewrite /row_free; apply/eqP.
  rewrite (stack_rcons bs b).
  have := mxrank_sum_cap (stack bs) b; rewrite cap mxrank0 addn0 => ->.
  by move/eqP: fr => ->; move/eqP: fb => ->; rewrite size_rcons mulSn addnC.
case/negP: nsub; rewrite -[b]mul1mx -VK -mulmxA; apply: submx_trans (submxMl _ _) _.
by rewrite -inK.
Qed.
Variable a : C.
Hypothesis a0 : 0 <= a.
Definition RInv (bs : seq 'M[C]_(d, N)) : Prop := (forall b, b \in bs -> rok b) /\ row_free (stack bs).
Lemma real_step bs nj : RInv bs -> exists bs', project_step L a bs nj = COk bs' /\ RInv bs'.
Proof.
move=> [all_ok fr]; rewrite /project_step; set b0 := projected _ _.
case: ifP => [ac|nac]; first by exists bs.
have b00 : b0 != 0.
  apply/eqP => z; move/negP: nac; apply; apply/forallP => i; apply/forallP => j.
  by rewrite z mxE normr0.
have hb0 : carries b0 by exact: projected_carries.
have rb0 : real_mx b0 by exact: projected_real.
have [c c0 gram] := real_gram rb0 hb0 b00; rewrite (normalise_scalar c0 gram) /=.
have c0' : (sqrtC c)^-1 != 0 by rewrite invr_eq0 sqrtC_eq0 gt_eqF.
have cR : (sqrtC c)^-1 \is Num.real by rewrite rpredV ger0_real ?sqrtC_ge0 ?ltW.
pose b := (sqrtC c)^-1 *: b0; rewrite -/b.
have rb : rok b.
  split; last 1 first.
  - rewrite /b adjZ -scalemxAl -scalemxAr scalerA gram scale_scalar_mx; congr (_%:M).
    by rewrite conj_Creal // -invfM -expr2 sqrtCK mulVf // gt_eqF.
  - by move=> g gn; rewrite /b linearZ /= -scalemxAr hb0 // -scalemxAl.
  - exact: real_mxZ.
have grow : ~~ (b <= stack bs)%MS -> RInv (rcons bs b).
  move=> nsub; split; last exact: real_more.
  by move=> b'; rewrite mem_rcons inE => /orP [/eqP -> //|]; apply: all_ok.
have fb : row_free b by case: rb => _ _; apply: (gram_free (oner_neq0 C)).
case: bs all_ok fr grow => [|b1 bs] all_ok fr grow.
  exists [:: b]; split=> //; apply: (grow); apply: contra b00 => /submxP [M bE].
  have : b = 0 by rewrite bE; exact: mulmx0.
  by move=> /eqP; rewrite /b scaler_eq0 (negbTE c0').
set bs1 := b1 :: bs in all_ok fr grow *.
have [||dist [-> dist0 _ gap _]] := grassmann_gap ok (skip := false) (B1 := b) (B2 := stack bs1) irr.1.
- by rewrite /= muln_gt0 irr.1.
- by split.
rewrite /=; have {}gap := gap (leq_addr _ _).
case: ifP => lt; first by exists bs1.
exists (rcons bs1 b); split=> //; apply: grow; apply/negP => sub.
have := (gap0_iff dist0 gap).2 sub => dz; move: lt; rewrite dz.
by rewrite invr_gt0 ltr0n.
Qed.
Lemma real_once : exists bs, project_once L rep irrep a = COk bs /\ RInv bs.
Proof.
rewrite /project_once; set s := [seq _ | _ <- _, _ <- _]; clearbody s.
have : RInv [::] by split=> //; rewrite /row_free mxrank0.
elim: s [::] => [|nj s IH] bs hI; first by exists bs.
by have [bs1 [e1 h1]] := real_step nj hI; rewrite /= e1 /=; exact: IH.
Qed.
End RealProject.

Section RealResult.
Variables (C : numClosedFieldType) (n : nat) (mul : nat -> nat -> nat) (e : nat).
Hypothesis G : group_law n mul e.
(** Real orthogonal representations, and those which leave no real subspace invariant. *)
Definition rrep (A : arr C) : Prop := urep n mul e A /\ forall g, (g < n)%N -> real_mx (aget A g).
Definition rirr (A : arr C) : Prop := rrep A /\ real_irreducible n (aget A).
Variables (L : linalg C) (around : C -> C) (rnd_int : C -> int) (atol : C).
Hypotheses (ok : linalg_ok L) (ar : atol \is Num.real).

Lemma real_project X A : rrep X -> rirr A -> exists bs, 
  [/\ project_to_irrep L around rnd_int X A atol 10 = COk bs,
      forall b, b \in bs -> rok n b & row_free (stack bs)].
Proof.
move=> [uX rX] [[uA rA] iA]; have [sX _ _] := uX; have [sA _ _] := uA.
rewrite /project_to_irrep sX sA eqxx [~~ true]/=; set num := rnd_int _.
case: ifP => _; first by exists [::]; split=> //; rewrite /row_free mxrank0.
pose out a := if project_once L X A a is COk bs then bs else [::].
have once a : in_bracket a -> project_once L X A a = COk (out a) /\ RInv n (out a).
  move=> /andP [al _]; have a0 : 0 <= a by apply: le_trans al; apply: ltW; exact: lb_gt0.
  by rewrite /out; have [bs [-> h]] := real_once G uX uA rX rA iA ok a0.
have [ts [bs [E hts tt]]] := adjust_run num (fun t ht => (once t ht).1) ar (isT : (0 < 10)%N).
exists bs; rewrite E; have [h1 _ _ -> _] := tt.
have [|h2 [h3 h4]] := once (last 0 ts).
  have : last 0 ts \in ts by case: (ts) h1 => [//|t l] _; rewrite /= mem_last.
  exact/allP.
by split.
Qed.

(** No maps between different real irreps. *)
Lemma real_hom0 A B (M : 'M[C]_(adim B, adim A)) : rirr A -> rirr B -> icip n (aget A) (aget B) = 0 -> real_mx M ->
  (forall g, (g < n)%N -> aget B g *m M = M *m aget A g) -> M = 0.
Proof.
move=> [[[sA pA vA] rA] iA] [[[sB pB vB] rB] iB] z rM h.
have flip d (D : nat -> 'M[C]_d) (v : iunitary n D) g : (g < n)%N -> real_mx (D g) -> (D g)^T *m D g = 1%:M /\ D g *m (D g)^T = 1%:M.
  by move=> gn r; rewrite -real_adj // (v g gn); split=> //; apply: mulmx1C; exact: v.
have h' g : (g < n)%N -> aget A g *m M^T = M^T *m aget B g.
  move=> gn; have [a1 a2] := flip _ _ vA g gn (rA g gn); have [b1 b2] := flip _ _ vB g gn (rB g gn).
  have := congr1 trmx (h g gn); rewrite !trmx_mul => E.
  by rewrite -[LHS]mulmx1 -b1 mulmxA -[aget A g *m _ *m _]mulmxA E mulmxA a2 mul1mx.
have [c cE] : exists c, M *m M^T = c%:M.
  apply: (real_schur iB); first exact: real_mul rM (real_trmx rM).
    by rewrite trmx_mul trmxK.
  by move=> g gn; rewrite -mulmxA -h' // !mulmxA h.
have [c' cE'] : exists c, M^T *m M = c%:M.
  apply: (real_schur iA); first exact: real_mul (real_trmx rM) rM.
    by rewrite trmx_mul trmxK.
  by move=> g gn; rewrite -mulmxA -h // !mulmxA h'.
have tE g : (g < n)%N -> c * \tr (aget B g) = c' * \tr (aget A g).
  move=> gn; have <- : \tr (aget B g *m (M *m M^T)) = c * \tr (aget B g) by rewrite cE mul_mx_scalar linearZ.
  by rewrite mulmxA h // -mulmxA mxtrace_mulC -mulmxA cE' mul_mx_scalar linearZ.
have zz : c' * (\sum_(g < n) `|\tr (aget A g)| ^+ 2) = 0.
  transitivity (c * icip n (aget A) (aget B)); last by rewrite z mulr0.
  rewrite /icip !mulr_sumr; apply: eq_bigr => g _.
  by rewrite [RHS]mulrCA tE // [RHS]mulrCA normCK [X in _ * X]mulrC.
have en := ig_e G.
have pos : \sum_(g < n) `|\tr (aget A g)| ^+ 2 != 0.
  apply/eqP => /(psumr_eq0P (fun i _ => exprn_ge0 2 (normr_ge0 _))) /(_ (Ordinal en) isT) /= /eqP.
  by rewrite expf_eq0 /= pA.1 mxtrace1 normr_nat pnatr_eq0 -leqn0 leqNgt iA.1.
have c0 : c' = 0 by move/eqP: zz; rewrite mulf_eq0 (negbTE pos) orbF => /eqP.
have : \tr (M^T *m adj M^T) = 0 by rewrite real_adj ?trmxK ?cE' ?c0 ?mxtrace_scalar ?mul0rn //; exact: real_trmx.
by move/sqn_eq0 => /(congr1 trmx); rewrite trmxK trmx0.
Qed.

(** Mutually orthogonal spaces. *)
Lemma orth_direct N (s : seq 'M[C]_N) : List.ForallOrdPairs (fun U W => U *m adj W = 0) s -> direct s id.
Proof.
elim=> [|U l hU _ IH]; first by rewrite /direct !big_nil mxrank0.
apply/direct_cons; split=> //.
have o : U *m adj (\sum_(i <- l) i)%MS = 0.
  elim: hU => [|W l' hW _ IH']; first by rewrite big_nil adj0 mulmx0.
  rewrite big_cons; have /sub_addsmxP [[x y] /= ->] : (W + (\sum_(j <- l') j)%MS <= W + \sum_(j <- l') j)%MS by [].
  by rewrite adjD !adjM mulmxDr !mulmxA hW IH' !mul0mx addr0.
apply/eqP; rewrite -submx0; apply/row_subP => i; set v := row i _.
have : (v <= U :&: (\sum_(i <- l) i)%MS)%MS by exact: row_sub.
rewrite sub_capmx => /andP [/submxP [x xE] /submxP [y yE]]; rewrite submx0; apply/eqP; apply: sqn_eq0.
by rewrite {1}xE yE adjM mulmxA -[x *m U *m _]mulmxA o mulmx0 mul0mx linear0.
Qed.
End RealResult.

Lemma Forall2_r S1 S2 (Q : S1 -> S2 -> Prop) (P : S2 -> Prop) l l' : (forall x y, Q x y -> P y) -> List.Forall2 Q l l' -> List.Forall P l'.
Proof. by move=> h; elim=> [|x y s s' hx _ IH]; constructor=> //; exact: (h x). Qed.

Section RealTensors.
Variables (C : numClosedFieldType) (n : nat) (mul : nat -> nat -> nat) (e : nat).
Hypothesis G : group_law n mul e.
Local Notation one := (fun _ _ : nat => 1 : C).
Variables (L : linalg C) (around : C -> C) (rnd_int : C -> int) (atol : C).
Hypotheses (ok : linalg_ok L) (ra : forall k : nat, around k%:R = k%:R) (ar : atol \is Num.real).
Variable As : seq (arr C).
Hypothesis irrs : List.Forall (rirr n mul e) As.
Hypothesis orth : List.ForallOrdPairs (fun A B : arr C => icip n (aget A) (aget B) = 0) As.
Local Notation adapted := (adapted n As).

Lemma rirr_in A : List.In A As -> rirr n mul e A.
Proof. by move/List.Forall_forall: irrs => h /h. Qed.

Section Each.
Variable X : arr C.
Hypothesis rX : rrep n mul e X.
Let Q A (f : seq (tblock C (adim X))) := [/\ List.Forall (adapted (aget X)) f, indep f &
  List.Forall (fun t => tb_irrep t = A /\ real_mx (tb_basis t)) f].
Lemma span_orth A B f f' : rirr n mul e A -> rirr n mul e B -> icip n (aget A) (aget B) = 0 -> Q A f -> Q B f' ->
  span f *m adj (span f') = 0.
Proof.
move=> hA hB z [a1 _ r1] [a2 _ r2].
have blk : List.Forall (fun t => List.Forall (fun t' => spc t *m adj (spc t') = 0) f') f.
  apply/List.Forall_forall => t ht; apply/List.Forall_forall => t' ht'.
  move/List.Forall_forall: a1 => /(_ t ht) [_ c1]; move/List.Forall_forall: a2 => /(_ t' ht') [_ c2].
  move/List.Forall_forall: r1 => /(_ t ht) [i1 q1]; move/List.Forall_forall: r2 => /(_ t' ht') [i2 q2].
  have : tb_basis t' *m (tb_basis t)^T = 0.
    have real_hom := @real_hom0 C n mul e G (tb_irrep t) (tb_irrep t') (tb_basis t' *m (tb_basis t)^T).
    apply: real_hom; rewrite ?i1 ?i2 //; first exact: real_mul q2 (real_trmx q1).
    move=> g gn; have [[_ _ v2] rr2] := hB.1; have [[_ _ vX] rrX] := rX.
    have := congr1 trmx (c2 g gn); rewrite !trmx_mul trmxK => E.
    have e1 : aget (tb_irrep t') g *m tb_basis t' = tb_basis t' *m aget X g.
      have rt := rr2 g gn; have vt := v2 g gn; rewrite -i2 in rt vt.
      rewrite -[RHS]mul1mx -vt (real_adj rt) -!mulmxA; congr (_ *m _); rewrite mulmxA -E -mulmxA.
      rewrite -[LHS]mulmx1; congr (_ *m _); rewrite -real_adj; last exact: rrX.
      by rewrite (mulmx1C (vX g gn)).
    by rewrite mulmxA e1 -mulmxA c1 // mulmxA.
  move/(congr1 trmx); rewrite trmx_mul trmxK trmx0 -real_adj // => o.
  have /submxP [x ->] : (spc t <= tb_basis t)%MS by rewrite genmxE.
  have /submxP [y ->] : (spc t' <= tb_basis t')%MS by rewrite genmxE.
  by rewrite adjM mulmxA -[x *m _ *m _]mulmxA o mulmx0 mul0mx.
rewrite /span; elim: blk => [|t l ht _ IH]; first by rewrite big_nil mul0mx.
rewrite big_cons; have /sub_addsmxP [[x y] /= ->] : (spc t + (\sum_(j <- l) spc j)%MS <= spc t + \sum_(j <- l) spc j)%MS by [].
rewrite mulmxDl -!mulmxA IH mulmx0 addr0.
elim: ht => [|t' l' ht' _ IH']; first by rewrite big_nil adj0 !mulmx0.
rewrite big_cons; have /sub_addsmxP [[x' y'] /= ->] : (spc t' + (\sum_(j <- l') spc j)%MS <= spc t' + \sum_(j <- l') spc j)%MS by [].
by rewrite adjD !adjM !mulmxDr !mulmxA -[x *m _ *m _]mulmxA ht' mulmx0 mul0mx add0r -[x *m _ *m _]mulmxA IH' mul0mx.
Qed.

Lemma pe_real : exists cs, [/\ project_each L around rnd_int atol As X = COk cs, List.Forall (adapted (aget X)) cs & indep cs].
Proof.
have [fs [e1 e2]] : exists fs, cmap (fun irrep => cbind (project_to_irrep L around rnd_int X irrep atol 10)
                                  (fun bs => COk [seq TBlock b | b <- bs])) As = COk fs /\
      List.Forall2 (fun A f => rirr n mul e A /\ Q A f) As fs.
  apply: cmap_all; apply/List.Forall_forall => A inA.
  have [bs [h2 h3 h4]] := real_project G around rnd_int ok ar rX (rirr_in inA).
  exists [seq TBlock b | b <- bs]; rewrite h2; split=> //; split; [exact: rirr_in|split].
  - by apply/List.Forall_forall => t /List.in_map_iff [b [<- /inP /h3 [hb _ _]]].
  - by apply: indep_blocks; exact: stack_independent.
  - by apply/List.Forall_forall => t /List.in_map_iff [b [<- /inP /h3 [_ hb _]]].
exists (flatten fs); rewrite /project_each e1; split=> //.
  have : List.Forall (List.Forall (adapted (aget X))) fs by apply: Forall2_r e2 => A f [_ []].
  by elim=> [|f l h _ IH] //=; exact/List.Forall_app.
apply: (@indep_flatten _ _ _ (@span C (adim X)) fs).
  by elim: e2 => [|A f l fl [_ [_ h _]] _ IH]; constructor.
have : List.ForallOrdPairs (fun U W => U *m adj W = 0) (map (@span C (adim X)) fs).
  elim: e2 orth => [|A f l fl [rA qA] e2 IH] o; first by constructor.
  inversion o as [|? ? o1 o2]; subst; constructor; last exact: IH.
  elim: e2 o1 {IH o o2} => [|B f' l' fl' [rB qB] _ IH] o1; first by constructor.
  inversion o1; subst; constructor; last exact: IH.
  by apply: span_orth rA rB _ qA qB.
by move/orth_direct; rewrite /direct !big_map.
Qed.
End Each.

Lemma direct_rrep (A B : arr C) : rrep n mul e A -> rrep n mul e B -> rrep n mul e (direct_arr A B).
Proof.
move=> [uA rA] [uB rB]; split; first exact: (direct_urep G).
have [sA _ _] := uA; have [sB _ _] := uB.
by move=> g gn; rewrite (direct_get sA sB) //; apply: real_tens; [apply: rA|apply: rB].
Qed.

Variables (m : nat) (R : nat -> 'M[C]_m).
Section Pair.
Variables (N : nat) (R1 : nat -> 'M[C]_N).
Variables (t : tblock C N) (v : tblock C m).
Hypotheses (ht : adapted R1 t) (hv : adapted R v).
Hypotheses (ft : row_free (tb_basis t)) (fv : row_free (tb_basis v)).
Lemma raise_real : exists us, [/\ raise_pair L around rnd_int atol As (t, v) = COk us,
  List.Forall (adapted (fun g => R1 g *t R g)) us, indep us & (span us <= tb_basis t *t tb_basis v)%MS].
Proof.
have [[rA _] [rB _]] := (rirr_in ht.1, rirr_in hv.1).
have [[sA _ _] _] := rA; have [[sB _ _] _] := rB.
have [cs [h1 h2 h3]] := pe_real (direct_rrep rA rB).
pose M := tb_basis t *t tb_basis v.
exists [seq TBlock (tb_basis c *m M) | c <- cs].
have fM : row_free M by exact: tens_free.
have spE : (span [seq TBlock (tb_basis c *m M) | c <- cs] :=: span cs *m M)%MS.
  rewrite /span; elim: (cs) => [|c l IH]; first by rewrite !big_nil mul0mx; apply: eqmx_sym; apply: eqmx0.
  rewrite map_cons !big_cons; apply: eqmx_sym; apply: eqmx_trans (addsmxMr _ _ _) _; apply: eqmx_sym.
  apply: adds_eqmx => //; rewrite /spc /=; apply: eqmx_trans (genmxE _) _.
  by apply: eqmxMr; apply: eqmx_sym; apply: genmxE.
have dE : dims [seq TBlock (tb_basis c *m M) | c <- cs] = dims cs by rewrite /dims big_map.
rewrite /raise_pair; split.
- rewrite /get_direct_product sA sB eqxx [clift _]/= [cbind (COk _) _]/= h1 //.
- apply/List.Forall_forall => u /List.in_map_iff [c [<- hc]].
  move/List.Forall_forall: h2 => /(_ c hc) [inc tc]; split=> //= g gn.
  rewrite trmx_mul trmx_tens mulmxA tensmx_mul ht.2 // hv.2 // -tensmx_mul -!mulmxA; congr (_ *m _).
  by rewrite -tc // (direct_get sA sB).
- by rewrite /indep dE -h3 spE mxrankMfree.
- by rewrite spE; exact: submxMl.
Qed.
End Pair.

Lemma blocks_real (vs : seq (tblock C m)) p : List.Forall (adapted R) vs -> indep vs ->
  exists ts, [/\ tensor_blocks L around rnd_int atol As vs p = COk ts,
    List.Forall (adapted (fun g => tact p (R g))) ts & indep ts].
Proof.
move=> av iv; elim: p => [|p [ts [e1 at' it]]]; first by exists vs.
have [pd _] := pairs_direct it iv.
have [ft _] := indep_free it; have [fv _] := indep_free iv.
pose Q (tv : tblock C (tdim m p) * tblock C m) (us : seq (tblock C (tdim m p.+1))) := [/\
  List.Forall (adapted (fun g => tact p.+1 (R g))) us, indep us & (span us <= <<tb_basis tv.1 *t tb_basis tv.2>>)%MS].
have [fs [h1 h2]] : exists fs, cmap (raise_pair L around rnd_int atol As) [seq (t, v) | t <- ts, v <- vs] = COk fs /\
    List.Forall2 Q [seq (t, v) | t <- ts, v <- vs] fs.
  apply: cmap_all; apply: Forall_pairs; apply/List.Forall_forall => t ht; apply/List.Forall_forall => v hv.
  move/List.Forall_forall: at' => /(_ t ht) at'; move/List.Forall_forall: av => /(_ v hv) av'.
  move/List.Forall_forall: ft => /(_ t ht) ft; move/List.Forall_forall: fv => /(_ v hv) fv.
  have [us [k1 k2 k3 k4]] := raise_real at' av' ft fv.
  by exists us; split=> //; split=> //=; rewrite genmxE.
exists (flatten fs); rewrite /= e1 /= h1 /=; split=> //.
- by elim: h2 => [|tv us l l' [k1 _ _] _ IH] //=; apply/List.Forall_app.
- by apply: indep_flatten pd; apply: Forall2_impl h2 => tv us [_ k2 k3].
Qed.

(** A representation of dimension 1 is irreducible. *)
Lemma dim1_irr (A : arr C) : adim A = 1%N -> iirreducible n (aget A).
Proof.
case: A => d Ms /= d1; subst d; split=> // k W _.
have [->|/eqP W0] := W =P 0; [by left|right].
have [j wj] : exists j, W 0 j != 0.
  apply/existsP; apply: contraNT W0; rewrite negb_exists => /forallP h; apply/eqP/matrixP => i j.
  by rewrite !mxE (ord1 i); apply/eqP; have := h j; rewrite negbK.
exists ((W 0 j)^-1 *: delta_mx j 0); apply/matrixP => x y; rewrite (ord1 x) (ord1 y) -scalemxAr !mxE.
rewrite (bigD1 j) //= big1 => [|i ij]; last by rewrite !mxE (negbTE ij) mulr0.
by rewrite !mxE !eqxx mulr1 addr0 mulVf.
Qed.

Section Final.
Variables (p : nat) (ts : seq (tblock C (tdim m p))).
Hypotheses (ats : List.Forall (adapted (fun g => tact p (R g))) ts) (its : indep ts).
Local Notation inv := (is_invariant_block around n).
Lemma rows_real : exists rows, [/\ invariant_tensors around n ts = COk rows,
  forall r, r \in rows -> forall g, (g < n)%N -> tact p (R g) *m r^T = r^T & row_free (stack rows)].
Proof.
have inu := indep_filter inv its.
have fu : List.Forall (fun t => adapted (fun g => tact p (R g)) t /\ inv t) (filter inv ts).
  elim: ats => [|t l h _ IH] //=; case ht: (inv t) => //; by constructor.
rewrite /invariant_tensors; set us := filter inv ts in inu fu *.
have [rows [h1 h2]] : exists rows, cmap (@first_row C (tdim m p)) us = COk rows /\
    List.Forall2 (fun t r => [/\ adim (tb_irrep t) = 1%N, (spc t :=: r)%MS & forall g, (g < n)%N -> tact p (R g) *m r^T = r^T]) us rows.
  apply: cmap_all; elim: fu => [|t l [[inA tA] ht] _ IH]; constructor=> //.
  have rA := rirr_in inA.
  have dA : adim (tb_irrep t) = 1%N.
    by move: ht rA.2.1 => /andP [+ _]; case: (adim _) => [|[]].
  have uA : uirr n mul e (tb_irrep t) by split; [exact: rA.1.1|exact: dim1_irr].
  have := invariant_cases G ra uA; cbv zeta.
  rewrite [X in if X then _ else _]ht => gA.
  rewrite /first_row; have [o oE] : exists o, (insub 0%N : option 'I_(adim (tb_irrep t))) = Some o.
    have h0 : (0 < adim (tb_irrep t))%N by rewrite dA.
    by exists (Ordinal h0); rewrite insubT.
  rewrite oE; exists (row o (tb_basis t)); split=> //; split=> //.
    apply: eqmx_trans (genmxE _) _; apply/eqmxP; rewrite row_sub andbT.
    apply/row_subP => i; suff -> : i = o by [].
    have ord_lt (j : 'I_(adim (tb_irrep t))) : (j < 1)%N by rewrite -[X in (_ < X)%N]dA ltn_ord.
    by apply/val_inj => /=; have := ord_lt i; have := ord_lt o; lia.
  by move=> g gn; have := tA g gn; rewrite gA // mulmx1 tr_row colE mulmxA => ->.
have sE : (span us :=: stack rows)%MS.
  rewrite /span; elim: h2 => [|t r l l' [_ h _] _ IH]; first by rewrite big_nil; apply: eqmx_sym; apply: eqmx0.
  rewrite big_cons; apply: eqmx_trans (eqmx_sym (stack_cons _ _)); exact: adds_eqmx.
exists rows; split=> //.
  move=> r /inP; elim: h2 => [//|t r' l l' [_ _ h] _ IH] /= [<-|/IH] //.
rewrite /row_free -sE inu; apply/eqP; rewrite muln1 /dims.
by elim: h2 => [|t r l l' [h _ _] _ IH]; rewrite ?big_nil // big_cons h IH.
Qed.
End Final.
End RealTensors.
