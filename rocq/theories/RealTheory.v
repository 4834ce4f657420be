(** The real 2d-dimensional form of a representation (irreps.py:615-623). *)
From mathcomp Require Import all_ssreflect all_algebra.
From Verif Require Import RepSpec RepTheory SpinorSpec SmallModel SmallSpec IndexRepSpec RealSpec.
Import Order.TTheory GRing.Theory Num.Theory.
Set Implicit Arguments.
Unset Strict Implicit.
Unset Printing Implicit Defensive.
Local Open Scope ring_scope.

Section Blocks.
Variable C : numClosedFieldType.
Local Notation rex := (map_mx (fun z : C => 'Re z)).
Local Notation imx := (map_mx (fun z : C => 'Im z)).
Local Notation cjx := (map_mx (@conjC C)).

Lemma re_im m n (A : 'M[C]_(m, n)) : A = rex A + 'i *: imx A.
Proof. by apply/matrixP=> i j; rewrite !mxE; exact: Crect. Qed.
Lemma cj_im m n (A : 'M[C]_(m, n)) : cjx A = rex A - 'i *: imx A.
Proof.
apply/matrixP=> i j; rewrite !mxE {1}[A i j]Crect rmorphD rmorphM conjCi /=.
by rewrite (conj_Creal (Creal_Re _)) (conj_Creal (Creal_Im _)) mulNr.
Qed.
Lemma real_cj m n (A : 'M[C]_(m, n)) : real_mx A <-> cjx A = A.
Proof.
split=> [h|h i j]; first by apply/matrixP=> i j; rewrite mxE conj_Creal.
by apply/CrealP; rewrite -{2}h mxE.
Qed.
Lemma real_rex m n (A : 'M[C]_(m, n)) : real_mx (rex A).
Proof. by move=> i j; rewrite mxE Creal_Re. Qed.
Lemma real_imx m n (A : 'M[C]_(m, n)) : real_mx (imx A).
Proof. by move=> i j; rewrite mxE Creal_Im. Qed.

(** The change of basis (x, y) |-> ((x + i y), (x - i y))/sqrt 2. *)
Definition mixer d : 'M[C]_(d + d) := (sqrtC 2%:R)^-1 *: block_mx 1%:M 1%:M 'i%:M (- 'i%:M).
Lemma sqrt2_cj : (sqrtC (2%:R : C))^-1^* = (sqrtC 2%:R)^-1.
Proof. by rewrite conj_Creal // rpredV realE sqrtC_ge0 ler0n. Qed.
Lemma mixer_unitary d : mixer d *m adj (mixer d) = 1%:M.
Proof.
rewrite /mixer adjZ sqrt2_cj -scalemxAl -scalemxAr scalerA -invfM -expr2 sqrtCK.
rewrite /adj map_block_mx tr_block_mx mulmx_block.
rewrite !map_mxN !map_scalar_mx /= conjCi rmorph1 !linearN /= !tr_scalar_mx.
rewrite !mul1mx !mulNmx !mulmx1 -!scalar_mxM opprK !mulrN -expr2 sqrCi opprK.
rewrite [X in block_mx _ X]subrr [X in block_mx _ _ X]subrr -!raddfD /=.
by rewrite -(scalar_mx_block _ _ (1 + 1)) scale_scalar_mx -[1 + 1]/(2%:R) mulVf ?pnatr_eq0.
Qed.

Lemma real_blocks_mixer d (M : 'M[C]_d) : real_blocks M *m mixer d = mixer d *m with_conjugate M.
Proof.
rewrite /mixer -scalemxAr -scalemxAl; congr (_ *: _).
rewrite /real_blocks /with_conjugate !mulmx_block !mulmx0 !mul1mx !mulmx1 !addr0 !add0r.
rewrite !mulNmx !mulmxN !mul_mx_scalar !mul_scalar_mx cj_im.
congr block_mx => //; first exact: esym (re_im M).
- by rewrite [in RHS](re_im M) scalerDr scalerA -expr2 sqrCi scaleN1r addrC.
- by rewrite scalerBr scalerA -expr2 sqrCi scaleN1r opprK opprD addrC.
Qed.
Lemma mixer_inv d : adj (mixer d) *m mixer d = 1%:M.
Proof. exact/mulmx1C/mixer_unitary. Qed.
Lemma real_blocksE d (M : 'M[C]_d) : real_blocks M = mixer d *m with_conjugate M *m adj (mixer d).
Proof. by rewrite -real_blocks_mixer -mulmxA mixer_unitary mulmx1. Qed.

Lemma with_conjugateM d (A B : 'M[C]_d) : with_conjugate (A *m B) = with_conjugate A *m with_conjugate B.
Proof. by rewrite /with_conjugate mulmx_block !mulmx0 !mul0mx !addr0 !add0r map_mxM. Qed.
Lemma with_conjugate1 d : with_conjugate (1%:M : 'M[C]_d) = 1%:M.
Proof. by rewrite /with_conjugate map_mx1 -scalar_mx_block. Qed.
Lemma real_blocksM d (A B : 'M[C]_d) : real_blocks (A *m B) = real_blocks A *m real_blocks B.
Proof.
rewrite !real_blocksE with_conjugateM !mulmxA; congr (_ *m _).
by rewrite -[_ *m adj _ *m mixer d]mulmxA mixer_inv mulmx1.
Qed.
Lemma real_blocks1 d : real_blocks (1%:M : 'M[C]_d) = 1%:M.
Proof. by rewrite real_blocksE with_conjugate1 mulmx1 mixer_unitary. Qed.
Lemma map_real_scalar d (f : {additive C -> C}) (c : C) : map_mx f (c%:M : 'M[C]_d) = (f c)%:M.
Proof. by apply/matrixP=> i j; rewrite !mxE raddfMn. Qed.
Lemma real_blocks_scalar d (c : C) : real_blocks (c%:M : 'M[C]_d) = turn d c.
Proof.
by rewrite /real_blocks (map_real_scalar _ [additive of (@Re C)]) (map_real_scalar _ [additive of (@Im C)]).
Qed.
Lemma real_blocksZ d (c : C) (M : 'M[C]_d) : real_blocks (c *: M) = turn d c *m real_blocks M.
Proof. by rewrite -real_blocks_scalar -real_blocksM mul_scalar_mx. Qed.
Lemma real_blocks_tr d (M : 'M[C]_d) : (real_blocks M)^T = real_blocks (adj M).
Proof.
have e1 : rex (adj M) = (rex M)^T by apply/matrixP=> i j; rewrite !mxE Re_conj.
have e2 : imx (adj M) = - (imx M)^T by apply/matrixP=> i j; rewrite !mxE Im_conj.
by rewrite /real_blocks tr_block_mx e1 e2 linearN /= opprK.
Qed.
Lemma real_blocks_real d (M : 'M[C]_d) : real_mx (real_blocks M).
Proof.
apply/real_cj; rewrite /real_blocks map_block_mx map_mxN.
by rewrite !(iffLR (real_cj _) (real_rex _)) !(iffLR (real_cj _) (real_imx _)).
Qed.
Lemma real_blocks_orth d (M : 'M[C]_d) : M *m adj M = 1%:M -> orthogonal_mx (real_blocks M).
Proof.
by move=> h; split; [exact: real_blocks_real|rewrite real_blocks_tr -real_blocksM h real_blocks1].
Qed.
End Blocks.

Section Irreducible.
Variables (C : numClosedFieldType) (n d : nat) (D : nat -> 'M[C]_d).
Hypothesis irr : iirreducible n D.
Local Notation rex := (map_mx (fun z : C => 'Re z)).
Local Notation imx := (map_mx (fun z : C => 'Im z)).
Local Notation cjx := (map_mx (@conjC C)).

Lemma ischur (X : 'M[C]_d) : (forall g, (g < n)%N -> D g *m X = X *m D g) -> exists a, X = a%:M.
Proof.
move=> h; have [d0 iD] := irr.
have [a ra] : exists a, root (char_poly X) a.
  apply/closed_rootP; rewrite size_char_poly; by case: (d) d0.
exists a; have ea : eigenvalue X a by rewrite eigenvalue_root_char.
have dX : \det (X - a%:M) = 0.
  apply/eqP; apply/det0P; have [v vX v0] := eigenvalueP ea; exists v => //.
  by rewrite mulmxBr vX mul_mx_scalar subrr.
have : \det (X - a%:M)^T = 0 by rewrite det_tr.
move/eqP/det0P => [v v0 vX].
have := iD d (kermx (X - a%:M)^T)^T.
case=> [g hg|/(congr1 trmx)|[V hV]].
- have h2 : (X - a%:M) *m (D g *m (kermx (X - a%:M)^T)^T) = 0.
    have -> : (X - a%:M) *m (D g *m (kermx (X - a%:M)^T)^T) = D g *m ((X - a%:M) *m (kermx (X - a%:M)^T)^T).
      by rewrite !mulmxA mulmxBl mulmxBr h // mul_mx_scalar mul_scalar_mx.
    by rewrite -[X - a%:M]trmxK -trmx_mul trmxK mulmx_ker trmx0 mulmx0.
  have /sub_kermxP/submxP [Q hQ] : (D g *m (kermx (X - a%:M)^T)^T)^T *m (X - a%:M)^T = 0.
    by rewrite -trmx_mul h2 trmx0.
  by exists Q^T; rewrite -[LHS]trmxK hQ trmx_mul.
- rewrite trmxK trmx0 => k0; have /submxP [Q hQ] : (v <= kermx (X - a%:M)^T)%MS by apply/sub_kermxP.
  by move: v0; rewrite hQ k0 mulmx0 eqxx.
- apply/eqP; rewrite -subr_eq0; apply/eqP.
  rewrite -[LHS]mulmx1 -hV mulmxA -{1}[X - a%:M]trmxK -trmx_mul.
  by rewrite mulmx_ker trmx0 mul0mx.
Qed.

Hypothesis not_real : forall V, (forall g, (g < n)%N -> D g *m V = V *m cjx (D g)) -> V *m cjx V <> 1%:M.

Lemma half_re m k (A : 'M[C]_(m, k)) : A + cjx A = 2%:R *: rex A.
Proof. by rewrite [in LHS]cj_im {1}[A]re_im addrACA subrr addr0 scaler_nat mulr2n. Qed.

Lemma real_blocks_irreducible : real_irreducible n (fun g => real_blocks (D g)).
Proof.
have [d0 iD] := irr.
split=> [|m B rB [V VB] m0 inv]; first by rewrite addn_gt0 d0.
pose B1 := usubmx B; pose B2 := dsubmx B.
pose Z : 'M[C]_(d, m) := B1 - 'i *: B2.
have rB1 : cjx B1 = B1 by apply/real_cj => i j; rewrite mxE.
have rB2 : cjx B2 = B2 by apply/real_cj => i j; rewrite mxE.
have cZ : cjx Z = B1 + 'i *: B2.
  by rewrite /Z map_mxB map_mxZ /= rB1 rB2 conjCi scaleNr opprK.
have e1 : Z + cjx Z = 2%:R *: B1 by rewrite cZ /Z addrACA addNr addr0 scaler_nat mulr2n.
have e2 : cjx Z - Z = (2%:R * 'i) *: B2.
  by rewrite cZ /Z opprD opprK addrACA subrr add0r -scalerDl mulr_natl mulr2n.
have n2 : (2%:R : C) != 0 by rewrite pnatr_eq0.
have n2i : (2%:R * 'i : C) != 0 by rewrite mulf_neq0 ?neq0Ci.
have act g : (g < n)%N -> exists Y, D g *m Z = Z *m Y /\ cjx (D g) *m cjx Z = cjx Z *m Y.
  move=> hg; have [Y hY] := inv g hg; exists Y.
  have rY : cjx Y = Y.
    have := congr1 (fun M => V *m cjx M) hY; rewrite !map_mxM /=.
    rewrite (iffLR (real_cj _) (real_blocks_real _)) (iffLR (real_cj _) rB) hY !mulmxA VB !mul1mx.
    by move=> <-.
  have : D g *m Z = Z *m Y.
    move: hY; rewrite /real_blocks -[B]vsubmxK -/B1 -/B2 mul_block_col mul_col_mx => /eq_col_mx [h1 h2].
    rewrite [D g]re_im /Z mulmxBl -scalemxAl -h1 -h2 !mulmxDl !mulmxBr -!scalemxAl -!scalemxAr.
    rewrite scalerA -expr2 sqrCi scaleN1r opprK mulNmx scalerDr scalerN opprD opprK.
    by rewrite [X in _ - _ + X = _]addrC addrACA [- _ + _]addrC.
  by move=> h; split=> //; rewrite -map_mxM h map_mxM rY.
have mle : (m <= d + d)%N.
  have := mxrankM_maxr V B; rewrite VB mxrank1 => h; apply: (leq_trans h); exact: rank_leq_row.
have [Z0|[W ZW]] := iD m Z (fun g hg => let: ex_intro Y h := act g hg in ex_intro _ Y h.1).
  have B10 : B1 = 0.
    by apply: (scalerI n2); rewrite -e1 Z0 map_mx0 addr0 scaler0.
  have B20 : B2 = 0.
    by apply: (scalerI n2i); rewrite -e2 Z0 map_mx0 subr0 scaler0.
  have B0 : B = 0 by rewrite -[B]vsubmxK -/B1 -/B2 B10 B20 col_mx0.
  move: VB; rewrite B0 mulmx0 => /(congr1 mxtrace)/esym/eqP.
  by rewrite mxtrace1 mxtrace0 pnatr_eq0 -[_ == _]negbK -lt0n m0.
have dZ : (d <= \rank Z)%N.
  by have := mxrankM_maxl Z W; rewrite ZW mxrank1.
have rZ : \rank (cjx Z)^T = d.
  by rewrite mxrank_tr mxrank_map; apply/eqP; rewrite eqn_leq rank_leq_row dZ.
pose K := kermx (cjx Z)^T.
have kZ : cjx Z *m K^T = 0 by rewrite -[cjx Z]trmxK -trmx_mul mulmx_ker trmx0.
have [g hg|ZK|[W' ZKW]] := iD m (Z *m K^T).
- have [Y [h1 h2]] := act g hg.
  have /sub_kermxP/submxP [Q hQ] : (Y *m K^T)^T *m (cjx Z)^T = 0.
    by rewrite -trmx_mul mulmxA -h2 -mulmxA kZ mulmx0 trmx0.
  exists Q^T; rewrite mulmxA h1 -!mulmxA; congr (_ *m _).
  by rewrite -[LHS]trmxK hQ trmx_mul.
- have B1K : B1 *m K^T = 0.
    by apply: (scalerI n2); rewrite scalemxAl -e1 mulmxDl ZK kZ addr0 scaler0.
  have B2K : B2 *m K^T = 0.
    by apply: (scalerI n2i); rewrite scalemxAl -e2 mulmxBl ZK kZ subr0 scaler0.
  have K0 : K^T = 0.
    by rewrite -[K^T]mul1mx -VB -mulmxA -[B]vsubmxK mul_col_mx B1K B2K col_mx0 mulmx0.
  have : \rank K = 0%N by rewrite -mxrank_tr K0 mxrank0.
  rewrite mxrank_ker rZ => /eqP; rewrite subn_eq0 => md.
  have dm : m = d by apply/eqP; rewrite eqn_leq md (leq_trans dZ) // rank_leq_col.
  exfalso; clear - irr not_real Z W ZW act dm; clearbody Z; subst m.
  have WZ : W *m Z = 1%:M by apply: mulmx1C.
  have cWZ : cjx W *m cjx Z = 1%:M by rewrite -map_mxM WZ map_mx1.
  have cZW : cjx Z *m cjx W = 1%:M by rewrite -map_mxM ZW map_mx1.
  apply: (@not_real (Z *m cjx W)) => [g hg|].
    have [Y [h1 h2]] := act g hg.
    rewrite mulmxA h1 -!mulmxA; congr (_ *m _).
    rewrite -[cjx (D g)]mulmx1 -cZW [cjx (D g) *m _]mulmxA h2 !mulmxA cWZ mul1mx //.
  have cc : cjx (cjx W) = W by apply/matrixP=> i j; rewrite !mxE conjCK.
  by rewrite map_mxM cc -!mulmxA [cjx W *m _]mulmxA cWZ mul1mx.
- have := mxrankM_maxl (Z *m K^T) W'; rewrite ZKW mxrank1 => h1.
  have := leq_trans h1 (mxrankM_maxr Z K^T); rewrite mxrank_tr mxrank_ker rZ => h2.
  apply/eqP; rewrite eqn_leq mle /= -leq_subRL //.
  by apply: (leq_trans dZ); exact: rank_leq_col.
Qed.
End Irreducible.

(** The meaning of an indicator 0 or -1 excludes a real form. *)
Lemma not_real_fs (C : numClosedFieldType) n d (D : nat -> 'M[C]_d) v :
  iirreducible n D -> iunitary n D -> fs_meaning n D v -> v <> 1 ->
  forall V, (forall g, (g < n)%N -> D g *m V = V *m map_mx conjC (D g)) -> V *m map_mx conjC V <> 1%:M.
Proof.
move=> irr uD [[-> _] //|[_ [U [hU UU sU]]] _|[_ h] _] V hV VV.
- have UU' : adj U *m U = 1%:M by apply: mulmx1C.
  have [c hc] : exists c, V *m adj U = c%:M.
    apply: (ischur irr) => g hg.
    have hUa : map_mx conjC (D g) *m adj U = adj U *m D g.
      have := congr1 (fun M => adj U *m M *m adj U) (hU g hg).
      by rewrite !mulmxA UU' mul1mx -[X in X = _]mulmxA UU mulmx1.
    by rewrite mulmxA hV // -mulmxA hUa mulmxA.
  have Vc : V = c *: U by rewrite -mul_scalar_mx -hc -mulmxA UU' mulmx1.
  have cU : map_mx conjC U = - adj U.
    by rewrite /adj map_trmx sU map_mxN opprK.
  move: VV; rewrite Vc map_mxZ -scalemxAr -scalemxAl scalerA /= cU mulmxN UU scalerN.
  move/(congr1 mxtrace); rewrite raddfN /= mxtraceZ mxtrace1 => /eqP.
  have d0 : 0 < (d%:R : C) by rewrite ltr0n; exact: irr.1.
  rewrite -subr_eq0 -opprD oppr_eq0 => /eqP h.
  have : 0 < (c^* * c) * d%:R + d%:R :> C.
    by rewrite ltr_spaddr // mulr_ge0 ?ler0n // mulrC mul_conjC_ge0.
  by rewrite h ltxx.
- move: VV; rewrite (h V hV) mul0mx => /(congr1 mxtrace)/esym/eqP.
  by rewrite mxtrace1 mxtrace0 pnatr_eq0 -[_ == _]negbK -lt0n irr.1.
Qed.
