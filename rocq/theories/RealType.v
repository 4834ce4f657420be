(** The real form of a representation of real type (irreps.py:590-613). *)
From Coq Require Import QArith ZArith Field.
From mathcomp Require Import all_ssreflect all_algebra all_fingroup.
From Verif Require Import GroupSpec RepSpec RepModel RepTheory IndexRepSpec IndexGroup RepProofs ChainModel SmallModel SmallSpec SpinorSpec Mx2 FieldTac
  RealSpec RealTheory RealOutcome.
Import Order.TTheory GRing.Theory Num.Theory.
Set Implicit Arguments.
Unset Strict Implicit.
Unset Printing Implicit Defensive.
Local Open Scope ring_scope.

Section Criterion.
Variables (C : numClosedFieldType) (n : nat) (mul : nat -> nat -> nat) (e : nat) (mu : nat -> nat -> C).
Hypotheses (G : group_law n mul e) (fs : ifactor_system n mul e mu).
Hypothesis mr : forall i j, (i < n)%N -> (j < n)%N -> mu i j \is Num.real.
Variables (d : nat) (D : nat -> 'M[C]_d).
Hypotheses (pD : iprojrep n mul e mu D) (uD : iunitary n D) (irr : iirreducible n D).
Hypothesis real_type : fs_meaning n D 1.
Local Notation cjx := (map_mx (@conjC C)).
Local Notation rex := (map_mx (fun z : C => 'Re z)).

Lemma inter_sym U : (forall g, (g < n)%N -> D g *m U = U *m cjx (D g)) -> U^T = U.
Proof.
move=> hU; case: real_type => [[_ [W [hW WW sW]]]|[] //|[] //].
have WW' : adj W *m W = 1%:M by apply: mulmx1C.
have [c hc] : exists c, U *m adj W = c%:M.
  apply: (ischur irr) => g hg.
  have hWa : cjx (D g) *m adj W = adj W *m D g.
    have := congr1 (fun M => adj W *m M *m adj W) (hW g hg).
    by rewrite !mulmxA WW' mul1mx -[X in X = _]mulmxA WW mulmx1.
  by rewrite mulmxA hU // -mulmxA hWa mulmxA.
have -> : U = c *: W by rewrite -mul_scalar_mx -hc -mulmxA WW' mulmx1.
by rewrite linearZ /= sW.
Qed.

Lemma found_inter (cpowinv : C -> nat -> C) rnd atol max_num (ms : seq 'M[C]_d) U :
  (forall z m, (0 < m)%N -> cpowinv z m ^+ m = z) -> 0 <= atol ->
  size ms = n -> nth 0 ms = D ->
  get_intertwiner_mats cpowinv rnd atol max_num ms [seq cjx M | M <- ms] = Some U ->
  [/\ forall g, (g < n)%N -> D g *m U = U *m cjx (D g), U *m adj U = 1%:M & \det U = 1].
Proof.
move=> cp a0 sz DE /search_Some [j [_ nz ->]].
set M := intertwiner_sum _ _ _ in nz *.
have sz2 : size [seq cjx M | M <- ms] = n by rewrite size_map.
have p2 := conj_iprojrep mr pD; have u2 := conj_iunitary uD; have i2 := conj_iirreducible irr.
have cE g : (g < n)%N -> nth 0 [seq cjx M | M <- ms] g = cjx (D g) by move=> hg; rewrite (nth_map 0) ?sz // DE.
have p2' : iprojrep n mul e mu (nth 0 [seq cjx M | M <- ms]).
  split=> [|i k hi hk]; first by rewrite cE ?p2.1 //; exact/ssrnat.ltP/(gl_e _ _ _ G).
  have hm : (mul i k < n)%N by apply/ssrnat.ltP; apply: (gl_closed _ _ _ G); apply/ssrnat.ltP.
  by rewrite !cE ?p2.2.
have u2' : iunitary n (nth 0 [seq cjx M | M <- ms]) by move=> i hi; rewrite cE ?u2.
have i2' : iirreducible n (nth 0 [seq cjx M | M <- ms]).
  by split=> [|m W inv]; [exact: i2.1|apply: i2.2 => g hg; have [Y hY] := inv g hg; exists Y; rewrite -cE].
have p1 : iprojrep n mul e mu (nth 0 ms) by rewrite DE.
have u1 : iunitary n (nth 0 ms) by rewrite DE.
have i1 : iirreducible n (nth 0 ms) by rewrite DE.
have M0 : M != 0.
  apply: contraNneq nz => z; rewrite z; apply/forallP=> i; apply/forallP=> k.
  by rewrite mxE normr0.
have [h1 h2] := normalised G fs cp sz sz2 p1 u1 p2' u2' i1 i2' M0.
split=> // g hg; rewrite -scalemxAr -scalemxAl; congr (_ *: _).
by have := isum_intertwines G fs sz sz2 p1 p2' u2' (rnd j d) hg; rewrite DE cE.
Qed.

Variables (U T : 'M[C]_d).
Hypotheses (hU : forall g, (g < n)%N -> D g *m U = U *m cjx (D g)) (UU : U *m adj U = 1%:M).
Hypotheses (sT : T^T = T) (TT : T *m adj T = 1%:M).

Lemma criterion : (forall g, (g < n)%N -> rex (T *m D g *m cjx T) = T *m D g *m adj T) <->
  exists c, T *m T = c *: cjx U.
Proof.
have aT : adj T = cjx T by rewrite /adj map_trmx sT.
have aU : adj U = cjx U by rewrite /adj map_trmx (inter_sym hU).
have := TT; have := UU; rewrite aT aU => UUc TTc.
have TTc' : cjx T *m T = 1%:M by exact: mulmx1C.
have UUc' : cjx U *m U = 1%:M by exact: mulmx1C.
have cD g : (g < n)%N -> cjx (D g) = cjx U *m D g *m U by move=> hg; rewrite -mulmxA hU // mulmxA UUc' mul1mx.
have RE g : rex (T *m D g *m cjx T) = T *m D g *m cjx T <-> cjx T *m cjx (D g) *m T = T *m D g *m cjx T.
  set X := T *m D g *m cjx T.
  have -> : cjx T *m cjx (D g) *m T = cjx X by rewrite /X !map_mxM cjxK.
  split=> [h|h]; first by rewrite -h; apply/real_cj/real_rex.
  by apply/matrixP=> i j; rewrite mxE; apply: Creal_ReP; exact: (iffRL (real_cj _) h).
split=> [h|[c hc] g hg].
  have [c hc] : exists c, U *m (T *m T) = c%:M.
    apply: (ischur irr) => g hg; have /RE hr := h g hg.
    have : cjx (D g) = T *m T *m D g *m cjx T *m cjx T.
      have := congr1 (fun M => T *m M *m cjx T) hr.
      by rewrite !mulmxA TTc mul1mx -[X in X = _]mulmxA TTc mulmx1.
    move=> e1; rewrite mulmxA hU // e1 !mulmxA.
    by rewrite -[_ *m cjx T *m T]mulmxA TTc' mulmx1 -[_ *m cjx T *m T]mulmxA TTc' mulmx1.
  by exists c; rewrite -[LHS]mul1mx -UUc' -mulmxA hc mul_mx_scalar.
apply/RE; rewrite cD //.
have c0 : c != 0.
  apply/negP=> /eqP z; rewrite z scale0r in hc.
  have : T *m T *m (cjx T *m cjx T) = 1%:M by rewrite mulmxA -[_ *m T *m _]mulmxA TTc mulmx1 TTc.
  rewrite hc mul0mx => /(congr1 mxtrace)/esym/eqP.
  by rewrite mxtrace1 mxtrace0 pnatr_eq0 -[_ == _]negbK -lt0n irr.1.
have eU : cjx U = c^-1 *: (T *m T) by rewrite hc scalerA mulVf // scale1r.
have eU2 : U = c *: (cjx T *m cjx T).
  have h1 : cjx U *m (c *: (cjx T *m cjx T)) = 1%:M.
    rewrite eU -scalemxAl -scalemxAr scalerA mulVf // scale1r mulmxA -[_ *m T *m _]mulmxA TTc mulmx1 TTc //.
  by rewrite -[RHS]mul1mx -UUc -mulmxA h1 mulmx1.
rewrite eU eU2 -!scalemxAl -!scalemxAr -!scalemxAl scalerA.
rewrite mulVf // scale1r !mulmxA.
by rewrite TTc' mul1mx -[_ *m cjx T *m T]mulmxA TTc' mulmx1.
Qed.
End Criterion.

(** The matrix T of the code. *)
Section Root.
Variables (C : numClosedFieldType) (E : numpy C) (atol : C) (d : nat) (U : 'M[C]_d).
Hypothesis nroot2 : forall z, np_nroot E z 2 ^+ 2 = z.
Definition eigenbasis : 'M[C]_d := \matrix_(i, j) (real_vector atol (col j (np_eig E U).2)) i 0.
Local Notation S := eigenbasis.
Local Notation T := (sqrt_intertwiner E atol U).
Lemma sqrt_intertwiner_sym : T^T = T.
Proof. by rewrite /sqrt_intertwiner !trmx_mul trmxK tr_diag_mx mulmxA. Qed.

Lemma real_eigenbasis : real_mx S.
Proof.
move=> i j; rewrite !mxE; set w := if _ then _ else _.
have rw a : w a 0 \is Num.real.
  by rewrite /w; case: ifP => _; rewrite mxE ?Creal_Im ?Creal_Re.
apply: rpredM (rw i); rewrite rpredV realE sqrtC_ge0 sumr_ge0 // => a _.
by rewrite -expr2 -realEsqr.
Qed.

Hypothesis valid : U *m S = S *m diag_mx (\row_i nth 0 (np_eig E U).1 i).
Hypothesis UU : U *m adj U = 1%:M.
Hypothesis orth : S^T *m S = 1%:M.

Lemma root_unitary : T *m adj T = 1%:M.
Proof.
have orth' : S *m S^T = 1%:M by exact: mulmx1C.
pose w := \row_(i < d) nth 0 (np_eig E U).1 i.
have cS : map_mx conjC S = S by apply/real_cj; exact: real_eigenbasis.
have wE : diag_mx w = S^T *m U *m S by rewrite -mulmxA valid mulmxA orth mul1mx.
have aS : adj S = S^T by rewrite /adj cS.
have aST : adj S^T = S by rewrite /adj -map_trmx cS trmxK.
have ww : diag_mx w *m adj (diag_mx w) = 1%:M.
  rewrite wE !adjM aS aST !mulmxA -[_ *m S *m S^T]mulmxA orth' mulmx1 -[_ *m U *m _]mulmxA UU mulmx1 //.
pose v := \row_(i < d) np_nroot E (nth 0 (np_eig E U).1 i) 2.
have vv : diag_mx v *m adj (diag_mx v) = 1%:M.
  rewrite /adj map_diag_mx tr_diag_mx mulmx_diag; apply/matrixP=> i j; rewrite !mxE.
  case: (i =P j) => [_|//]; rewrite !mulr1n.
  have := congr1 (fun M : 'M[C]_d => M i i) ww.
  rewrite /adj map_diag_mx tr_diag_mx mulmx_diag !mxE eqxx !mulr1n.
  set x := nth 0 _ _; move: (nroot2 x); move: (np_nroot E x 2) => r <-.
  rewrite -!normCK normrX -exprM => h; apply/eqP; rewrite -(@eqr_expn2 _ 2) ?exprn_ge0 ?normr_ge0 ?ler01 // expr1n -exprM.
  by rewrite h.
have -> : T = S^T *m diag_mx v *m S by [].
rewrite !adjM aS aST !mulmxA -[_ *m S *m S^T]mulmxA orth' mulmx1 -[_ *m diag_mx v *m _]mulmxA vv mulmx1 //.
Qed.

Lemma root_square : S^T = S -> T *m T = U.
Proof.
move=> sS; have orth' : S *m S^T = 1%:M by exact: mulmx1C.
rewrite /sqrt_intertwiner -/S.
set v := \row_i np_nroot E (nth 0 (np_eig E U).1 i) 2.
have vv : diag_mx v *m diag_mx v = diag_mx (\row_i nth 0 (np_eig E U).1 i).
  rewrite mulmx_diag; congr diag_mx; apply/rowP=> i; rewrite !mxE -expr2; exact: nroot2.
rewrite !mulmxA -[_ *m S *m S^T]mulmxA orth' mulmx1 -[_ *m diag_mx v *m diag_mx v]mulmxA vv.
by rewrite sS -valid -mulmxA -{2}sS orth' mulmx1.
Qed.
End Root.
