(** An explicit draw inside the open unit square around which every draw separates the
    regular representation. *)
From Coq Require Import Lia.
From mathcomp Require Import all_ssreflect all_algebra all_fingroup zify.
From Verif Require Import Py GroupModel GroupSpec GroupProofs RepSpec RepModel RepTheory IsoTheory
  IndexRepSpec IndexGroup MultTheory CompleteTheory RepProofs RandomModel RandomTheory SpectralTheory SearchTheory PerturbTheory.
Import Order.TTheory GRing.Theory Num.Theory.
Set Implicit Arguments.
Unset Strict Implicit.
Unset Printing Implicit Defensive.
Local Open Scope ring_scope.

Section Num.
Variable C : numClosedFieldType.
Lemma inv_nat (p q r : nat) : (0 < q)%N -> (q = r * p)%N -> r%:R * (q%:R : C)^-1 = p%:R^-1.
Proof.
move=> q0 qE; have [r0 p0] : (0 < r)%N /\ (0 < p)%N by apply/andP; rewrite -muln_gt0 -qE.
by rewrite qE natrM invfM mulrA divff ?mul1r // pnatr_eq0 -lt0n.
Qed.
Lemma Re_le (w : C) : `|'Re w| <= `|w| /\ `|'Im w| <= `|w|.
Proof.
have h : `|w| ^+ 2 = `|'Re w| ^+ 2 + `|'Im w| ^+ 2 by rewrite normC2_Re_Im !real_normK ?Creal_Re ?Creal_Im.
by split; rewrite -(@ler_pexpn2r _ 2) ?nnegrE // h ?ler_addl ?ler_addr exprn_ge0.
Qed.
End Num.

Section Lucky.
Variables (C : numClosedFieldType) (n : nat) (mul : nat -> nat -> nat) (e : nat).
Hypothesis G : group_law n mul e.
Variable mu : nat -> nat -> C.
Hypothesis imufs : ifactor_system n mul e mu.
Variables (N : nat) (ms : seq 'M[C]_N).
Local Notation L i := (nth (0 : 'M[C]_N) ms i).
Hypotheses (pL : iprojrep n mul e mu (nth 0 ms)) (uL : iunitary n (nth 0 ms)).
Variables (K : nat) (dim : nat -> nat) (D : forall k, nat -> 'M[C]_(dim k)).
Hypothesis cA : complete_irreps n mul e mu K D.
Variable R : nat.
Hypotheses (R0 : (0 < R)%N) (N0 : (0 < N)%N).
Hypothesis rowL : forall m i, (m < n)%N -> \sum_j `|L m i j| <= R%:R.
Local Notation resolution := (resolution n ms).
Local Notation hproj := (hproj n ms).
Local Notation minimal := (minimal n ms).
Local Notation comm := (comm n ms).
Local Notation av := (av n ms).

Lemma sandwich_le (X : 'M[C]_N) (k : C) m i j : (m < n)%N -> (forall a b, `|X a b| <= k) ->
  `|(L m *m X *m adj (L m)) i j| <= (R ^ 2)%:R * k.
Proof.
move=> ml h; have k0 : 0 <= k := le_trans (normr_ge0 _) (h i j).
rewrite mxE; apply: le_trans (ler_norm_sum _ _ _) _.
apply: (@le_trans _ _ (\sum_b (R%:R * k) * `|L m j b|)); last first.
  have -> : (R ^ 2)%:R * k = (R%:R * k) * R%:R by rewrite expnS expn1 natrM -mulrA mulrC.
  by rewrite -mulr_sumr ler_wpmul2l ?rowL // mulr_ge0 ?ler0n.
apply: ler_sum => b _; rewrite normrM adjE norm_conjC.
rewrite ler_wpmul2r // mxE; apply: le_trans (ler_norm_sum _ _ _) _.
apply: (@le_trans _ _ (\sum_b k * `|L m i b|)); last by rewrite -mulr_sumr mulrC ler_wpmul2r ?rowL.
apply: ler_sum => a _; rewrite normrM mulrC.
by rewrite ler_wpmul2r.
Qed.
Lemma av_le (X : 'M[C]_N) (k : C) i j : (forall a b, `|X a b| <= k) -> `|av X i j| <= (n * R ^ 2)%:R * k.
Proof.
move=> h; rewrite /SearchTheory.av summxE; apply: le_trans (ler_norm_sum _ _ _) _.
rewrite natrM -mulrA mulr_natl -[X in _ *+ X]card_ord -sumr_const; apply: ler_sum => m _; exact: sandwich_le.
Qed.
Lemma avB X Y : av (X - Y) = av X - av Y.
Proof. by rewrite /SearchTheory.av -sumrB; apply: eq_bigr => m _; rewrite mulmxBr mulmxBl. Qed.
Lemma avD X Y : av (X + Y) = av X + av Y.
Proof. by rewrite /SearchTheory.av -big_split; apply: eq_bigr => m _; rewrite mulmxDr mulmxDl. Qed.
Lemma av_herm X : adj X = X -> adj (av X) = av X.
Proof. by move=> h; rewrite /SearchTheory.av adj_sum; apply: eq_bigr => m _; rewrite !adjM adjK h mulmxA. Qed.

Lemma resolution_eig A0 : adj A0 = A0 -> comm A0 ->
  exists Ps, resolution 1%:M Ps /\ forall P, P \in Ps -> exists a, A0 *m P = a *: P.
Proof.
move=> hA cA0; have [as_ [E [ua sE fE oE cE]]] := spectral_proj hA.
have hE a : hproj (E a).
  by have [h1 h2 _ _] := fE a; split=> // i il; apply: cE; exact: cA0.
rewrite -sE; elim: as_ ua {sE} => [|a s IH] /=; first by exists [::]; split=> //; split=> //; rewrite !big_nil.
move=> /andP [an us]; have [Ps [r1 r2]] := IH us; have [Rs r3] := resolution_exists G imufs pL uL (hE a).
exists (Rs ++ Ps); rewrite big_cons; split.
  apply: resolution_cat => //.
    by rewrite mulmx_sumr big_seq big1 // => b bin; apply: oE; apply: contraNneq an => ->.
  by rewrite mulmx_suml big_seq big1 // => b bin; apply: oE; apply: contraNneq an => <-.
move=> P; rewrite mem_cat => /orP [h|]; last exact: r2.
have [_ _ _ _ EP] := re_hproj r3 h; exists a; have [_ _ h1 _] := fE a.
by rewrite -EP mulmxA h1 -scalemxAl.
Qed.

Section Rank.
Variables (T : eqType) (a : T -> C) (Ps : seq T).
Hypothesis (ar : forall P, P \in Ps -> a P \is Num.real).
Definition before Q P : bool := (a Q < a P) || ((a Q == a P) && (index Q Ps < index P Ps)%N).
Definition rk P : nat := count (fun Q => before Q P) Ps.
Lemma before_irr P : ~~ before P P.
Proof. by rewrite /before ltxx ltnn andbF. Qed.
Lemma before_trans P Q S : before P Q -> before Q S -> before P S.
Proof.
rewrite /before => /orP [h|/andP [/eqP -> h]] /orP [g|/andP [/eqP g1 g2]].
- by rewrite (lt_trans h g).
- by rewrite -g1 h.
- by rewrite g.
by rewrite g1 eqxx (ltn_trans h g2) orbT.
Qed.
Lemma before_total P Q : P \in Ps -> Q \in Ps -> P != Q -> before P Q \/ before Q P.
Proof.
move=> Pin Qin PQ; rewrite /before.
have [h|h|h] := real_ltgtP (ar Pin) (ar Qin); [by left|by right|].
rewrite /=; have : index P Ps != index Q Ps.
  by apply: contraNneq PQ => i; rewrite -(nth_index P Pin) i (nth_index P Qin).
by rewrite neq_ltn => /orP [] ->; rewrite ?orbT; [left|right].
Qed.
Lemma rk_lt P Q : P \in Ps -> before P Q -> (rk P < rk Q)%N.
Proof.
move=> Pin PQ; rewrite /rk.
have := count_predUI (fun S => before S P) (pred1 P) Ps.
have -> : count (predI (fun S => before S P) (pred1 P)) Ps = 0%N.
  apply/eqP; rewrite -leqn0 leqNgt -has_count; apply/hasPn => S _ /=; apply/negP => /andP [h /eqP E].
  by rewrite E (negbTE (before_irr P)) in h.
have : (0 < count (pred1 P) Ps)%N by rewrite -has_count has_pred1.
have : (count (predU (fun S => before S P) (pred1 P)) Ps <= count (fun S => before S Q) Ps)%N.
  by apply: sub_count => S /= /orP [h|/eqP ->//]; exact: before_trans h PQ.
move: (count (predU _ _) _) (count (pred1 P) Ps) (count _ _) (count _ _) => x y z w; lia.
Qed.
Lemma rk_size P : P \in Ps -> (rk P < size Ps)%N.
Proof.
move=> Pin; rewrite /rk ltnNge; apply/negP => h.
have : count (fun Q => before Q P) Ps == size Ps by rewrite eqn_leq count_size h.
by rewrite -all_count => /allP /(_ P Pin); rewrite (negbTE (before_irr P)).
Qed.
End Rank.

Section Draw.
Variable Ps : seq 'M[C]_N.
Hypothesis rP : resolution 1%:M Ps.
Let J : 'M[C]_N := const_mx 1.
Hypothesis aP : forall P, P \in Ps -> exists a, av J *m P = a *: P.
Let a (P : 'M[C]_N) : C := \tr (av J *m P) / \tr P.
Let n0 : (0 < n)%N. Proof. by have := ig_e G; case: (n). Qed.

Lemma trP P : P \in Ps -> 1 <= \tr P.
Proof.
move=> Pin; have [[_ h _] p0 _ _ _] := re_hproj rP Pin.
by rewrite (MultTheory.idem_trace h) ler1n lt0n mxrank_eq0.
Qed.
Lemma size_le : (size Ps <= N)%N.
Proof.
have : \sum_(P <- Ps) 1 <= \sum_(P <- Ps) \tr P :> C by rewrite !big_seq; apply: ler_sum => P; exact: trP.
rewrite -raddf_sum /= (re_sum rP) mxtrace1 big_const_seq count_predT iter_addr_0.
by rewrite -[_ *+ _]/((size Ps)%:R) ler_nat.
Qed.
Lemma J_herm : adj J = J.
Proof. by apply/matrixP => i j; rewrite adjE !mxE conjC1. Qed.
Lemma aE P : P \in Ps -> av J *m P = a P *: P.
Proof.
move=> Pin; have [c cE] := aP Pin; rewrite /a cE mxtraceZ mulfK //.
by have [[_ h _] p0 _ _ _] := re_hproj rP Pin; exact: proj_trace0.
Qed.
Lemma a_real P : P \in Ps -> a P \is Num.real.
Proof.
move=> Pin; have [[h1 h2 _] p0 _ _ _] := re_hproj rP Pin; rewrite CrealE; apply/eqP.
have e1 : P *m av J *m P = a P *: P by rewrite -mulmxA aE // -scalemxAr h2.
have e2 : P *m av J *m P = (a P)^* *: P.
  by have := congr1 (fun Z : 'M[C]_N => adj Z) e1; rewrite !adjM h1 (av_herm J_herm) mulmxA adjZ h1.
have t0 := proj_trace0 h2 p0; apply: (mulIf t0).
by rewrite -!mxtraceZ -e1 -e2.
Qed.
Lemma a_le P : P \in Ps -> `|a P| <= (N * (n * R ^ 2))%:R.
Proof.
move=> Pin; have [[h1 h2 _] p0 _ _ _] := re_hproj rP Pin.
have e1 : `|a P| ^+ 2 * \tr P = fro (av J *m P).
  by rewrite aE // /fro adjZ -scalemxAl -scalemxAr scalerA mxtraceZ h1 h2 normCK [_^* * _]mulrC.
have e2 : fro (av J *m P) <= (N%:R * (n * R ^ 2)%:R) ^+ 2.
  apply: le_trans (fro_proj _ h1 h2) _; apply: fro_le; rewrite ?ler0n // => i j.
  rewrite -[X in _ <= X]mulr1; apply: av_le => x y; by rewrite mxE normr1.
have : `|a P| ^+ 2 <= (N%:R * (n * R ^ 2)%:R) ^+ 2.
  by apply: le_trans e2; rewrite -e1 -{1}[_ ^+ 2]mulr1 ler_wpmul2l ?exprn_ge0 // trP.
by rewrite -natrM ler_pexpn2r ?nnegrE ?ler0n.
Qed.

Let r (P : 'M[C]_N) : nat := rk a Ps P.
Let lam (P : 'M[C]_N) : C := (r P)%:R / (2 * N)%:R.
Let H' : 'M[C]_N := \sum_(P <- Ps) lam P *: P.
Let gam : C := n%:R / (2 * N)%:R.
Let bv (P : 'M[C]_N) : C := a P + (r P)%:R * gam.
Let gam0 : 0 < gam.
Proof. by rewrite divr_gt0 ?ltr0n ?muln_gt0. Qed.

Lemma lam_conj P : (lam P)^* = lam P.
Proof. by rewrite /lam rmorphM fmorphV !conjC_nat. Qed.
Lemma H'_herm : adj H' = H'.
Proof.
rewrite /H' adj_sum big_seq [RHS]big_seq; apply: eq_bigr => P Pin; have [[h1 _ _] _ _ _ _] := re_hproj rP Pin.
by rewrite adjZ h1 lam_conj.
Qed.
Lemma H'_comm : comm H'.
Proof.
move=> i il; rewrite /H' mulmx_sumr mulmx_suml big_seq [RHS]big_seq; apply: eq_bigr => P Pin.
have [[_ _ h] _ _ _ _] := re_hproj rP Pin; by rewrite -scalemxAr -scalemxAl h.
Qed.
Lemma H'P P : P \in Ps -> H' *m P = lam P *: P.
Proof.
move=> Pin; have [[_ h2 _] _ _ _ _] := re_hproj rP Pin.
rewrite /H' mulmx_suml (bigD1_seq P) //= ?(re_uniq rP) // -scalemxAl h2 big_seq_cond big1 ?addr0 // => Q /andP [Qin QP].
by rewrite -scalemxAl (re_orth rP) ?scaler0.
Qed.
Lemma H'_le i j : `|H' i j| <= 2%:R^-1.
Proof.
have d0 P : P \in Ps -> 0 <= P i i.
  move=> Pin; have [[h1 h2 _] _ _ _ _] := re_hproj rP Pin; rewrite -h2 mxE sumr_ge0 // => l _.
  by rewrite -{2}h1 adjE mul_conjC_ge0.
have e1 : (H' *m adj H') i i = \sum_(P <- Ps) lam P ^+ 2 * P i i.
  rewrite H'_herm {2}/H' mulmx_sumr summxE big_seq [RHS]big_seq; apply: eq_bigr => P Pin.
  by rewrite -scalemxAr H'P // scalerA mxE expr2.
have e2 : (H' *m adj H') i i <= 2%:R^-1 ^+ 2.
  have -> : 2%:R^-1 ^+ 2 = \sum_(P <- Ps) 2%:R^-1 ^+ 2 * P i i :> C.
    by rewrite -mulr_sumr -summxE (re_sum rP) mxE eqxx mulr1.
  rewrite e1 !big_seq; apply: ler_sum => P Pin; rewrite ler_wpmul2r ?d0 //.
  rewrite ler_expn2r ?nnegrE ?invr_ge0 ?ler0n // /lam ?mulr_ge0 ?invr_ge0 ?ler0n //.
  rewrite ler_pdivr_mulr ?ltr0n ?muln_gt0 // natrM mulrA mulVf ?pnatr_eq0 // mul1r ler_nat.
  apply: leq_trans size_le; apply: ltnW; exact: rk_size.
have e3 : `|H' i j| ^+ 2 <= (H' *m adj H') i i.
  rewrite mxE (bigD1 j) //= adjE -normCK ler_addl sumr_ge0 // => l _; by rewrite adjE mul_conjC_ge0.
have := le_trans e3 e2; rewrite ler_pexpn2r ?nnegrE ?invr_ge0 ?ler0n //.
Qed.

Lemma M0P P : P \in Ps -> (av J + n%:R *: H') *m P = bv P *: P.
Proof.
move=> Pin; rewrite mulmxDl aE // -scalemxAl H'P // scalerA -scalerDl; congr (_ *: _).
by rewrite /bv /lam /gam; congr (_ + _); rewrite mulrCA.
Qed.
Lemma bv_gaps P Q : P \in Ps -> Q \in Ps -> P != Q -> gam <= `|bv P - bv Q|.
Proof.
have main X Y : X \in Ps -> Y \in Ps -> before a Ps X Y -> gam <= `|bv X - bv Y|.
  move=> Xin Yin XY; have rl := rk_lt Xin XY; rewrite -/(r X) -/(r Y) in rl.
  have aa : a X <= a Y by move: XY; rewrite /before => /orP [/ltW//|/andP [/eqP -> _]].
  have h : gam <= bv Y - bv X.
    rewrite /bv opprD addrACA -mulrBl -[X in X <= _]add0r ler_add ?subr_ge0 // -{1}[gam]mul1r.
    rewrite ler_wpmul2r ?(ltW gam0) // ler_subr_addr -(natrD _ 1) ler_nat add1n; exact: rl.
  by rewrite distrC; apply: le_trans h _; apply: real_ler_norm; apply: realB; apply: realD; rewrite ?a_real // realE mulr_ge0 ?ler0n ?(ltW gam0).
move=> Pin Qin PQ; case: (before_total a_real Pin Qin PQ) => h; first exact: main.
by rewrite distrC; exact: main.
Qed.
Lemma bv_le P : P \in Ps -> `|bv P| <= (N * (n * R ^ 2) + n)%:R - gam / 4%:R.
Proof.
move=> Pin; apply: le_trans (ler_norm_add _ _) _; rewrite natrD -addrA; apply: ler_add; first exact: a_le.
have g0 := ltW gam0; have rg : 0 <= (r P)%:R * gam by rewrite mulr_ge0 ?ler0n.
rewrite (ger0_norm rg).
have rl : ((r P).+1 <= N)%N by apply: leq_trans size_le; exact: rk_size.
rewrite ler_subr_addr mulrC -mulrDr; apply: (@le_trans _ _ (gam * (2 * N)%:R)); last by rewrite /gam divfK // pnatr_eq0 -lt0n muln_gt0.
apply: (ler_wpmul2l g0); apply: (@le_trans _ _ (r P).+1%:R); last by rewrite ler_nat; move: rl; lia.
by rewrite -[(r P).+1]addn1 natrD ler_add2l invf_le1 ?ltr0n ?ler1n.
Qed.

Definition lucky : 'M[C]_N := \matrix_(i, j) (2%:R^-1 + 'i * 2%:R^-1 + H' j i * 2%:R^-1).
Lemma lucky_box i j : [/\ 4%:R^-1 <= 'Re (lucky i j), 'Re (lucky i j) <= 3%:R / 4%:R, 4%:R^-1 <= 'Im (lucky i j) & 'Im (lucky i j) <= 3%:R / 4%:R].
Proof.
rewrite mxE; set w := H' j i * 2%:R^-1.
have -> : 2%:R^-1 + 'i * 2%:R^-1 + w = (2%:R^-1 + 'Re w) + 'i * (2%:R^-1 + 'Im w).
  by rewrite {1}[w]Crect mulrDr addrACA.
have h2 : (2%:R : C)^-1 \is Num.real by rewrite realE invr_ge0 ler0n.
have wl : `|w| <= 4%:R^-1.
  rewrite normrM (_ : 4%:R^-1 = 2%:R^-1 * 2%:R^-1); last by rewrite -invfM -natrM.
  rewrite [`|2%:R^-1|]ger0_norm ?invr_ge0 ?ler0n // ler_wpmul2r ?invr_ge0 ?ler0n // H'_le //.
have [b1 b2] := Re_le w.
have e2 : 2%:R^-1 = 4%:R^-1 + 4%:R^-1 :> C by rewrite -mulr2n -[_^-1 *+ 2]mulr_natl (@inv_nat C 2 4 2).
have e3 : 3%:R / 4%:R = 2%:R^-1 + 4%:R^-1 :> C by rewrite mulr_natl e2 -mulr2n -mulrSr.
rewrite Re_rect ?Im_rect ?realD ?Creal_Re ?Creal_Im // e3.
have := le_trans b1 wl; rewrite real_ler_norml ?Creal_Re // => /andP [r1 r2].
have := le_trans b2 wl; rewrite real_ler_norml ?Creal_Im // => /andP [i1 i2].
split; rewrite ?ler_add2l // e2 -ler_subl_addl opprD addrA subrr add0r //.
Qed.

Variables (rtol : C) (X : 'M[C]_N).
Hypotheses (rt0 : 0 <= rtol) (tol : (10 ^ 8)%:R^-1 + rtol * (N * (n * R ^ 2) + n)%:R < gam / 2%:R).
Hypothesis near : forall i j, `|X i j - lucky i j| <= (32 * (N * R) ^ 2)%:R^-1.

Lemma lucky_separating : separating n rtol ms (av (X + adj X)^T).
Proof.
have hX : adj (X + adj X)^T = (X + adj X)^T.
  by apply/matrixP => i j; rewrite !mxE rmorphD conjCK addrC.
have lu : (lucky + adj lucky)^T = J + H'.
  apply/matrixP => i j; rewrite /J mxE [in LHS]mxE adjE [RHS]mxE [in LHS]mxE [lucky i j]mxE [const_mx _ _ _]mxE.
  have hc : (H' j i)^* = H' i j by rewrite -{2}H'_herm adjE.
  rewrite !rmorphD !rmorphM conjCi hc fmorphV conjC_nat mulNr.
  set h := 2%:R^-1; have hh : h + h = 1 by rewrite -mulr2n -[h *+ 2]mulr_natl divff // pnatr_eq0.
  have -> : h + 'i * h + H' i j * h + (h - 'i * h + H' i j * h) = (h + h) + H' i j * (h + h).
    rewrite addrACA; congr (_ + _); last by rewrite mulrDr.
    by rewrite addrACA subrr addr0.
  by rewrite hh mulr1.
have e1 : av (lucky + adj lucky)^T = av J + n%:R *: H' by rewrite lu avD (av_id uL H'_comm).
apply: (@perturb_separating C n mul e G mu imufs N ms pL uL K dim D cA rtol Ps bv (av J + n%:R *: H') _ gam ((N * (n * R ^ 2) + n)%:R - gam / 4%:R) ((n * R ^ 2)%:R * (16 * (N * R) ^ 2)%:R^-1) (gam / 4%:R)) => //.
- exact: M0P.
- exact: bv_gaps.
- exact: bv_le.
- exact: av_herm.
- exact: (av_comm G imufs pL uL).
- by rewrite mulr_ge0 ?invr_ge0 ?ler0n.
- move=> i j; rewrite -e1; have -> : av (X + adj X)^T i j - av (lucky + adj lucky)^T i j = av ((X + adj X)^T - (lucky + adj lucky)^T) i j.
    by rewrite avB !mxE.
  apply: av_le => x y; rewrite -(@inv_nat C (16 * (N * R) ^ 2) (32 * (N * R) ^ 2) 2).
  2: by rewrite muln_gt0 expn_gt0 muln_gt0 N0 R0.
  2: by rewrite mulnA.
  have -> : ((X + adj X)^T - (lucky + adj lucky)^T) x y = (X y x - lucky y x) + (X x y - lucky x y)^*.
    by rewrite rmorphB !mxE opprD addrACA.
  apply: le_trans (ler_norm_add _ _) _; rewrite norm_conjC mulrDl !mul1r ler_add //.
- have -> : N%:R * ((n * R ^ 2)%:R * (16 * (N * R) ^ 2)%:R^-1) = gam / 8%:R :> C.
    rewrite /gam expnMn (_ : (16 * (N ^ 2 * R ^ 2) = (N * R ^ 2) * (2 * N * 8))%N); last by rewrite expnS expn1; lia.
    rewrite [(N * R ^ 2 * _)%:R]natrM invfM mulrA [(n * R ^ 2)%:R]natrM.
    have x0 : (N * R ^ 2)%:R != 0 :> C by rewrite pnatr_eq0 muln_eq0 negb_or -!lt0n N0 expn_gt0 R0.
    have -> : N%:R * (n%:R * (R ^ 2)%:R) = n%:R * (N * R ^ 2)%:R :> C by rewrite natrM mulrCA.
    rewrite -mulrA mulVKf //.
    by rewrite [(2 * N * 8)%:R]natrM invfM mulrA.
  by rewrite ltr_pmul2l // ltf_pinv ?posrE ?ltr0n // ltr_nat.
rewrite subrK (_ : gam - gam / 4%:R *+ 2 = gam / 2%:R) //.
rewrite -[X in X - _]mulr1 -mulrnAr -mulrBr; congr (_ * _).
rewrite -[_^-1 *+ 2]mulr_natl (@inv_nat C 2 4 2) //; apply/eqP; rewrite subr_eq -mulr2n -[_^-1 *+ 2]mulr_natl divff ?pnatr_eq0 //.
Qed.
End Draw.
End Lucky.
