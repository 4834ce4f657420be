(** The grey group of a two-fold rotation r: the identity, r, time reversal and their product. *)
From Coq Require Import QArith ZArith List String.
From mathcomp Require Import all_ssreflect all_algebra all_fingroup.
From Verif Require Import Py Mat3 MatQ GroupModel GroupSpec GroupProofs RepSpec RepModel RepTheory RepProofs Mx2 IndexRepSpec IndexGroup
  CExpSpec ChainModel ChainTheory SmallModel SmallSpec SmallTheory SpinorModel SpinorSpec SpinorTheory SpinorProofs SpinorConv CorepModel CorepSpec CorepProofs
  CorepTheory CorepKinds CorepBridge CorepPipeline CorepOutcome PurifyTheory ClaimsChain.
Import Order.TTheory GRing.Theory Num.Theory.
Set Implicit Arguments.
Unset Strict Implicit.
Unset Printing Implicit Defensive.
Local Open Scope ring_scope.

(** The multiplication of the positions 0..3: bit 0 for r, bit 1 for time reversal. *)
Definition two_mul (i j : nat) : nat := (odd (i + j) + 2 * odd (i %/ 2 + j %/ 2))%N.
Definition two_rots (r : mat) : list mat := [:: mid; r; mid; r].
Definition two_flags : list bool := [:: false; false; true; true].
Section Two.
Variables (C : numClosedFieldType) (E : numpy C) (G : trig C) (L : 'M[C]_3).
Hypotheses (EO : eig_ok E) (GO : trig_ok G) (LO : lattice_ok L).
Variable r : mat.
Hypotheses (rr : mmul r r = mid) (r1 : r <> mid) (rd : mdet r = Zpos xH) (rm : preserves_metric L r).
Local Notation U := (spin_of E G L r).

Lemma scalar_square (W : 'M[C]_2) : W *m W = 1%:M -> \det W = 1 -> exists a, W = a%:M.
Proof.
rewrite (mx2_eta W); move: (W _ _) (W _ _) (W _ _) (W _ _) => d c b a.
rewrite mx2M mx2_1 mx2_det => /mx2_inj [e1 e2 e3 e4] e5.
have t1 : (a + d) * a = 2%:R by rewrite mulrDl -[a * a](addrK (b * c)) e1 [d * a]mulrC -[a * d](subrK (b * c)) e5 addrACA addNr addr0.
have t2 : (a + d) * d = 2%:R by rewrite mulrDl -[d * d](addKr (c * b)) e4 -[a * d](subrK (b * c)) e5 [b * c]mulrC [- _ + 1]addrC addrACA subrr addr0.
have t0 : a + d != 0 by apply/eqP => t; move/eqP: t1; rewrite t mul0r eq_sym pnatr_eq0.
exists a; rewrite mx2_s; congr (mx2 _ _ _ _).
- by apply: (mulfI t0); rewrite mulr0 mulrDl [d * b]mulrC e2.
- by apply: (mulfI t0); rewrite mulr0 mulrDl [a * c]mulrC e3.
by apply: (mulfI t0); rewrite t1 t2.
Qed.
Lemma pauli_inj (v w : 'cV[C]_3) : pauli v = pauli w -> v = w.
Proof.
rewrite /pauli => /mx2_inj [e1 e2 e3 _].
have two (x y : C) : x *+ 2 = y *+ 2 -> x = y by move/eqP; rewrite -subr_eq0 -mulrnBl mulrn_eq0 /= subr_eq0 => /eqP.
have f1 : v x0 0 = w x0 0.
  apply: two; have := congr2 +%R e2 e3; by rewrite addrACA addNr addr0 [RHS]addrACA addNr addr0 !mulr2n.
have f2 : v x1 0 = w x1 0 by move: e3; rewrite f1 => /addrI /(mulfI (neq0Ci C)).
apply/matrixP => i j; rewrite [j]ord1; case: (unliftP ord0 i) => [k ->|-> //].
by case: (unliftP ord0 k) => [l ->|-> //]; rewrite [l]ord1.
Qed.
Lemma two_sign : spin_sign E G L r r = -1.
Proof.
have [_ [u d p]] := spin_total EO GO LO rm.
have [[s|//] e] := spin_sign_ok EO GO LO rm rm; case: r1.
rewrite s scale1r rr (spin_of_id E GO LO) in e; have [a Wa] := scalar_square e d.
have R1 : cart_rotation L r = 1%:M.
  apply/matrixP => i j; have : cart_rotation L r *m delta_mx j (0 : 'I_1) = delta_mx j 0.
    apply: pauli_inj; rewrite -p; rewrite {1}Wa -scalar_mxC -mulmxA -Wa u mulmx1 //.
  by rewrite -colE => /matrixP /(_ i 0); rewrite !mxE andbT => ->.
have [_ LU] := LO; have LT : L^T \in unitmx by rewrite unitmx_tr.
have : mC C r = mC C mid.
  move: R1; rewrite /cart_rotation /proper_part rd /= mC_id => /(congr1 (fun X => invmx L^T *m X *m L^T)).
  by rewrite mulmx1 !mulmxA mulVmx // mul1mx -mulmxA mulVmx // mulmx1.
case: (r) => a1 a2 a3 a4 a5 a6 a7 a8 a9 /matrixP h; rewrite /mid.
have h1 := h x0 x0; have h2 := h x0 x1; have h3 := h x0 x2; have h4 := h x1 x0; have h5 := h x1 x1.
have h6 := h x1 x2; have h7 := h x2 x0; have h8 := h x2 x1; have h9 := h x2 x2.
rewrite !mxE /= in h1 h2 h3 h4 h5 h6 h7 h8 h9.
by congr Mat; apply: (@zC_inj C).
Qed.
Local Notation rots := (two_rots r).
Lemma two_group : lists_magnetic_group (combine rots two_flags).
Proof.
have m1 a : mmul mid a = a by exact: mmul_1l.
have m2 a : mmul a mid = a by exact: mmul_1r.
split.
- by repeat constructor; simpl; intuition congruence.
- by left.
- move=> a b ha hb; rewrite /=; case: ha => [<-|[<-|[<-|[<-|[]]]]]; case: hb => [<-|[<-|[<-|[<-|[]]]]];
    rewrite /mag_mul /= ?m1 ?m2 ?rr; intuition.
move=> a h; exists a; split=> //; move: h => [<-|[<-|[<-|[<-|[]]]]]; by rewrite /mag_mul /= ?m1 ?rr.
Qed.
Lemma two_multiplication : mag_multiplication (combine rots two_flags) two_mul 0.
Proof.
have m1 a : mmul mid a = a by exact: mmul_1l.
have m2 a : mmul a mid = a by exact: mmul_1r.
split=> //.
- by move=> [|[|[|[|]]]] // [|[|[|[|]]]].
by move=> [|[|[|[|]]]] // [|[|[|[|]]]] // _ _; rewrite /mag_mul /= ?m1 ?m2 ?rr.
Qed.
Lemma two_preserves x : In x rots -> preserves_metric L x.
Proof. by have p1 := preserves_id L; move=> [<-|[<-|[<-|[<-|[]]]]]. Qed.
Variables (rtol atol : Q) (method : string) (max_num : nat) (R : corep_result C).
Hypotheses (NO : numpy_ok E rtol atol) (A3 : Qle atol (Qmake 1 3)) (mok : method_ok E [:: mid; r] method).
Hypothesis res : get_magnetic_pointgroup_spinor_irreps_from_symmetry E G L rots two_flags method rtol atol max_num = COk R.
Local Notation eps := (qC C atol).
Lemma near_i (x y : C) : y * y = -1 -> x^* = x -> `|x - y| <= eps -> False.
Proof.
move=> yy xr; have yc : y^* = - y.
  have : (y - 'i) * (y + 'i) = 0 by rewrite -subr_sqr sqrCi expr2 yy opprK addNr.
  move/eqP; rewrite mulf_eq0 => /orP []; [rewrite subr_eq0|rewrite addr_eq0] => /eqP ->; by rewrite ?rmorphN conjCi.
have n1 : `|y| = 1 by apply/eqP; rewrite -sqrp_eq1 ?normr_ge0 // normCK yc mulrN yy opprK.
move=> h; have : `|y *+ 2| <= eps *+ 2.
  have -> : y *+ 2 = (x - y)^* - (x - y) by rewrite rmorphB /= xr yc opprK opprB [x + y]addrC addrACA subrr addr0 mulr2n.
  by apply: le_trans (ler_norm_sub _ _) _; rewrite norm_conjC mulr2n ler_add.
rewrite normrMn n1 ler_pmuln2r // => le1.
have := le_trans le1 (atol_third C A3); by rewrite invf_ge1 ?ltr0n // lern1.
Qed.
Lemma two_refuted : (co_ok R -> (0 < size (co_irreps R))%N) /\ forall m, (m < size (co_irreps R))%N ->
  nth 0 (co_indicators R) m = 0 /\
  ~ corep 4 two_mul 0 (fun i => nth false two_flags i) (co_factors R) (aget (arr_nth (co_irreps R) m)).
Proof.
have LE : size two_flags = size rots by [].
have [z [hz zE]] := corep_factor_system EO GO LO LE two_preserves two_group two_multiplication.
have PM := two_preserves; have LG := two_group; have M := two_multiplication.
have sl := little1 rots NO.
have mz i j : z i j * little_factor_system E rots (List.map (fun _ => vzero) rots) vzero i j = z i j by rewrite sl mulr1.
have SS := spin_signs EO GO LO LE PM LG M hz (fun i j _ _ => mz i j).
have [a0 [inv_a0 [[a0n aa0] [in0 inv0] [-> _ _ _ ok0] h]]] := corep_inv LE (point_size rots) LG M hz NO A3 SS mok erefl res.
split=> // m hm; have [A' [x [[oA rA uA iA dA] Fx x2 iE mk]]] := h m hm.
have xsgE : linear_ops rots two_flags = [:: 0; 1]%N by [].
have ae : a0 = 2%N \/ a0 = 3%N.
  by move: a0n aa0; case: (a0) => [|[|[|[|]]]] //; auto.
have z22 : z 2%N 2%N = -1 by rewrite zE // /mag_sign /= (spin_sign_id_l EO GO LO (preserves_id L)) expr1 mulr1.
have z33 : z 3%N 3%N = 1 by rewrite zE // /mag_sign /= two_sign expr1 mulN1r opprK.
have ind0 : nth 0 (co_indicators R) m = 0.
  have n2 : (2%:Z : int) != 0 by [].
  apply: (mulIf n2); rewrite mul0r -[X in _ * X]/((size (linear_ops rots two_flags))%:Z) -iE.
  move: (get_character _) => chars; rewrite /corep_indicator_sum.
  have -> : \sum_(x <- zip (a0_ops rots two_flags two_mul a0) (sq_ops rots two_flags two_mul a0))
      z x.1 x.1 * little_factor_system E rots (List.map (fun _ => vzero) rots) vzero x.1 x.1 * nth 0 chars x.2 = 0.
    rewrite /sq_ops /a0_ops xsgE.
    by case: ae => -> /=; rewrite !big_cons big_nil /= !sl !mulr1 z22 z33 mulN1r mul1r addr0 ?addNr ?subrr.
  by apply: (round_near (no_int NO)); rewrite subrr normr0 invr_gt0 ltr0n.
split=> // - [_ law].
have {law} := law a0 1%N a0n erefl.
have d1 : adim A' = 1%N by move: dA iA.1; case: (adim A') => [|[|[|]]].
have [h1 _ _ un] := made_structure LE LG M NO SS A3 oA rA uA a0n aa0 in0 inv0 mk.
rewrite (phases1 NO h1) in Fx.
rewrite ind0 in mk; case: mk => [[//]|[//]|[_ xE]].
have z1 : z a0 1%N * z a0 1%N = 1 by rewrite (ss_sign SS) // sgC_sq.
have cE i : nth false two_flags i = anti two_flags i by [].
rewrite Fx /corep_at cE aa0 /conj_if un // scalerA z1 scale1r; case: x {x2 un Fx h1} xE => F b /= ->.
have o2 := purified_order E atol oA; have e2 := @purified_e _ _ _ _ _ _ _ _ LE M NO (fun i j => z i j * little_factor_system E rots (List.map (fun _ => vzero) rots) vzero i j) A3 _ oA rA.
have sl2 := size_dbl two_mul (fun i j => z i j * little_factor_system E rots (List.map (fun _ => vzero) rots) vzero i j) a0 inv_a0 o2.
have [_ _ -> _] := fill_unconj LE LG M SS a0n aa0
   (block_mx 0 ((z a0 a0 * little_factor_system E rots (List.map (fun _ => vzero) rots) vzero a0 a0) *: aget (purify_irrep_value E eps A') (index (two_mul a0 a0) (linear_ops rots two_flags))) 1%:M 0) sl2
   (dbl_e LE LG M SS a0n in0 inv0 o2 e2).
rewrite (made_linear LE M _ a0n aa0 _ sl2) // nth_dbl //.
rewrite map_block_mx !mulmx_block !map_mx0 !(mul0mx, mulmx0, mul1mx, add0r, addr0) => /eq_block_mx [_ _ rl _].
have i0 : 'I_(adim A') by rewrite d1; exact: ord0.
have one (B B' : 'M[C]_(adim A')) : (B *m B') i0 i0 = B i0 i0 * B' i0 i0.
  rewrite mxE (bigD1 i0) //= big1 ?addr0 // => j /negP []; apply/eqP/val_inj.
  have z0 (k : 'I_(adim A')) : val k = 0%N by apply/eqP; rewrite -leqn0 -ltnS -d1 ltn_ord.
  by rewrite !z0.
apply: (@near_i (aget (purify_irrep_value E eps A') 1%N i0 i0) (aget A' 1%N i0 i0)).
- rewrite -one; have [r1' r2] := rA; rewrite r2 // mxE.
  have -> : linear_mul rots two_flags two_mul 1 1 = linear_e rots two_flags 0 by [].
  rewrite r1' mxE eqxx mulr1 mz zE // /mag_sign /= expr0 mul1r; exact: two_sign.
- by move/matrixP/(_ i0 i0): rl; rewrite mxE.
by rewrite (purified_at E atol oA) // mxE; exact: (sn_near NO A3).
Qed.
End Two.
