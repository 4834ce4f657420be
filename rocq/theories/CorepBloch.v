(** Magnetic little groups whose factor system consists of signs, and the factor system of
    their small co-representations. *)
From Coq Require Import QArith ZArith List String.
From mathcomp Require Import all_ssreflect all_algebra all_fingroup.
From Verif Require Import Py Mat3 MatQ GroupModel GroupSpec GroupProofs RepSpec RepModel RepTheory RepProofs Mx2 IndexRepSpec IndexGroup
  CExpSpec ChainModel ChainTheory SmallModel SmallSpec SmallTheory SpinorModel SpinorSpec SpinorTheory SpinorProofs SpinorConv CorepModel CorepSpec CorepProofs
  CorepTheory CorepKinds CorepBridge CorepPipeline CorepOutcome PurifyTheory RobustTheory ClaimsChain CorepIrr CorepCover CorepFull CorepGeneral CorepTwo.
Import Order.TTheory GRing.Theory Num.Theory.
Set Implicit Arguments.
Unset Strict Implicit.
Unset Printing Implicit Defensive.
Local Open Scope ring_scope.

(** The operations (R_i, w_i), with time reversal where flags says so, are a magnetic space
    group modulo its lattice; the rotations fix k; and 2k and 2k.w_i are integral, so that
    exp(-2 pi i k.w_i) is 1 or -1. *)
Record magnetic_small (C : numClosedFieldType) (L : 'M[C]_3) (rots : list mat) (trans : list vec) (flags : list bool) (k : vec)
    (mul : nat -> nat -> nat) (e : nat) : Prop := MagneticSmall {
  ms_flags : size flags = size rots;
  ms_trans : size trans = size rots;
  ms_metric : forall x, In x rots -> preserves_metric L x;
  ms_group : lists_magnetic_group (combine rots flags);
  ms_mul : mag_multiplication (combine rots flags) mul e;
  ms_some : has id flags;
  ms_shift : forall i j, (i < size rots)%N -> (j < size rots)%N -> vint (lattice_shift rots trans mul i j);
  ms_e : veq (List.nth e trans vzero) vzero;
  ms_fixes : forall x, In x rots -> fixes_kpoint k x;
  ms_k2 : vint (vadd k k);
  ms_half : forall w, In w trans -> qint (vdot (vadd k k) w) }.
(** The factor system of the small co-representations at k: the spin factor times that of the
    lattice translation left over by the product. *)
Definition magnetic_factor (C : numClosedFieldType) (E : numpy C) (rots : list mat) (trans : list vec) (k : vec) (mul : nat -> nat -> nat)
    (z : nat -> nat -> C) (i j : nat) : C :=
  z i j * bloch_factor (np_exp E) rots trans k mul i j.

Section SignsOf.
Variables (C : numClosedFieldType) (n : nat) (mul : nat -> nat -> nat) (e : nat) (z : nat -> nat -> C).
Lemma signs_of : (forall i j, (i < n)%N -> (j < n)%N -> (mul i j < n)%N) ->
  (forall i j, (i < n)%N -> (j < n)%N -> z i j = 1 \/ z i j = -1) ->
  (forall i j k, (i < n)%N -> (j < n)%N -> (k < n)%N -> z i (mul j k) * z j k = z (mul i j) k * z i j) ->
  z e e = 1 -> sign_system n mul e z z.
Proof.
move=> lt sg co ze; have n1 : eq_op (-1 : C) 1 = false by rewrite eqr_oppLR -addr_eq0 -mulr2n pnatr_eq0.
have n2 : eq_op (1 : C) (-1) = false by rewrite eq_sym.
have sE i j : (i < n)%N -> (j < n)%N -> z i j = (-1) ^+ zi z i j.
  by move=> hi hj; rewrite /zi; case: (sg i j hi hj) => ->; rewrite ?eqxx ?n2 ?expr1 ?expr0.
split=> //.
- move=> i j k hi hj hk; have := co i j k hi hj hk; rewrite !sE ?lt // !sgC_add.
  by move: (zi z i _ (+) _) (zi z (mul i j) k (+) _) => [] [] //= /eqP; rewrite ?expr1 ?expr0 ?n1 ?n2.
by rewrite /zi ze n2.
Qed.
End SignsOf.

Section Bloch.
Variables (C : numClosedFieldType) (E : numpy C) (G : trig C) (L : 'M[C]_3).
Variables (rots : list mat) (trans : list vec) (flags : list bool) (k : vec) (mul : nat -> nat -> nat) (e : nat) (rtol atol : Q).
Hypotheses (NO : numpy_ok E rtol atol) (EO : eig_ok E) (GO : trig_ok G) (LO : lattice_ok L).
Hypothesis MS : magnetic_small L rots trans flags k mul e.
Local Notation n := (size rots).
Let LE := ms_flags MS.
Let sT := ms_trans MS.
Let LG := ms_group MS.
Let M := ms_mul MS.
Local Notation cexp := (np_exp E).
Let ce : exp_spec cexp := or_cexp (no_oracles NO).
Local Notation c i := (cexp (Qopp (vdot k (List.nth i trans vzero)))).
Local Notation beta := (bloch_factor cexp rots trans k mul).
Let lt i j : (i < n)%N -> (j < n)%N -> (mul i j < n)%N. Proof. by move=> hi hj; exact: (lin_mulN LE M hi hj). Qed.

Lemma half_sign a : qint (Qplus a a) -> cexp (Qopp a) = 1 \/ cexp (Qopp a) = -1.
Proof.
move=> h; have : cexp (Qopp a) ^+ 2 = 1.
  rewrite expr2 -(ce_add ce); apply/(ce_int ce); case: h => m hm; exists (Z.opp m).
  by rewrite inject_Z_opp -hm; ring.
by move/eqP; rewrite sqrf_eq1 => /orP [] /eqP ->; [left|right].
Qed.
Lemma vdot_twice u v : Qeq (vdot (vadd u u) v) (Qplus (vdot u v) (vdot u v)).
Proof. rewrite /vdot /=; ring. Qed.
Lemma qint_eq a b : Qeq a b -> qint a -> qint b.
Proof. by move=> ab [m hm]; exists m; rewrite -ab. Qed.
Lemma c_sign i : (i < n)%N -> c i = 1 \/ c i = -1.
Proof.
move=> hi; apply: half_sign; apply: (qint_eq (vdot_twice _ _)); apply: (ms_half MS).
by apply: List.nth_In; apply/ssrnat.ltP; rewrite -sT in hi.
Qed.
Lemma beta_sign i j : (i < n)%N -> (j < n)%N -> beta i j = 1 \/ beta i j = -1.
Proof.
move=> hi hj; apply: half_sign; apply: (qint_eq (vdot_twice _ _)); apply: qint_dot; [exact: (ms_k2 MS)|exact: (ms_shift MS)].
Qed.
Lemma nth_mulR i j : (i < n)%N -> (j < n)%N -> List.nth (mul i j) rots mid = mmul (List.nth i rots mid) (List.nth j rots mid).
Proof.
move=> hi hj; have := mm_mul M (i := i) (j := j); rewrite (size_ops LE) => /(_ hi hj).
by rewrite !combine_nth // /mag_mul /= => -[->].
Qed.
Lemma assoc i j l : (i < n)%N -> (j < n)%N -> (l < n)%N -> mul i (mul j l) = mul (mul i j) l.
Proof.
move=> hi hj hl; have lt' := fun i (h : (i < n)%N) => ssrnat.ltP h.
by have := gl_assoc _ _ _ (lin_group_law LE LG M) i j l (lt' _ hi) (lt' _ hj) (lt' _ hl).
Qed.
Lemma beta_cocycle i j l : (i < n)%N -> (j < n)%N -> (l < n)%N -> beta i (mul j l) * beta j l = beta (mul i j) l * beta i j.
Proof.
move=> hi hj hl; set t := lattice_shift rots trans mul j l.
have -> : beta j l = cexp (Qopp (vdot k (mvec (List.nth i rots mid) t))).
  have : qint (vdot (vsub (mtvec (List.nth i rots mid) k) k) t).
    apply: qint_dot; last exact: (ms_shift MS).
    by apply: (ms_fixes MS); apply: List.nth_In; apply/ssrnat.ltP.
  move=> [m hm]; rewrite vdot_sub_l vdot_mtvec in hm.
  have m1 : cexp (inject_Z m) = 1 by apply/(ce_int ce); exists m.
  rewrite /bloch_factor -/t -[RHS]mulr1 -m1 -(ce_add ce); apply: (ce_eq ce); rewrite -hm; ring.
rewrite -!(ce_add ce); apply: (ce_eq ce).
rewrite /t /lattice_shift (assoc hi hj hl) (nth_mulR hi hj) !(vdot_sub_r, vdot_add_r).
have -> : forall a u v w, Qeq (vdot k (mvec a (vsub (vadd u v) w))) (Qminus (Qplus (vdot k (mvec a u)) (vdot k (mvec a v))) (vdot k (mvec a w))).
  by move=> a u v w; rewrite mvec_sub mvec_add vdot_sub_r vdot_add_r.
rewrite mvec_mul; ring.
Qed.
Variables (z : nat -> nat -> C) (Us : seq 'M[C]_2).
Hypothesis spin : get_corep_spinor_factor_system E G L rots flags = Ret (z, Us, flags).
Local Notation nu := (magnetic_factor E rots trans k mul z).
Lemma mul_ee : mul e e = e.
Proof. by have := gl_1l _ _ _ (lin_group_law LE LG M) e (ssrnat.ltP (lin_e LE M)). Qed.
Lemma c_e : c e = 1.
Proof. exact: (phase_e ce k (ms_e MS)). Qed.
Lemma magnetic_signs : sign_system n mul e nu nu.
Proof.
have SS := spin_signs EO GO LO LE (ms_metric MS) LG M spin (fun _ _ _ _ => erefl).
have zs i j : (i < n)%N -> (j < n)%N -> z i j = 1 \/ z i j = -1.
  by move=> hi hj; rewrite (ss_sign SS) //; case: (zi z i j); [right|left]; rewrite ?expr1 ?expr0.
have ss (a b : C) : (a = 1 \/ a = -1) -> (b = 1 \/ b = -1) -> a * b = 1 \/ a * b = -1.
  by move=> [] -> [] ->; rewrite ?(mul1r, mulr1, mulrNN); intuition.
apply: signs_of => //.
- by move=> i j hi hj; apply: ss; [exact: zs|exact: beta_sign].
- move=> i j l hi hj hl; rewrite /magnetic_factor mulrACA [RHS]mulrACA (beta_cocycle hi hj hl); congr (_ * _).
  by rewrite !(ss_sign SS) ?lt // !sgC_add (ss_cocycle SS).
rewrite /magnetic_factor (ss_sign SS) ?(lin_e LE M) // (ss_e SS) expr0 mul1r.
have en := lin_e LE M.
have := bloch_gauge ce trans k mul en en; rewrite mul_ee c_e !mulr1 mul1r => ->.
rewrite /little_factor_system -(cexp0 ce); apply: (ce_eq ce).
rewrite /factor_phase (ms_e MS) /vdot /=; ring.
Qed.
Lemma magnetic_gauge : sign_gauge n mul e (fun i => c i) nu (fun i j => z i j * little_factor_system E rots trans k i j).
Proof.
split=> //.
- exact: (lin_e LE M).
- exact: c_e.
- exact: c_sign.
by move=> i j hi hj; rewrite /magnetic_factor -mulrA (bloch_gauge ce trans k mul hi hj) mulrCA //.
Qed.
End Bloch.

(** ** A screw axis with time reversal *)
Section Screw.
Variables (C : numClosedFieldType) (E : numpy C) (G : trig C) (L : 'M[C]_3).
Hypotheses (EO : eig_ok E) (GO : trig_ok G) (LO : lattice_ok L).
Variables (r : mat) (w k : vec).
Hypotheses (rr : mmul r r = mid) (r1 : r <> mid) (rd : mdet r = Zpos xH) (rm : preserves_metric L r).
Hypotheses (kr : veq (mtvec r k) k) (k2 : vint (vadd k k)).
Hypotheses (ws : vint (vadd (mvec r w) w)) (kw : ~ qint (vdot k (vadd (mvec r w) w))).
Definition screw_mul (i j : nat) : nat := odd (i + j).
Local Notation rots := [:: mid; r].
Local Notation trans := [:: vzero; w].
Local Notation flags := [:: false; true].
Lemma screw_group : lists_magnetic_group (combine rots flags).
Proof.
have m1 a : mmul mid a = a by exact: mmul_1l.
have m2 a : mmul a mid = a by exact: mmul_1r.
split.
- by repeat constructor; simpl; intuition congruence.
- by left.
- move=> a b ha hb; rewrite /=; case: ha => [<-|[<-|[]]]; case: hb => [<-|[<-|[]]];
    rewrite /mag_mul /= ?m1 ?m2 ?rr; intuition.
move=> a h; exists a; split=> //; move: h => [<-|[<-|[]]]; by rewrite /mag_mul /= ?m1 ?rr.
Qed.
Lemma screw_multiplication : mag_multiplication (combine rots flags) screw_mul 0.
Proof.
have m1 a : mmul mid a = a by exact: mmul_1l.
have m2 a : mmul a mid = a by exact: mmul_1r.
split=> //.
- by move=> [|[|]] // [|[|]].
by move=> [|[|]] // [|[|]] // _ _; rewrite /mag_mul /= ?m1 ?m2 ?rr.
Qed.
Lemma screw_preserves x : In x rots -> preserves_metric L x.
Proof. by have p1 := preserves_id L; move=> [<-|[<-|[]]]. Qed.
Variables (rtol atol : Q) (method : string) (max_num : nat) (R : corep_result C).
Hypotheses (NO : numpy_ok E rtol atol) (A3 : Qle atol (Qmake 1 3)) (small : (2 ^ 2)%:R * qC C atol < 2%:R^-1).
Hypothesis mok : method_ok E [:: mid] method.
Hypothesis res : enumerate_spinor_small_corepresentations E G L rots trans flags k method rtol atol max_num = COk R.
Local Notation cexp := (np_exp E).
Local Notation nu := (magnetic_factor E rots trans k screw_mul (co_factors R)).
Let ce : exp_spec cexp := or_cexp (no_oracles NO).
Lemma screw_lfs i j : (i < 2)%N -> (j < 2)%N -> little_factor_system E rots trans k i j = 1.
Proof.
move=> hi hj; rewrite /little_factor_system -(cexp0 ce); apply: (ce_eq ce); rewrite /factor_phase /residual vdot_sub_l.
have -> : veq (mtvec (List.nth i rots mid) k) k.
  move: i hi => [|[|]] //= _; rewrite /veq /mtvec /=; repeat split; ring.
ring.
Qed.
Lemma screw_refuted : (co_ok R -> (0 < size (co_irreps R))%N) /\
  (forall m, (m < size (co_irreps R))%N -> nth 0 (co_indicators R) m = 1 /\ adim (arr_nth (co_irreps R) m) = 1%N) /\
  forall d (X : nat -> 'M[C]_d), corep 2 screw_mul 0 (fun i => nth false flags i) nu X -> ~~ odd d.
Proof.
have LE : size flags = size rots by []; have sT : size trans = size rots by [].
have LG := screw_group; have M := screw_multiplication; have PM := screw_preserves.
have [z [hz zE]] := corep_factor_system EO GO LO LE PM LG M.
have SS := spin_signs EO GO LO LE PM LG M hz (mu := fun i j => z i j * little_factor_system E rots trans k i j) _.
have {}SS : sign_system 2 screw_mul 0 z (fun i j => z i j * little_factor_system E rots trans k i j).
  by apply: SS => i j hi hj; rewrite screw_lfs // mulr1.
have hs : has id flags by [].
have [a0 [inv_a0 [[a0n aa0] [in0 inv0] [zR _ _ _ ok0] h]]] := corep_inv LE sT LG M hz NO A3 SS mok hs res.
have a01 : a0 = 1%N by move: a0n aa0; case: (a0) => [|[|]].
have z11 : z 1%N 1%N = 1 by rewrite zE // /mag_sign /= (two_sign EO GO LO rr r1 rd rm) expr1 mulN1r opprK.
split=> //; split.
  move=> m hm; have [A' [x [[oA rA uA iA dA] Fx x2 iE mk]]] := h m hm.
  have [h1 h2 h3 h4 h5] := exact_half LE LG M NO SS A3 oA rA uA a0n aa0 iA dA small iE mk.
  have d1 : adim A' = 1%N by move: dA iA.1; case: (adim A') => [|[|]].
  have D0 : aget A' (index 0%N (linear_ops rots flags)) = 1%:M by have [-> _ _] := h1.
  have z01 : z 0%N 1%N = 1.
    by have := ss_cocycle SS (i := 0) (j := 0) (k := 1) erefl erefl erefl; rewrite (ss_sign SS) // (ss_e SS) /=; case: (zi z 0 1).
  have z10 : z 1%N 0%N = 1.
    by have := ss_cocycle SS (i := 1) (j := 0) (k := 0) erefl erefl erefl; rewrite (ss_sign SS) // (ss_e SS) /=; case: (zi z 1 0).
  rewrite Fx -[adim (apply_phases _ _ _ _)]/(adim x.1) h4 d1; rewrite a01 in h3.
  case: h3 => [[-> _] //|[_ [U [_ _]]]|[_ hX]].
    rewrite z11 scale1r D0 => /(congr1 (fun A => \det A)); rewrite det_mulmx det_map_mx /= -scaleN1r detZ det1 mulr1 -normCK [X in (-1) ^+ X]d1 expr1 => h0.
    by have := exprn_ge0 2 (normr_ge0 (\det U)); rewrite h0 oppr_ge0 ler10.
  have [] : 1%:M <> 0 :> 'M[C]_(adim A') by rewrite d1 => /matrixP /(_ 0 0) /eqP; rewrite !mxE oner_eq0.
  apply: hX => u v; rewrite /linear_op; case: u => [|[|]] //; case: v => [|[|]] // _ _ _.
  by rewrite D0 z01 z10 divr1 scale1r map_mx1.
move=> d X [X0 law]; have := law 1%N 1%N erefl erefl; rewrite /corep_at /=.
have -> : screw_mul 1 1 = 0%N by []. 
rewrite X0.
have -> : nu 1%N 1%N = -1.
  rewrite /magnetic_factor zR z11 mul1r /bloch_factor.
  have sE : veq (lattice_shift rots trans screw_mul 1 1) (vadd (mvec r w) w).
    by rewrite /lattice_shift /= /veq /=; repeat split; ring.
  have kE : Qeq (vdot k (lattice_shift rots trans screw_mul 1 1)) (vdot k (vadd (mvec r w) w)) by rewrite sE.
  rewrite (ce_eq ce (b := Qopp (vdot k (vadd (mvec r w) w)))) ?kE //.
  case: (half_sign NO (a := vdot k (vadd (mvec r w) w))) => //.
    by apply: (qint_eq (vdot_twice _ _)); exact: qint_dot.
  move/(ce_int ce) => [q hq]; case: kw; exists (Z.opp q); rewrite inject_Z_opp -hq; ring.
move=> /(congr1 (fun A => \det A)); rewrite det_mulmx det_map_mx /= detZ det1 mulr1.
rewrite -normCK -signr_odd => h0; have := exprn_ge0 2 (normr_ge0 (\det (X 1%N))); rewrite h0.
by case: (odd d) => //; rewrite expr1 oppr_ge0 ler10.
Qed.
End Screw.
