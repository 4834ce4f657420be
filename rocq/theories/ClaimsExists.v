(** Property theorems C59 (the random method, irreps.py:243-405, and the functions which call
    it, irreps.py:60-225): full lists of irreps exist, and for every group and factor system
    all draws in an explicit ball of the open unit square make the method succeed. *)
From Coq Require Import List String QArith Lia.
From mathcomp Require Import all_ssreflect all_algebra all_fingroup algC zify.
From Verif Require Import Py Mat3 MatQ CExpSpec ExpInstance GaugeTheory PurifyTheory GroupModel GroupSpec GroupProofs RepSpec RepModel RepTheory IsoTheory
  IndexRepSpec IndexGroup MultTheory RepProofs RandomModel RandomTheory SpectralTheory SearchTheory PerturbTheory LuckyTheory
  ChainModel ClassSpec ClaimsChain ClaimsRep ClaimsRandom SmallModel SmallSpec SmallTheory ClaimsSmall ClaimsClass AgreeSpec ClaimsAgree.
Import Order.TTheory GRing.Theory Num.Theory.
Set Implicit Arguments.
Unset Strict Implicit.
Unset Printing Implicit Defensive.
Local Open Scope ring_scope.

(** The matrix X lies in the square 1/4 <= Re, Im <= 3/4; Y is within (32 n^2)^-1 of X. *)
Definition inner_square (C : numClosedFieldType) n (X : 'M[C]_n) : Prop := forall i j,
  [/\ 4%:R^-1 <= 'Re (X i j), 'Re (X i j) <= 3%:R / 4%:R, 4%:R^-1 <= 'Im (X i j) & 'Im (X i j) <= 3%:R / 4%:R].
Definition close_to (C : numClosedFieldType) n (X Y : 'M[C]_n) : Prop := forall i j,
  `|Y i j - X i j| <= (32 * n ^ 2)%:R^-1.

Section Regular.
Variables (C : numClosedFieldType) (n : nat) (e : nat) (mu : nat -> nat -> C) (t : seq (seq nat)).
Hypotheses (G : group_law n (tget t) e) (fs : ifactor_system n (tget t) e mu).
Let ms := regular_mats t mu n.
Lemma regular_facts : [/\ iprojrep n (tget t) e mu (nth 0 ms), iunitary n (nth 0 ms),
  forall i, (i < n)%N -> \tr (nth 0 ms i) = if i == e :> nat then n%:R else 0 &
  forall m i, (m < n)%N -> \sum_j `|nth 0 ms m i j| = 1].
Proof.
have mu1 j : (j < n)%N -> mu e j = 1.
  by move=> jl; have [x <-] := ival_surj G jl; have := mu1x (ifs_fs G fs) x; rewrite /imu ival1.
split.
- have rep := proj2 (reg_rep_iff G mu) (ifs_cocycle fs); split; last exact: rep.
  have en := e_lt G.
  apply/matrixP => i j; rewrite -/(aget (Arr ms) e) (@regE C n t mu e i j) // (mul1 G (ltn_ord j)).1 mxE.
  rewrite -[(_ == _ :> nat)%B]/(i == j)%B; case: eqP => // _; exact: (mu1 _ (ltn_ord j)).
- exact: (proj2 (reg_unitary_iff G mu) (ifs_norm fs)).
- exact: (reg_char G mu1).
move=> m i ml; have [m' [ml' h1 h2]] := mul_inv G ml.
have jl := mul_lt G ml' (ltn_ord i).
rewrite (bigD1 (Ordinal jl)) //= big1 => [|k kj]; rewrite -/(aget (Arr ms) m) regE //=.
  by rewrite (mulA G) // h1 (mul1 G (ltn_ord i)).1 eqxx addr0 (ifs_norm fs).
case: eqP => [E|_]; last by rewrite normr0.
case/eqP: kj; apply: val_inj => /=.
by have := mulA G ml' ml (ltn_ord k); rewrite h2 (mul1 G (ltn_ord k)).1 => <-; congr (tget t m' _).
Qed.
End Regular.

(* ---------- C59 ---------- *)
(** Every finite group with every factor system has a full list of irreducible unitary
    representations, as many as classes of regular elements. *)
Theorem C59_irreps_exist : forall (C : numClosedFieldType) n mul e (mu : nat -> nat -> C),
  group_law n mul e -> ifactor_system n mul e mu ->
  exists N (dim : nat -> nat) (D : forall k, nat -> 'M[C]_(dim k)), complete_irreps n mul e mu N D /\
    forall reps, class_representatives n mul (mu_regular n mul mu) reps -> N = size reps.
Proof.
move=> C n mul e mu G fs.
pose t : seq (seq nat) := [seq [seq mul i j | j <- iota 0 n] | i <- iota 0 n].
have tE i j : (i < n)%N -> (j < n)%N -> mul i j = tget t i j.
  have nE T (d : T) l m : List.nth m l d = nth d l m by elim: l m => [|x l IH] [|m] //=.
  by move=> hi hj; rewrite /tget /t !nE (nth_map 0%N) ?size_iota // (nth_map 0%N) ?size_iota // !nth_iota.
have G' : group_law n (tget t) e by apply: (group_law_ext (mul := mul)) => // i j hi hj; rewrite tE.
have fs' : ifactor_system n (tget t) e mu := fs_ext tE fs.
have [p u tr _] := regular_facts G' fs'.
have [As cA] := irreps_of_regular G' fs' p u tr.
have cA' : complete_irreps n mul e mu (size As) (fun k => aget (nth (@Arr C 0 [::]) As k)).
  by apply: complete_ext cA => i j hi hj; rewrite tE.
exists (size As), (fun k => adim (nth (@Arr C 0 [::]) As k)), (fun k => aget (nth (@Arr C 0 [::]) As k)); split=> // reps.
exact: (C57_number_of_irreps G cA').
Qed.
Print Assumptions C59_irreps_exist.

(** The random method, for every group and factor system: there is a matrix X0 in the inner
    square such that, whatever NumPy's eigenvectors, the function succeeds as soon as one of
    its draws is close to X0. *)
Theorem C59_random_succeeds : forall (C : numClosedFieldType) n e (mu : nat -> nat -> C) t,
  group_law n (tget t) e -> ifactor_system n (tget t) e mu ->
  exists X0 : 'M[C]_n, inner_square X0 /\
    forall around eigh qr_q hrnd key_le rtol mx trial,
    numerics around eigh qr_q rtol -> (10 ^ 8)%:R^-1 + rtol * (n ^ 2 + n)%:R < 4%:R^-1 ->
    (trial < mx)%N -> close_to X0 (hrnd trial n) ->
    exists As, enumerate_unitary_irreps_from_regular_representation around eigh qr_q hrnd key_le rtol (regular_mats t mu n) mx = Ret (As, true).
Proof.
move=> C n e mu t G fs; have [p u tr row] := regular_facts G fs.
set ms := regular_mats t mu n in p u tr row *.
have [Ps [rP aP]] := resolution_eig G fs p u (av_herm n ms (J_herm C n)) (av_comm G fs p u (const_mx 1)).
have n0 : (0 < n)%N by have := ig_e G; case: (n).
have [As cA] := irreps_of_regular G fs p u tr.
have row1 m i : (m < n)%N -> \sum_j `|nth (0 : 'M[C]_n) ms m i j| <= 1%:R by move=> ml; rewrite row.
exists (lucky n ms Ps); split; first by move=> i j; apply: (lucky_box n0 rP).
move=> around eigh qr_q hrnd key_le rtol mx trial O tol tl near.
apply: (@C25_random_succeeds C around eigh qr_q hrnd key_le rtol O n (tget t) e mu G fs t mx trial) => //.
  apply: (@lt_le_trans _ _ 4%:R^-1).
    apply: le_lt_trans tol; rewrite ler_add2l ler_wpmul2l ?(nu_rtol O) // ler_nat leq_addl //.
  apply: (@le_trans _ _ 1); first by rewrite invf_le1 ?ltr0n ?ler1n.
  by rewrite ler1n; have := ig_e G; case: (n).
rewrite -/ms -/(av n ms _); apply: (@lucky_separating C n (tget t) e G mu fs n ms p u _ _ _ cA 1 isT n0 row1 Ps rP aP rtol (hrnd trial n) (nu_rtol O)) => [|i j]; last by rewrite muln1; exact: near.
rewrite exp1n !muln1 (_ : n%:R / (2 * n)%:R / 2%:R = 4%:R^-1); first by rewrite mulnn.
by rewrite (@inv_nat C 2 (2 * n) n) ?muln_gt0 // ?[(2 * n)%N]mulnC // -invfM -natrM.
Qed.
Print Assumptions C59_random_succeeds.

(** decompose_representation, for every multiplicity-free unitary representation (for the
    others it always fails, C52): all draws close to some X0 in the inner square make it
    succeed. *)
Theorem C59_decompose_succeeds : forall (C : numClosedFieldType) n mul e (mu : nat -> nat -> C) N (ms : seq 'M[C]_N),
  group_law n mul e -> ifactor_system n mul e mu -> size ms = n -> (0 < N)%N ->
  iprojrep n mul e mu (nth 0 ms) -> iunitary n (nth 0 ms) ->
  (forall d (B : nat -> 'M[C]_d), iprojrep n mul e mu B -> iunitary n B -> iirreducible n B ->
     icip n B (nth 0 ms) = 0 \/ icip n B (nth 0 ms) = n%:R) ->
  exists X0 : 'M[C]_N, inner_square X0 /\
    forall around eigh qr_q (hrnd : nat -> forall n, 'M[C]_n) key_le rtol mx trial,
    numerics around eigh qr_q rtol -> (10 ^ 8)%:R^-1 + rtol * (n * N ^ 3 + n)%:R < n%:R / (4 * N)%:R ->
    (trial < mx)%N -> (forall i j, `|hrnd trial N i j - X0 i j| <= (32 * N ^ 4)%:R^-1) ->
    exists As, decompose_representation around eigh qr_q hrnd key_le rtol (Arr ms) mx = (As, true).
Proof.
move=> C n mul e mu N ms G fs sz N0 p u free.
have n0 : (0 < n)%N by have := ig_e G; case: (n).
have [K [dim [D [cA _]]]] := C59_irreps_exist G fs.
have row m i : (m < n)%N -> \sum_j `|nth (0 : 'M[C]_N) ms m i j| <= N%:R.
  move=> ml; rewrite -[X in X%:R]card_ord -sumr_const; apply: ler_sum => j _.
  have := congr1 (fun Z : 'M[C]_N => Z i i) (u m ml); rewrite !mxE eqxx mulr1n => h.
  rewrite -(@ler_pexpn2r _ 2) ?nnegrE ?ler01 // expr1n -h (bigD1 j) //= adjE -normCK ler_addl sumr_ge0 // => l _.
  by rewrite adjE mul_conjC_ge0.
have [Ps [rP aP]] := resolution_eig G fs p u (av_herm n ms (J_herm C N)) (av_comm G fs p u (const_mx 1)).
exists (lucky n ms Ps)^T; split; first by move=> i j; rewrite mxE; apply: (lucky_box N0 rP).
move=> around eigh qr_q hrnd key_le rtol mx trial O tol tl near.
apply: (@C52_decompose_succeeds C around eigh qr_q hrnd key_le rtol O n mul e mu G fs N ms mx trial) => //.
  apply: le_lt_trans (lt_le_trans tol _).
    by rewrite ler_add2l ler_wpmul2l ?(nu_rtol O) // ler_nat leq_addl.
  by rewrite ler_pdivr_mulr ?ltr0n ?muln_gt0 // ler_pmulr ?ltr0n // ler1n muln_gt0.
have -> : \sum_(M <- ms) M *m (hrnd trial N + adj (hrnd trial N)) *m adj M = av n ms ((hrnd trial N)^T + adj (hrnd trial N)^T)^T.
  rewrite /av (big_nth 0) sz big_mkord; apply: eq_bigr => m _; congr (_ *m _ *m _).
  by apply/matrixP => i j; rewrite !mxE.
apply: (lucky_separating G fs p u cA N0 N0 row rP aP (nu_rtol O)) => [|i j]; last first.
  by have := near j i; rewrite !mxE mulnn -expnM.
rewrite (_ : (N * (n * N ^ 2))%N = (n * N ^ 3)%N); last by rewrite mulnCA -expnS.
by rewrite -mulrA -invfM -natrM (_ : (2 * N * 2 = 4 * N)%N) // mulnAC.
Qed.
Print Assumptions C59_decompose_succeeds.

(** irreps.py:176-202 for the random method. *)
Lemma raw_random (C : numClosedFieldType) rots mul e (mu : nat -> nat -> C) :
  lists_group rots -> multiplication rots mul e -> ifactor_system (size rots) mul e mu ->
  exists X0 : 'M[C]_(size rots), inner_square X0 /\
    forall (E : numpy C) rtol atol mx trial, numpy_ok E rtol atol ->
    (10 ^ 8)%:R^-1 + qC C rtol * (size rots ^ 2 + size rots)%:R < 4%:R^-1 ->
    (trial < mx)%N -> close_to X0 (np_hrnd E trial (size rots)) ->
    exists As, raw_irreps E "random" rots mu rtol atol mx = COk (As, true).
Proof.
move=> LG M fs; have [t ht] := cayley_rot_total rots (lg_mul _ LG).
have Gt := mult_group_law_t LG M ht; have Et := mult_table LG M ht.
have fst : ifactor_system (size rots) (tget t) e mu.
  by apply: fs_ext fs => i j hi hj; rewrite Et.
have [X0 [sq h]] := C59_random_succeeds Gt fst; exists X0; split=> // E rtol atol mx trial NO tol tl near.
have [As hA] := h _ _ _ _ (np_key_le E) _ mx trial (no_numerics NO) tol tl near.
by exists As; rewrite /raw_irreps /= /get_projective_regular_representation ht /= hA.
Qed.

(** Point groups and, more generally, real factor systems, through the function which
    computes the irreps: the call returns a full list. *)
Theorem C59_random_real_factor_system : forall (C : numClosedFieldType) rots mul e (mu : nat -> nat -> C),
  lists_group rots -> multiplication rots mul e -> ifactor_system (size rots) mul e mu ->
  (forall i j, (i < size rots)%N -> (j < size rots)%N -> mu i j \is Num.real) ->
  exists X0 : 'M[C]_(size rots), inner_square X0 /\
    forall (E : numpy C) rtol atol mx trial, numpy_ok E rtol atol -> Qle atol (Qmake 1 3) ->
    (size rots)%:R * (2%:R * qC C atol + qC C atol ^+ 2) < 2%:R^-1 ->
    (10 ^ 8)%:R^-1 + qC C rtol * (size rots ^ 2 + size rots)%:R < 4%:R^-1 ->
    (trial < mx)%N -> close_to X0 (np_hrnd E trial (size rots)) ->
    exists L L' inds, [/\ enumerate_unitary_irreps E rots mu false "random" rtol atol mx = COk (L, inds, true),
      complete_list rots mul e mu L' & near_list (qC C atol) L L'].
Proof.
move=> C rots mul e mu LG M fs mr; have [X0 [sq h]] := raw_random LG M fs; exists X0; split=> // E rtol atol mx trial NO A3 sm tol tl near.
have [As hA] := h E rtol atol mx trial NO tol tl near.
have mok : method_ok E rots "random" by right.
case: (C51_real_factor_system mx NO A3 sm LG M fs mr mok) => [[_ []]//|[]|[L [L' [inds [hf cl nr _ _]]]]]; last by exists L, L', inds.
by rewrite /enumerate_unitary_irreps hA /=; case: cmap.
Qed.
Print Assumptions C59_random_real_factor_system.

Theorem C59_random_pointgroup : forall (C : numClosedFieldType) rots mul e,
  lists_group rots -> multiplication rots mul e ->
  exists X0 : 'M[C]_(size rots), inner_square X0 /\
    forall (E : numpy C) rtol atol mx trial, numpy_ok E rtol atol -> Qle atol (Qmake 1 3) ->
    (size rots)%:R * (2%:R * qC C atol + qC C atol ^+ 2) < 2%:R^-1 ->
    (10 ^ 8)%:R^-1 + qC C rtol * (size rots ^ 2 + size rots)%:R < 4%:R^-1 ->
    (trial < mx)%N -> close_to X0 (np_hrnd E trial (size rots)) ->
    exists L L', [/\ get_crystallographic_pointgroup_irreps_from_symmetry E rots false "random" rtol atol mx = COk (L, true),
      complete_list rots mul e (fun _ _ => 1) L' & near_list (qC C atol) L L'].
Proof.
move=> C rots mul e LG M; have fs : ifactor_system (size rots) mul e (fun _ _ => 1 : C) by split=> *; rewrite ?normr1.
have [|X0 [sq h]] := C59_random_real_factor_system LG M fs; first by move=> i j _ _; exact: rpred1.
exists X0; split=> // E rtol atol mx trial NO A3 sm tol tl near.
have [L [L' [inds [hf cl nr]]]] := h E rtol atol mx trial NO A3 sm tol tl near.
by exists L, L'; rewrite /get_crystallographic_pointgroup_irreps_from_symmetry hf.
Qed.
Print Assumptions C59_random_pointgroup.

(** Little groups whose translations are all zero. *)
Theorem C59_random_symmorphic : forall (C : numClosedFieldType) rots trans k mul e,
  lists_space_group rots trans -> (forall r, List.In r rots -> fixes_kpoint k r) ->
  multiplication rots mul e -> (forall i, veq (List.nth i trans vzero) vzero) ->
  exists X0 : 'M[C]_(size rots), inner_square X0 /\
    forall (E : numpy C) rtol atol mx trial, numpy_ok E rtol atol -> Qeq atol (inject_Z Z0) ->
    (10 ^ 8)%:R^-1 + qC C rtol * (size rots ^ 2 + size rots)%:R < 4%:R^-1 ->
    (trial < mx)%N -> close_to X0 (np_hrnd E trial (size rots)) ->
    exists L, returns_irreps E rots trans k mul e "random" rtol atol mx L.
Proof.
move=> C rots trans k mul e SG FK M W0; have LG := sg_rots _ _ SG.
have fs : ifactor_system (size rots) mul e (fun _ _ => 1 : C) by split=> *; rewrite ?normr1.
have [X0 [sq h]] := raw_random LG M fs; exists X0; split=> // E rtol atol mx trial NO A0 tol tl near.
have [As hA] := h E rtol atol mx trial NO tol tl near.
apply: (symmorphic_returned NO A0 SG FK M _ W0) => // [|_]; first by right.
have ce := or_cexp (no_oracles NO).
have mu1 i j : little_factor_system E rots trans k i j = 1.
  by rewrite -(cexp0 ce); apply: (ce_eq ce); rewrite /factor_phase (W0 j) /vdot /=; ring.
exists As; rewrite -hA /raw_irreps /=; rewrite /get_projective_regular_representation.
case: get_cayley_table => //= t.
have -> : regular_mats t (little_factor_system E rots trans k) (size rots) = regular_mats t (fun _ _ => 1) (size rots) :> seq 'M[C]_(size rots); last by [].
apply: (@eq_from_nth _ 0); first by rewrite !size_map.
move=> m; rewrite size_map size_iota => m2; apply/matrixP => i j.
rewrite -[LHS]/(aget (Arr (regular_mats t (little_factor_system E rots trans k) (size rots))) m i j).
by rewrite -[RHS]/(aget (Arr (regular_mats t (fun _ _ => 1) (size rots))) m i j) !regE // mu1.
Qed.
Print Assumptions C59_random_symmorphic.

(* ---------- Concrete cases ---------- *)
Lemma tolerance (C : numClosedFieldType) (p q m b : nat) : (q <= p)%N -> (m <= b)%N -> (4 * b.+1 < q)%N ->
  (p%:R : C)^-1 + q%:R^-1 * m%:R < 4%:R^-1.
Proof.
move=> qp mb bq; have q0 : (0 < q)%N by apply: leq_ltn_trans bq.
apply: (@le_lt_trans _ _ (b.+1%:R / q%:R)).
  rewrite -add1n natrD mulrDl mul1r ler_add //.
    by rewrite lef_pinv ?posrE ?ltr0n ?(leq_trans q0 qp) // ler_nat.
  by rewrite [_ / q%:R]mulrC ler_wpmul2l ?invr_ge0 ?ler0n // ler_nat.
by rewrite ltr_pdivr_mulr ?ltr0n // -ltr_pdivr_mull ?invr_gt0 ?ltr0n // invrK -natrM ltr_nat.
Qed.
(** The code's default rtol (1e-5) meets the condition on the tolerance for every group with
    at most 48 elements, the largest order of a crystallographic point group. *)
Example C59_default_tolerance : forall (C : numClosedFieldType) n, (n <= 48)%N ->
  (10 ^ 8)%:R^-1 + qC C (Qmake 1 100000) * (n ^ 2 + n)%:R < 4%:R^-1.
Proof.
move=> C n hn; rewrite qC_inv; set q := Pos.to_nat 100000.
have le : (n ^ 2 + n <= 2352)%N by nia.
have q1 : (4 * 2353 < q)%N by apply/ssrnat.ltP; rewrite /q; lia.
have q2 : (q <= 10 ^ 8)%N.
  apply: (@leq_trans (10 ^ 5)); last by rewrite leq_exp2l.
  by rewrite /q (_ : 100000%positive = (10 * (10 * (10 * (10 * 10))))%positive).
exact: (tolerance C q2 le q1).
Qed.
(** The conditions are met by a draw equal to X0. *)
Example C59_hypotheses_met : exists X0 : 'M[algCF]_2, inner_square X0 /\ exists E : numpy algCF,
  [/\ numpy_ok E (inject_Z Z0) (inject_Z Z0), close_to X0 (np_hrnd E 0 2),
     (10 ^ 8)%:R^-1 + qC algCF (inject_Z Z0) * (2 ^ 2 + 2)%:R < 4%:R^-1 &
     exists L, returns_irreps E inv_rots inv_trans (inv_k 1) (tget ex_z2) 0 "random" (inject_Z Z0) (inject_Z Z0) 1 L].
Proof.
have [SG FK M sp W0] := inv_facts 1.
have [X0 [sq h]] := @C59_random_symmorphic algCF _ _ _ _ _ SG FK M W0; exists X0; split=> //.
pose hr (t : nat) (d : nat) : 'M[algCF]_d := \matrix_(i, j) (if (i < 2)%N && (j < 2)%N then X0 (inord i) (inord j) else 0).
pose E : numpy algCF := {| np_around := np_around inv_numpy; np_powinv := np_powinv inv_numpy; np_nroot := np_nroot inv_numpy; np_rnd := np_rnd inv_numpy;
     np_exp := np_exp inv_numpy; np_eigh := np_eigh inv_numpy; np_qr := np_qr inv_numpy; np_hrnd := hr;
     np_key_le := np_key_le inv_numpy; np_int := np_int inv_numpy; np_eig := np_eig inv_numpy;
     spglib_pointgroup := spglib_pointgroup inv_numpy |}.
have NO : numpy_ok E (inject_Z Z0) (inject_Z Z0) by have [h1 h2 h3] := inv_numpy_ok; split.
have near : close_to X0 (np_hrnd E 0 2).
  by move=> i j; rewrite /= mxE !ltn_ord /= !inord_val subrr normr0 invr_ge0 ler0n.
have tol : (10 ^ 8)%:R^-1 + qC algCF (inject_Z Z0) * (2 ^ 2 + 2)%:R < 4%:R^-1.
  by rewrite qC0 mul0r addr0 ltf_pinv ?posrE ?ltr0n // ltr_nat.
exists E; split=> //; exact: (h E _ _ 1%N 0%N NO (Qeq_refl _) tol isT near).
Qed.
Print Assumptions C59_hypotheses_met.

(** The regular representation of the cyclic group of order two meets the hypotheses of
    C59_decompose_succeeds. *)
Example C59_decompose_on_z2 : forall (C : numClosedFieldType) key_le mx, (0 < mx)%N ->
  exists X0 : 'M[C]_2, inner_square X0 /\ exists (hrnd : nat -> forall n, 'M[C]_n) As, hrnd 0%N 2%N = X0 /\
    decompose_representation id (@ex_eigh C) (fun _ _ A => A) hrnd key_le 0 (Arr (regular_mats ex_z2 (@ex_one C) 2)) mx = (As, true).
Proof.
move=> C key_le mx mx0; have G := ex_z2_group; have fs := @ex_one_fs C 2 (tget ex_z2) 0.
have [p u tr _] := regular_facts G fs.
have [|X0 [sq h]] := C59_decompose_succeeds G fs (ms := regular_mats ex_z2 (@ex_one C) 2) erefl isT p u.
  move=> d B pB uB iB; have nB := irreducible_norm1 (ifs_fs G fs) (proj1 (iprojrepE G _ _) pB) (proj1 (iunitaryE G _) uB) (proj1 (iirreducibleE G _) iB).
  have {}nB : icip 2 B B = 2%:R by rewrite (icipE G) nB cardsT ival_card.
  have B1 : B 0%N = 1%:M by case: pB.
  have c0 : icip 2 B (nth 0 (regular_mats ex_z2 (@ex_one C) 2)) = (d * 2)%:R.
    by rewrite /icip !big_ord_recl big_ord0 !tr //= mulr0 !addr0 B1 mxtrace1 conjC_nat -natrM.
  have d2 : (d ^ 2 <= 2)%N.
    rewrite -(ler_nat C) -nB /icip !big_ord_recl big_ord0 addr0 /= B1 mxtrace1 conjC_nat -natrM mulnn ler_addl.
    by rewrite mulrC mul_conjC_ge0.
  have {d2} : (d < 2)%N by rewrite ltnNge; apply/negP => h; have := leq_trans (leq_mul h h) d2.
  by rewrite {}c0; case: d {B1 nB B pB uB iB} => [|[|d]] // _; [left|right].
exists X0; split=> //.
pose hr (t n : nat) : 'M[C]_n := \matrix_(i, j) (if (i < 2)%N && (j < 2)%N then X0 (inord i) (inord j) else 0).
exists hr; have E : hr 0%N 2%N = X0 by apply/matrixP => i j; rewrite mxE !ltn_ord /= !inord_val.
have [|i j|As hA] := h _ _ _ hr key_le _ mx 0%N (C25_numerics_exist C) _ mx0 _.
- by rewrite mul0r addr0 (_ : (4 * 2 = 2 * 4)%N) // natrM invfM mulrA divff ?pnatr_eq0 // mul1r ltf_pinv ?posrE ?ltr0n // ltr_nat.
- by rewrite E subrr normr0 invr_ge0 ler0n.
- by exists As.
Qed.
Print Assumptions C59_decompose_on_z2.
