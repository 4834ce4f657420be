(** Property theorems C65: the small co-representations of magnetic little groups (corep.py:78-242,
    core.py:463-593 with time reversals). *)
From Coq Require Import QArith ZArith List Lia String Permutation.
From mathcomp Require Import all_ssreflect all_algebra.
From mathcomp Require Import algC.
From Verif Require Import Py Mat3 MatQ GroupModel GroupSpec GroupProofs RepSpec RepModel
  IndexRepSpec CExpSpec ChainModel SmallModel SmallSpec SmallTheory SpinorModel SpinorSpec SpinorProofs
  CorepModel CorepSpec CorepProofs CorepBridge CorepPipeline CorepOutcome CorepCover CorepFull CorepGeneral CorepTwo CorepBloch
  RobustTheory DimTheory SmallExamples SpinorExamples ClaimsChain ClaimsSmall ClaimsSpinor ClaimsCorep ClaimsCorep2 ClaimsRobust ClaimsCorep3 ClaimsCorep4.
Import Order.TTheory GRing.Theory Num.Theory.
Set Implicit Arguments.
Unset Strict Implicit.
Unset Printing Implicit Defensive.
Local Open Scope ring_scope.
Delimit Scope Z_scope with coqZ.

(* ---------- C65 ---------- *)
(** Where 2k and 2k.w are integral for every operation (as at k = 0) the returned matrices have
    the properties of C37, C62, C63 and C64 with the factor system of the small
    co-representations at k: the spin factor times exp(-2 pi i k.t) for the lattice translation
    t left over by a product. *)
Theorem C65_unitary_half : forall (C : numClosedFieldType) (E : numpy C) (G : trig C) L rots trans flags k mul e rtol atol method max_num r,
  numpy_ok E rtol atol -> Qle atol (Qmake 1 3) ->
  eig_ok E -> trig_ok G -> lattice_ok L -> magnetic_small L rots trans flags k mul e ->
  method_ok E (unitary_rots rots flags) method ->
  enumerate_spinor_small_corepresentations E G L rots trans flags k method rtol atol max_num = COk r ->
  let n := size rots in let anti i := nth false flags i in let nu := magnetic_factor E rots trans k mul (co_factors r) in
  (co_ok r -> (0 < size (co_irreps r))%N) /\
  exists a0, [/\ (a0 < n)%N, anti a0 & forall m, (m < size (co_irreps r))%N -> let F := arr_nth (co_irreps r) m in
    [/\ aorder F = n /\ aget F e = 1%:M,
        exists2 D, linear_rep n mul e anti nu D & forall u, linear_op n anti u -> forall i j, `|aget F u i j - D u i j| <= qC C atol,
        forall u, linear_op n anti u -> aget F (mul a0 u) = nu a0 u *: (aget F a0 *m aget F u) &
        forall u, linear_op n anti u ->
          corep_at mul anti nu (aget F) a0 u <-> aget F a0 *m map_mx conjC (aget F u) = aget F a0 *m aget F u]].
Proof.
move=> C E G L rots trans flags k mul e rtol atol method max_num r NO A3 EO GO LO MS mok res n anti nu.
have [Z [hz _]] := corep_factor_system EO GO LO (ms_flags MS) (ms_metric MS) (ms_group MS) (ms_mul MS).
rewrite -(linear_unitary (ms_flags MS)) in mok.
have NS := magnetic_signs NO EO GO LO MS hz; have SG := magnetic_gauge NO MS Z.
have [zE st] := gen_structure (ms_flags MS) (ms_trans MS) (ms_group MS) (ms_mul MS) NO A3 hz NS SG mok (ms_some MS) res.
by rewrite /nu zE.
Qed.
Print Assumptions C65_unitary_half.

(** The indicators. *)
Theorem C65_indicators : forall (C : numClosedFieldType) (E : numpy C) (G : trig C) L rots trans flags k mul e rtol atol method max_num r,
  numpy_ok E rtol atol -> Qle atol (Qmake 1 3) -> (size rots ^ 2)%:R * qC C atol < 2%:R^-1 ->
  eig_ok E -> trig_ok G -> lattice_ok L -> magnetic_small L rots trans flags k mul e ->
  method_ok E (unitary_rots rots flags) method ->
  enumerate_spinor_small_corepresentations E G L rots trans flags k method rtol atol max_num = COk r ->
  let n := size rots in let anti i := nth false flags i in let nu := magnetic_factor E rots trans k mul (co_factors r) in
  size (co_indicators r) = size (co_irreps r) /\
  exists a0, [/\ (a0 < n)%N, anti a0 & forall m, (m < size (co_irreps r))%N ->
    let F := arr_nth (co_irreps r) m in let ind := nth 0 (co_indicators r) m in
    exists d (D : nat -> 'M[C]_d), [/\ linear_rep n mul e anti nu D, linear_irreducible n anti D,
      corep_kind n mul anti nu a0 D ind, adim F = (if ind == 1 then d else d + d)%N &
      forall u (i j : 'I_d) (i' j' : 'I_(adim F)), linear_op n anti u -> i = i' :> nat -> j = j' :> nat ->
        `|aget F u i' j' - D u i j| <= qC C atol]].
Proof.
move=> C E G L rots trans flags k mul e rtol atol method max_num r NO A3 small EO GO LO MS mok res n anti nu.
have [Z [hz _]] := corep_factor_system EO GO LO (ms_flags MS) (ms_metric MS) (ms_group MS) (ms_mul MS).
rewrite -(linear_unitary (ms_flags MS)) in mok.
have NS := magnetic_signs NO EO GO LO MS hz; have SG := magnetic_gauge NO MS Z.
have [zE st] := gen_structure (ms_flags MS) (ms_trans MS) (ms_group MS) (ms_mul MS) NO A3 hz NS SG mok (ms_some MS) res.
rewrite /nu zE; exact: (gen_indicators (ms_flags MS) (ms_trans MS) (ms_group MS) (ms_mul MS) NO A3 hz NS SG mok (ms_some MS) res small).
Qed.
Print Assumptions C65_indicators.

(** In exact arithmetic the law holds exactly when the unitary half is real and, for the
    indicator -1, consists of two equal blocks. *)
Theorem C65_law_iff_real : forall (C : numClosedFieldType) (E : numpy C) (G : trig C) L rots trans flags k mul e rtol atol method max_num r,
  numpy_ok E rtol atol -> Qeq atol (inject_Z 0) ->
  eig_ok E -> trig_ok G -> lattice_ok L -> magnetic_small L rots trans flags k mul e ->
  method_ok E (unitary_rots rots flags) method ->
  enumerate_spinor_small_corepresentations E G L rots trans flags k method rtol atol max_num = COk r -> co_ok r ->
  let n := size rots in let anti i := nth false flags i in let nu := magnetic_factor E rots trans k mul (co_factors r) in
  forall m, (m < size (co_irreps r))%N -> let F := arr_nth (co_irreps r) m in
    corep n mul e anti nu (aget F) <->
    forall u, linear_op n anti u -> map_mx conjC (aget F u) = aget F u /\
      (nth 0 (co_indicators r) m = -1 -> double_block (aget F u)).
Proof.
move=> C E G L rots trans flags k mul e rtol atol method max_num r NO A0 EO GO LO MS mok res ok n anti nu m hm F.
have A3 : Qle atol (Qmake 1 3) by rewrite A0.
have eps0 : qC C atol = 0 by rewrite (qC_eq C A0) qC0.
have [Z [hz _]] := corep_factor_system EO GO LO (ms_flags MS) (ms_metric MS) (ms_group MS) (ms_mul MS).
rewrite -(linear_unitary (ms_flags MS)) in mok.
have NS := magnetic_signs NO EO GO LO MS hz; have SG := magnetic_gauge NO MS Z.
have [zE st] := gen_structure (ms_flags MS) (ms_trans MS) (ms_group MS) (ms_mul MS) NO A3 hz NS SG mok (ms_some MS) res.
rewrite /nu zE; exact: (gen_law_iff_real (ms_flags MS) (ms_trans MS) (ms_group MS) (ms_mul MS) NO A3 hz NS SG mok (ms_some MS) res eps0 ok hm).
Qed.
Print Assumptions C65_law_iff_real.

(** Every irreducible representation of the unitary half, up to the conjugation, once. *)
Theorem C65_each_pair_once : forall (C : numClosedFieldType) (E : numpy C) (G : trig C) L rots trans flags k mul e rtol atol method max_num r,
  numpy_ok E rtol atol -> rounds (np_around E) -> Qle atol (Qmake 1 3) -> (size rots ^ 2)%:R * qC C atol < 2%:R^-1 ->
  eig_ok E -> trig_ok G -> lattice_ok L -> magnetic_small L rots trans flags k mul e ->
  method_ok E (unitary_rots rots flags) method ->
  enumerate_spinor_small_corepresentations E G L rots trans flags k method rtol atol max_num = COk r -> co_ok r ->
  let n := size rots in let anti i := nth false flags i in let nu := magnetic_factor E rots trans k mul (co_factors r) in
  let N := size (co_irreps r) in
  exists a0, [/\ (a0 < n)%N, anti a0 & exists (dim : nat -> nat) (D : forall m, nat -> 'M[C]_(dim m)),
    (forall m, (m < N)%N -> let F := arr_nth (co_irreps r) m in let ind := nth 0 (co_indicators r) m in
      [/\ linear_rep n mul e anti nu (D m), linear_irreducible n anti (D m), corep_kind n mul anti nu a0 (D m) ind,
          adim F = (if ind == 1 then dim m else dim m + dim m)%N &
          forall u (i j : 'I_(dim m)) (i' j' : 'I_(adim F)), linear_op n anti u -> i = i' :> nat -> j = j' :> nat ->
            `|aget F u i' j' - D m u i j| <= qC C atol]) /\
    forall d (X : nat -> 'M[C]_d), linear_rep n mul e anti nu X -> linear_irreducible n anti X ->
      exists m, (m < N)%N /\ forall m', (m' < N)%N ->
        (linear_equivalent n anti X (D m') \/ conj_equivalent n mul anti nu a0 X (D m')) <-> m' = m].
Proof.
move=> C E G L rots trans flags k mul e rtol atol method max_num r NO RO A3 small EO GO LO MS mok res ok n anti nu N.
have [Z [hz _]] := corep_factor_system EO GO LO (ms_flags MS) (ms_metric MS) (ms_group MS) (ms_mul MS).
rewrite -(linear_unitary (ms_flags MS)) in mok.
have NS := magnetic_signs NO EO GO LO MS hz; have SG := magnetic_gauge NO MS Z.
have [zE st] := gen_structure (ms_flags MS) (ms_trans MS) (ms_group MS) (ms_mul MS) NO A3 hz NS SG mok (ms_some MS) res.
rewrite /nu zE; exact: (gen_pairs (ms_flags MS) (ms_trans MS) (ms_group MS) (ms_mul MS) NO A3 hz NS SG mok (ms_some MS) res RO ok small).
Qed.
Print Assumptions C65_each_pair_once.

(** In exact arithmetic: irreducible, and every irreducible co-representation once. *)
Theorem C65_irreducible : forall (C : numClosedFieldType) (E : numpy C) (G : trig C) L rots trans flags k mul e rtol atol method max_num r,
  numpy_ok E rtol atol -> rounds (np_around E) -> Qeq atol (inject_Z 0) ->
  eig_ok E -> trig_ok G -> lattice_ok L -> magnetic_small L rots trans flags k mul e ->
  method_ok E (unitary_rots rots flags) method ->
  enumerate_spinor_small_corepresentations E G L rots trans flags k method rtol atol max_num = COk r -> co_ok r ->
  let n := size rots in let anti i := nth false flags i in let nu := magnetic_factor E rots trans k mul (co_factors r) in
  let N := size (co_irreps r) in let F m := arr_nth (co_irreps r) m in
  (forall m, (m < N)%N -> corep n mul e anti nu (aget (F m)) -> corep_irreducible n anti (aget (F m))) /\
  forall d (X : nat -> 'M[C]_d), corep n mul e anti nu X -> corep_irreducible n anti X ->
    exists m, (m < N)%N /\ forall m', (m' < N)%N -> corep n mul e anti nu (aget (F m')) ->
      corep_equivalent n anti X (aget (F m')) <-> m' = m.
Proof.
move=> C E G L rots trans flags k mul e rtol atol method max_num r NO RO A0 EO GO LO MS mok res ok n anti nu N F.
have A3 : Qle atol (Qmake 1 3) by rewrite A0.
have eps0 : qC C atol = 0 by rewrite (qC_eq C A0) qC0.
have [Z [hz _]] := corep_factor_system EO GO LO (ms_flags MS) (ms_metric MS) (ms_group MS) (ms_mul MS).
rewrite -(linear_unitary (ms_flags MS)) in mok.
have NS := magnetic_signs NO EO GO LO MS hz; have SG := magnetic_gauge NO MS Z.
have [zE st] := gen_structure (ms_flags MS) (ms_trans MS) (ms_group MS) (ms_mul MS) NO A3 hz NS SG mok (ms_some MS) res.
rewrite /nu zE; exact: (gen_irreducible (ms_flags MS) (ms_trans MS) (ms_group MS) (ms_mul MS) NO A3 hz NS SG mok (ms_some MS) res RO ok eps0).
Qed.
Print Assumptions C65_irreducible.

(** The sum rule. *)
Theorem C65_dimensions : forall (C : numClosedFieldType) (E : numpy C) (G : trig C) L rots trans flags k mul e rtol atol method max_num r,
  numpy_ok E rtol atol -> rounds (np_around E) -> Qle atol (Qmake 1 3) -> (size rots ^ 2)%:R * qC C atol < 2%:R^-1 ->
  eig_ok E -> trig_ok G -> lattice_ok L -> magnetic_small L rots trans flags k mul e ->
  method_ok E (unitary_rots rots flags) method ->
  enumerate_spinor_small_corepresentations E G L rots trans flags k method rtol atol max_num = COk r -> co_ok r ->
  let weight (ind : int) : nat := if ind == 1 then 4%N else if ind == 0 then 2%N else 1%N in
  (\sum_(m < size (co_irreps r)) weight (nth 0%R (co_indicators r) m) * adim (arr_nth (co_irreps r) m) ^ 2 =
   4 * size (unitary_rots rots flags))%N.
Proof.
move=> C E G L rots trans flags k mul e rtol atol method max_num r NO RO A3 small EO GO LO MS mok res ok weight.
have [Z [hz _]] := corep_factor_system EO GO LO (ms_flags MS) (ms_metric MS) (ms_group MS) (ms_mul MS).
rewrite -(linear_unitary (ms_flags MS)) in mok.
have NS := magnetic_signs NO EO GO LO MS hz; have SG := magnetic_gauge NO MS Z.
have [zE st] := gen_structure (ms_flags MS) (ms_trans MS) (ms_group MS) (ms_mul MS) NO A3 hz NS SG mok (ms_some MS) res.
rewrite -(linear_unitary (ms_flags MS)) size_linear_rots; exact: (gen_dimensions (ms_flags MS) (ms_trans MS) (ms_group MS) (ms_mul MS) NO A3 hz NS SG mok (ms_some MS) res RO ok small).
Qed.
Print Assumptions C65_dimensions.

(** The only failures are the reported ones. *)
Theorem C65_outcome : forall (C : numClosedFieldType) (E : numpy C) (G : trig C) L rots trans flags k mul e rtol atol method max_num B,
  numpy_ok E rtol atol -> rounds (np_around E) -> Qle atol (Qmake 1 3) -> (size rots ^ 2)%:R * qC C atol < 2%:R^-1 ->
  eig_ok E -> trig_ok G -> lattice_ok L -> magnetic_small L rots trans flags k mul e ->
  method_ok E (unitary_rots rots flags) method ->
  (forall trial d (a b : 'I_d), (trial < max_num)%N -> `|np_rnd E trial d a b| <= B) ->
  let f := enumerate_spinor_small_corepresentations E G L rots trans flags k method rtol atol max_num in
  let h := size (unitary_rots rots flags) in let eps := qC C atol in
  [\/ f = CWarn /\ method = "Neto"%string /\ unlucky_samples h (np_rnd E) eps max_num,
      exists r, [/\ f = COk r, ~~ co_ok r & (method = "random"%string /\ co_irreps r = [::]) \/
        unlucky_samples h (np_rnd E) (eps + (h ^ 2)%:R * (B * (2%:R * eps + eps ^+ 2))) max_num] |
      exists r, f = COk r /\ co_ok r].
Proof.
move=> C E G L rots trans flags k mul e rtol atol method max_num B NO RO A3 small EO GO LO MS mok hB f h eps.
have [Z [hz _]] := corep_factor_system EO GO LO (ms_flags MS) (ms_metric MS) (ms_group MS) (ms_mul MS).
rewrite /h -(linear_unitary (ms_flags MS)) size_linear_rots; rewrite -(linear_unitary (ms_flags MS)) in mok.
have NS := magnetic_signs NO EO GO LO MS hz; have SG := magnetic_gauge NO MS Z.
exact: (corep_outcome (ms_flags MS) (ms_trans MS) (ms_group MS) (ms_mul MS) NO RO A3 hz small (mu_signs (ms_flags MS) (ms_group MS) (ms_mul MS) NS SG) mok (ms_some MS) hB).
Qed.
Print Assumptions C65_outcome.

(** From the operations of the whole space group: the small co-representations of those that
    fix k. *)
Theorem C65_from_primitive : forall (C : numClosedFieldType) (E : numpy C) (G : trig C) L rots trans flags k D
    method rtol atol max_num r lm,
  size trans = size rots -> has_denominator D k -> Qle (inject_Z 0) atol -> Qlt (Qmult (inject_Z (Zpos D)) atol) (inject_Z 1) ->
  get_magnetic_spinor_irreps_from_primitive_symmetry E G L rots trans flags k method rtol atol max_num = COk (r, lm) ->
  let at_ T (x0 : T) l := List.map (fun i => List.nth i l x0) lm in
  (forall i, In i lm <-> (i < size rots)%N /\ fixes_kpoint k (List.nth i rots mid)) /\ Sorted.StronglySorted Nat.lt lm /\
  enumerate_spinor_small_corepresentations E G L (at_ _ mid rots) (at_ _ vzero trans) (at_ _ false flags) k
    method rtol atol max_num = COk r.
Proof.
move=> C E G L rots trans flags k D method rtol atol max_num r lm LE HD A0 A1 res at_.
split; first exact: (C54_little_group_ignores_time_reversal LE HD A0 A1 res).
suff: Sorted.StronglySorted Nat.lt lm /\ enumerate_spinor_small_corepresentations E G L (at_ _ mid rots) (at_ _ vzero trans) (at_ _ false flags) k
    method rtol atol max_num = COk r by [].
move: res; rewrite /get_magnetic_spinor_irreps_from_primitive_symmetry; case: (not_primitive _ _ _) => //.
case EL: (get_little_group _ _ _ _) => [[lr lt] l0]; case EN: (enumerate_spinor_small_corepresentations _ _ _ _ _ _ _ _ _ _ _) => [x| | |] //= [xr lE].
have [h1 [_ [h3 h4]]] := little_group_spec _ _ _ _ _ _ _ LE EL.
by split; [rewrite -lE|rewrite /at_ -lE -h3 -h4 EN xr].
Qed.
Print Assumptions C65_from_primitive.

(** A screw axis with time reversal at a point where exp(-2 pi i k.t) = -1 for the lattice
    translation t = R w + w of its square: the code takes R^T k - k where an anti-linear
    operation needs R^T k + k, and returns matrices of dimension one, with the indicator 1,
    although every co-representation has an even dimension. *)
Theorem C65_screw_axis_refuted : forall (C : numClosedFieldType) (E : numpy C) (G : trig C) L r w k rtol atol method max_num R,
  numpy_ok E rtol atol -> Qle atol (Qmake 1 3) -> (2 ^ 2)%:R * qC C atol < 2%:R^-1 -> eig_ok E -> trig_ok G -> lattice_ok L ->
  mmul r r = mid -> r <> mid -> mdet r = Zpos xH -> preserves_metric L r -> veq (mtvec r k) k -> vint (vadd k k) ->
  vint (vadd (mvec r w) w) -> ~ qint (vdot k (vadd (mvec r w) w)) -> method_ok E [:: mid] method ->
  enumerate_spinor_small_corepresentations E G L [:: mid; r] [:: vzero; w] [:: false; true] k method rtol atol max_num = COk R ->
  let nu := magnetic_factor E [:: mid; r] [:: vzero; w] k screw_mul (co_factors R) in
  [/\ mag_multiplication (combine [:: mid; r] [:: false; true]) screw_mul 0,
      co_ok R -> (0 < size (co_irreps R))%N,
      forall m, (m < size (co_irreps R))%N -> nth 0 (co_indicators R) m = 1 /\ adim (arr_nth (co_irreps R) m) = 1%N &
      forall d (X : nat -> 'M[C]_d), corep 2 screw_mul 0 (fun i => nth false [:: false; true] i) nu X -> ~~ odd d].
Proof.
move=> C E G L r w k rtol atol method max_num R NO A3 small EO GO LO rr r1 rd rm kr k2 ws kw mok res nu.
have [h1 [h2 h3]] := screw_refuted EO GO LO rr r1 rd rm kr k2 ws kw NO A3 small mok res.
by split=> //; exact: screw_multiplication.
Qed.
Print Assumptions C65_screw_axis_refuted.

(** A screw axis (C2z | 0 0 1/2) with time reversal, at (1/2 0 0), where the theorems above
    apply and find the co-representation of dimension one; and at (0 0 1/2), where the code
    finds one too. *)
Definition screw_rot : mat := Mat (-1)%coqZ 0%coqZ 0%coqZ 0%coqZ (-1)%coqZ 0%coqZ 0%coqZ 0%coqZ 1%coqZ.
Definition screw_vec : vec := Vec (inject_Z 0) (inject_Z 0) (Qmake 1 2).
Example C65_hypotheses_met :
  let rots := [:: mid; screw_rot] in let trans := [:: vzero; screw_vec] in let flags := [:: false; true] in
  let k1 := Vec (Qmake 1 2) (inject_Z 0) (inject_Z 0) in let k2 := screw_vec in
  [/\ numpy_ok kramers_numpy (inject_Z 0) (inject_Z 0), rounds (np_around kramers_numpy), eig_ok kramers_numpy,
      spglib_ok kramers_numpy (unitary_rots rots flags) &
      magnetic_small (1%:M : 'M[algCF]_3) rots trans flags k1 screw_mul 0] /\
  (exists r, enumerate_spinor_small_corepresentations kramers_numpy (ex_trig algCF) 1%:M rots trans flags k1
    "Neto" (inject_Z 0) (inject_Z 0) 1 = COk r /\ co_ok r) /\
  [/\ veq (mtvec screw_rot k2) k2, vint (vadd k2 k2), vint (vadd (mvec screw_rot screw_vec) screw_vec) &
      ~ qint (vdot k2 (vadd (mvec screw_rot screw_vec) screw_vec))].
Proof.
move=> rots trans flags k1 k2; have [[NO RO EO SP _] _] := C64_hypotheses_met.
have [LO _ PM0 _ _] := C36_hypotheses_met algCF.
have PM : preserves_metric (1%:M : 'M[algCF]_3) screw_rot.
  by apply: PM0; rewrite /=; intuition.
have zi m : qint (inject_Z m) by exists m.
have MS : magnetic_small (1%:M : 'M[algCF]_3) rots trans flags k1 screw_mul 0.
  split=> //.
  - by move=> x [<-|[<-|[]]] //; exact: preserves_id.
  - by apply: screw_group.
  - by apply: screw_multiplication.
  - move=> [|[|]] // [|[|]] // _ _; repeat split.
    all: try (exists 0%coqZ; vm_compute; reflexivity).
    by exists 1%coqZ; vm_compute.
  - move=> x [<-|[<-|[]]]; repeat split.
    all: try (exists 0%coqZ; vm_compute; reflexivity).
    by exists (Zneg xH); vm_compute.
  - repeat split; try (exists 0%coqZ; vm_compute; reflexivity).
    by exists (Zpos xH); vm_compute.
  - by move=> x [<-|[<-|[]]]; exists 0%coqZ; vm_compute.
split=> //; split; last first.
  split=> //.
  - repeat split; try (exists 0%coqZ; vm_compute; reflexivity).
    by exists (Zpos xH); vm_compute.
  - repeat split; try (exists 0%coqZ; vm_compute; reflexivity).
    by exists (Zpos xH); vm_compute.
  move=> [m hm]; have : Qeq (Qmake 1 2) (inject_Z m) by rewrite -hm.
  by rewrite /Qeq /=; lia.
have A3 : Qle (inject_Z 0) (Qmake 1 3) by [].
have small : (size rots ^ 2)%:R * qC algCF (inject_Z 0) < 2%:R^-1 by rewrite qC0 mulr0 invr_gt0 ltr0n.
have mok := or_introl (conj erefl SP) : method_ok kramers_numpy (unitary_rots rots flags) "Neto".
have lucky := @unit_draw_lucky algCF 1.
have [|[_ [_ h]]|[r [_ _ [[//]|]]]|//] := C65_outcome (max_num := 1) (B := 1) NO RO A3 small EO (ex_trig_ok algCF) LO MS mok.
- move=> tr d a b _; rewrite mxE; case: (eq_op _ _); rewrite ?normr1 ?normr0 //; exact: ler01.
- by case: lucky; rewrite -[size _]/1%N qC0 in h.
by cbv zeta; rewrite qC0 mulr0 expr0n addr0 mulr0 mulr0 addr0 => h; case: lucky.
Qed.
Print Assumptions C65_hypotheses_met.
