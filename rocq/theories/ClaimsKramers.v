(** Property theorems C70: Kramers degeneracy of the returned co-representations (corep.py:78-316,
    core.py:268-460, 463-593 with time reversals). *)
From Coq Require Import QArith ZArith List String.
From mathcomp Require Import all_ssreflect all_algebra.
From mathcomp Require Import algC.
From Verif Require Import Py Mat3 MatQ GroupModel GroupSpec GroupProofs RepSpec RepModel
  IndexRepSpec CExpSpec ChainModel SmallModel SmallSpec SmallTheory SpinorModel SpinorSpec SpinorProofs
  CorepModel CorepSpec CorepProofs CorepBridge CorepPipeline CorepOutcome CorepGeneral CorepBloch
  RobustTheory DimTheory SmallExamples SpinorExamples ClaimsChain ClaimsSmall ClaimsSpinor ClaimsCorep ClaimsCorep2 ClaimsRobust ClaimsCorep3 ClaimsCorep4
  ClaimsCorep5 KramersTheory.
Import Order.TTheory GRing.Theory Num.Theory.
Set Implicit Arguments.
Unset Strict Implicit.
Unset Printing Implicit Defensive.
Local Open Scope ring_scope.
Delimit Scope Z_scope with coqZ.

(* ---------- C70 ---------- *)
(** In a magnetic point group that contains time reversal, or its product with the inversion,
    every returned co-representation has even dimension: each level is degenerate. *)
Theorem C70_kramers : forall (C : numClosedFieldType) (E : numpy C) (G : trig C) L rots flags mul e rtol atol method max_num r t,
  numpy_ok E rtol atol -> Qle atol (Qmake 1 3) -> (size rots ^ 2)%:R * qC C atol < 2%:R^-1 ->
  eig_ok E -> trig_ok G -> lattice_ok L -> size flags = size rots ->
  (forall x, In x rots -> preserves_metric L x) ->
  lists_magnetic_group (combine rots flags) -> mag_multiplication (combine rots flags) mul e ->
  (t < size rots)%N -> nth false flags t -> List.nth t rots mid = mid \/ List.nth t rots mid = mneg mid ->
  method_ok E (unitary_rots rots flags) method ->
  get_magnetic_pointgroup_spinor_irreps_from_symmetry E G L rots flags method rtol atol max_num = COk r ->
  forall m, (m < size (co_irreps r))%N ->
    ~~ odd (adim (arr_nth (co_irreps r) m)) /\ (1 < adim (arr_nth (co_irreps r) m))%N.
Proof.
move=> C E G L rots flags mul e rtol atol method max_num r t NO A3 small EO GO LO LE PM LG M ht ft rt mok res m hm.
have hs : has id flags by apply/hasP; exists (nth false flags t) => //; apply: mem_nth; rewrite LE.
have [Z [hz _]] := corep_factor_system EO GO LO LE PM LG M.
have [_ [a0 [ha aa hD]]] := C37_indicators NO A3 small EO GO LO LE PM LG M hs mok res.
have [d [D [rD [d0 _] kD dF _]]] := hD m hm; rewrite dF {dF}.
rewrite -linear_unitary // in mok.
have SS := spin_signs EO GO LO LE PM LG M hz (fun _ _ _ _ => erefl).
have [zE _] := gen_structure LE (point_size rots) LG M NO A3 hz SS (point_gauge Z NO LE M) mok hs res.
rewrite zE in rD kD; case: eqP kD => [->|_] kD; last by rewrite addnn odd_double -addnn; split=> //; case: (d) d0 => // d' _; rewrite addSn addnS.
have o : ~~ odd d.
  apply: (kramers_even (lin_group_law LE LG M) _ SS ha aa ht ft rD kD (reversal_twice LE LG M ht rt) (reversal_sign EO GO LO LE PM LG M ht ft rt hz)).
  by move=> i j hi hj; have [_] := lin_mulE LE M hi hj.
by split=> //; case: (d) d0 o => [|[|]].
Qed.
Print Assumptions C70_kramers.

(** The same in the magnetic little groups of C65, whatever translation goes with the time
    reversal. *)
Theorem C70_kramers_small : forall (C : numClosedFieldType) (E : numpy C) (G : trig C) L rots trans flags k mul e rtol atol method max_num r t,
  numpy_ok E rtol atol -> Qle atol (Qmake 1 3) -> (size rots ^ 2)%:R * qC C atol < 2%:R^-1 ->
  eig_ok E -> trig_ok G -> lattice_ok L -> magnetic_small L rots trans flags k mul e ->
  (t < size rots)%N -> nth false flags t -> List.nth t rots mid = mid \/ List.nth t rots mid = mneg mid ->
  method_ok E (unitary_rots rots flags) method ->
  enumerate_spinor_small_corepresentations E G L rots trans flags k method rtol atol max_num = COk r ->
  forall m, (m < size (co_irreps r))%N ->
    ~~ odd (adim (arr_nth (co_irreps r) m)) /\ (1 < adim (arr_nth (co_irreps r) m))%N.
Proof.
move=> C E G L rots trans flags k mul e rtol atol method max_num r t NO A3 small EO GO LO MS ht ft rt mok res m hm.
have LE := ms_flags MS; have LG := ms_group MS; have M := ms_mul MS; have PM := ms_metric MS.
have hs : has id flags by apply/hasP; exists (nth false flags t) => //; apply: mem_nth; rewrite LE.
have [Z [hz _]] := corep_factor_system EO GO LO LE PM LG M.
have [_ [a0 [ha aa hD]]] := C65_indicators NO A3 small EO GO LO MS mok res.
have [d [D [rD [d0 _] kD dF _]]] := hD m hm; rewrite dF {dF}.
rewrite -linear_unitary // in mok.
have NS := magnetic_signs NO EO GO LO MS hz; have SG := magnetic_gauge NO MS Z.
have [zE _] := gen_structure LE (ms_trans MS) LG M NO A3 hz NS SG mok hs res.
rewrite zE in rD kD; case: eqP kD => [->|_] kD; last by rewrite addnn odd_double -addnn; split=> //; case: (d) d0 => // d' _; rewrite addSn addnS.
have tt := reversal_twice LE LG M ht rt.
have b1 : bloch_factor (np_exp E) rots trans k mul t t = 1.
  have ce := or_cexp (no_oracles NO); apply/(ce_int ce); rewrite /lattice_shift tt.
  have It : In (List.nth t trans vzero) trans by apply: List.nth_In; apply/ssrnat.ltP; have -> : List.length trans = size rots := ms_trans MS.
  have [x hx] := ms_half MS It; have ve := ms_e MS.
  case: rt => ->; [exists (- x)%coqZ|exists 0%coqZ].
    rewrite inject_Z_opp -hx ve /vdot /=; ring.
  rewrite ve /vdot /=; ring.
have m1 : magnetic_factor E rots trans k mul Z t t = -1.
  by rewrite /magnetic_factor b1 mulr1 (reversal_sign EO GO LO LE PM LG M ht ft rt hz).
have o : ~~ odd d.
  apply: (kramers_even (lin_group_law LE LG M) _ NS ha aa ht ft rD kD tt m1).
  by move=> i j hi hj; have [_] := lin_mulE LE M hi hj.
by split=> //; case: (d) d0 o => [|[|]].
Qed.
Print Assumptions C70_kramers_small.

(** The grey group of 222 and the group of the identity and time reversal of the earlier
    examples contain time reversal, so that the theorem applies to what is returned for them. *)
Example C70_hypotheses_met :
  let rots := (p2_rots ++ p2_rots)%list in let flags := (nseq 4 false ++ nseq 4 true)%list in
  [/\ List.nth 7 rots mid = mid, nth false flags 7 &
  exists r, [/\ get_magnetic_pointgroup_spinor_irreps_from_symmetry grey_numpy (ex_trig algCF) 1%:M rots flags
    "Neto" (inject_Z 0) (inject_Z 0) 4 = COk r, co_ok r, (0 < size (co_irreps r))%N &
    forall m, (m < size (co_irreps r))%N -> ~~ odd (adim (arr_nth (co_irreps r) m))]].
Proof.
move=> rots flags; split=> //.
have [[NO RO EO SP] [r [res ok]]] := C62_C63_hypotheses_met.
have [LO LE PM LG M] := C36_hypotheses_met algCF.
have A3 : Qle (inject_Z 0) (Qmake 1 3) by [].
have small : (size rots ^ 2)%:R * qC algCF (inject_Z 0) < 2%:R^-1 by rewrite qC0 mulr0 invr_gt0 ltr0n.
have mok := or_introl (conj erefl SP) : method_ok grey_numpy (unitary_rots rots flags) "Neto".
have [/(_ ok) pos _] := C37_unitary_half NO A3 EO (ex_trig_ok algCF) LO LE PM LG M isT mok res.
exists r; split=> // m hm.
have ht : (7 < size rots)%N by []. have ft : nth false flags 7 by [].
by have [] := C70_kramers NO A3 small EO (ex_trig_ok algCF) LO LE PM LG M ht ft (or_introl erefl) mok res hm.
Qed.
Print Assumptions C70_hypotheses_met.
