(** Property theorems C37: the co-representations of magnetic point groups (corep.py:78-242,
    core.py:596-686 with time reversals). *)
From Coq Require Import QArith ZArith List Lia String.
From mathcomp Require Import all_ssreflect all_algebra.
From mathcomp Require Import algC.
From Verif Require Import Py Mat3 MatQ GroupModel GroupSpec GroupProofs RepSpec RepModel
  IndexRepSpec ChainModel SmallModel SmallSpec SmallTheory SpinorModel SpinorSpec SpinorProofs
  CorepModel CorepSpec CorepProofs CorepBridge CorepPipeline CorepOutcome CorepCover CorepFull CorepGeneral CorepTwo ClaimsChain ClaimsSmall ClaimsSpinor ClaimsCorep.
Import Order.TTheory GRing.Theory Num.Theory.
Set Implicit Arguments.
Unset Strict Implicit.
Unset Printing Implicit Defensive.
Local Open Scope ring_scope.

(* ---------- C37 ---------- *)
(** The rotations without time reversal, in the order of the list. *)
Definition unitary_rots (rots : list mat) (flags : list bool) : list mat :=
  [seq o.1 | o <- combine rots flags & ~~ o.2].

Lemma linear_unitary rots flags : size flags = size rots -> linear_rots rots flags = unitary_rots rots flags.
Proof.
move=> LE; rewrite /unitary_rots; have -> : combine rots flags = [seq (List.nth i rots mid, nth false flags i) | i <- iota 0 (size rots)].
  apply: (eq_from_nth (x0 := (mid, false))) => [|i]; first by rewrite size_map size_iota (size_ops LE).
  rewrite (size_ops LE) => hi; rewrite (nth_map 0%N) ?size_iota // nth_iota // add0n.
  by rewrite -nthE nth_ops // !nthE.
by rewrite filter_map -map_comp.
Qed.

(** On the unitary half the matrices obey the law up to atol.  On the other half they are
    D(a0 u) = z(a0,u) D(a0) D(u), without the complex conjugate of D(u), so that the law holds
    for the pair a0, u exactly when D(a0) conj(D(u)) = D(a0) D(u). *)
Theorem C37_unitary_half : forall (C : numClosedFieldType) (E : numpy C) (G : trig C) L rots flags mul e rtol atol method max_num r,
  numpy_ok E rtol atol -> Qle atol (Qmake 1 3) -> eig_ok E -> trig_ok G -> lattice_ok L -> size flags = size rots ->
  (forall x, In x rots -> preserves_metric L x) ->
  lists_magnetic_group (combine rots flags) -> mag_multiplication (combine rots flags) mul e -> has id flags ->
  method_ok E (unitary_rots rots flags) method ->
  get_magnetic_pointgroup_spinor_irreps_from_symmetry E G L rots flags method rtol atol max_num = COk r ->
  let n := size rots in let anti i := nth false flags i in let z := co_factors r in
  (co_ok r -> (0 < size (co_irreps r))%N) /\
  exists a0, [/\ (a0 < n)%N, anti a0 & forall m, (m < size (co_irreps r))%N -> let F := arr_nth (co_irreps r) m in
    [/\ aorder F = n /\ aget F e = 1%:M,
        exists2 D, linear_rep n mul e anti z D & forall u, linear_op n anti u -> forall i j, `|aget F u i j - D u i j| <= qC C atol,
        forall u, linear_op n anti u -> aget F (mul a0 u) = z a0 u *: (aget F a0 *m aget F u) &
        forall u, linear_op n anti u ->
          corep_at mul anti z (aget F) a0 u <-> aget F a0 *m map_mx conjC (aget F u) = aget F a0 *m aget F u]].
Proof.
move=> C E G L rots flags mul e rtol atol method max_num r NO A3 EO GO LO LE PM LG M hs mok res n anti z.
have [Z [hz _]] := corep_factor_system EO GO LO LE PM LG M.
rewrite -linear_unitary // in mok.
by have [zE h] := gen_structure LE (point_size rots) LG M NO A3 hz (spin_signs EO GO LO LE PM LG M hz (fun _ _ _ _ => erefl)) (point_gauge Z NO LE M) mok hs res; rewrite /z zE.
Qed.
Print Assumptions C37_unitary_half.

(** The indicators say which kind of co-representation belongs to the irreducible
    representation D of the unitary half in the upper left corner. *)
Theorem C37_indicators : forall (C : numClosedFieldType) (E : numpy C) (G : trig C) L rots flags mul e rtol atol method max_num r,
  numpy_ok E rtol atol -> Qle atol (Qmake 1 3) -> (size rots ^ 2)%:R * qC C atol < 2%:R^-1 ->
  eig_ok E -> trig_ok G -> lattice_ok L -> size flags = size rots ->
  (forall x, In x rots -> preserves_metric L x) ->
  lists_magnetic_group (combine rots flags) -> mag_multiplication (combine rots flags) mul e -> has id flags ->
  method_ok E (unitary_rots rots flags) method ->
  get_magnetic_pointgroup_spinor_irreps_from_symmetry E G L rots flags method rtol atol max_num = COk r ->
  let n := size rots in let anti i := nth false flags i in let z := co_factors r in
  size (co_indicators r) = size (co_irreps r) /\
  exists a0, [/\ (a0 < n)%N, anti a0 & forall m, (m < size (co_irreps r))%N ->
    let F := arr_nth (co_irreps r) m in let ind := nth 0 (co_indicators r) m in
    exists d (D : nat -> 'M[C]_d), [/\ linear_rep n mul e anti z D, linear_irreducible n anti D,
      corep_kind n mul anti z a0 D ind, adim F = (if ind == 1 then d else d + d)%N &
      forall u (i j : 'I_d) (i' j' : 'I_(adim F)), linear_op n anti u -> i = i' :> nat -> j = j' :> nat ->
        `|aget F u i' j' - D u i j| <= qC C atol]].
Proof.
move=> C E G L rots flags mul e rtol atol method max_num r NO A3 small EO GO LO LE PM LG M hs mok res n anti z.
have [Z [hz _]] := corep_factor_system EO GO LO LE PM LG M.
rewrite -linear_unitary // in mok.
have [zE _] := gen_structure LE (point_size rots) LG M NO A3 hz (spin_signs EO GO LO LE PM LG M hz (fun _ _ _ _ => erefl)) (point_gauge Z NO LE M) mok hs res; rewrite /z zE.
exact: (gen_indicators LE (point_size rots) LG M NO A3 hz (spin_signs EO GO LO LE PM LG M hz (fun _ _ _ _ => erefl)) (point_gauge Z NO LE M) mok hs res small).
Qed.
Print Assumptions C37_indicators.

(** In exact arithmetic, when no search failed, the matrices obey the law on the whole group
    exactly when those of the unitary half are real and, for the indicator -1, consist of two
    equal blocks. *)
Theorem C37_law_iff_real : forall (C : numClosedFieldType) (E : numpy C) (G : trig C) L rots flags mul e rtol atol method max_num r,
  numpy_ok E rtol atol -> Qeq atol (inject_Z Z0) ->
  eig_ok E -> trig_ok G -> lattice_ok L -> size flags = size rots ->
  (forall x, In x rots -> preserves_metric L x) ->
  lists_magnetic_group (combine rots flags) -> mag_multiplication (combine rots flags) mul e -> has id flags ->
  method_ok E (unitary_rots rots flags) method ->
  get_magnetic_pointgroup_spinor_irreps_from_symmetry E G L rots flags method rtol atol max_num = COk r -> co_ok r ->
  let n := size rots in let anti i := nth false flags i in
  forall m, (m < size (co_irreps r))%N -> let F := arr_nth (co_irreps r) m in
    corep n mul e anti (co_factors r) (aget F) <->
    forall u, linear_op n anti u -> map_mx conjC (aget F u) = aget F u /\
      (nth 0 (co_indicators r) m = -1 -> double_block (aget F u)).
Proof.
move=> C E G L rots flags mul e rtol atol method max_num r NO A0 EO GO LO LE PM LG M hs mok res ok n anti m hm F.
have A3 : Qle atol (Qmake 1 3) by rewrite A0.
have eps0 : qC C atol = 0 by rewrite (qC_eq C A0) qC0.
have [Z [hz _]] := corep_factor_system EO GO LO LE PM LG M.
rewrite -linear_unitary // in mok.
have [zE _] := gen_structure LE (point_size rots) LG M NO A3 hz (spin_signs EO GO LO LE PM LG M hz (fun _ _ _ _ => erefl)) (point_gauge Z NO LE M) mok hs res; rewrite zE.
exact: (gen_law_iff_real LE (point_size rots) LG M NO A3 hz (spin_signs EO GO LO LE PM LG M hz (fun _ _ _ _ => erefl)) (point_gauge Z NO LE M) mok hs res eps0 ok hm).
Qed.
Print Assumptions C37_law_iff_real.

(** The grey group of a two-fold rotation: none of the matrices obeys the law, at any
    tolerance up to 1/3, although the indicators are those of exact arithmetic. *)
Theorem C37_grey_two_refuted : forall (C : numClosedFieldType) (E : numpy C) (G : trig C) L r rtol atol method max_num R,
  numpy_ok E rtol atol -> Qle atol (Qmake 1 3) -> eig_ok E -> trig_ok G -> lattice_ok L ->
  mmul r r = mid -> r <> mid -> mdet r = Zpos xH -> preserves_metric L r -> method_ok E [:: mid; r] method ->
  get_magnetic_pointgroup_spinor_irreps_from_symmetry E G L [:: mid; r; mid; r] [:: false; false; true; true]
    method rtol atol max_num = COk R ->
  mag_multiplication (combine [:: mid; r; mid; r] [:: false; false; true; true]) two_mul 0 /\
  (co_ok R -> (0 < size (co_irreps R))%N) /\
  forall m, (m < size (co_irreps R))%N -> nth 0 (co_indicators R) m = 0 /\
    ~ corep 4 two_mul 0 (fun i => nth false [:: false; false; true; true] i) (co_factors R) (aget (arr_nth (co_irreps R) m)).
Proof.
move=> C E G L r rtol atol method max_num R NO A3 EO GO LO rr r1 rd rm mok res.
split; first exact: two_multiplication.
exact: (two_refuted EO GO LO rr r1 rd rm NO A3 mok res).
Qed.
Print Assumptions C37_grey_two_refuted.
