(** Property theorems C64: the returned co-representations of magnetic point groups are the
    irreducible ones (corep.py:78-242, core.py:596-686 with time reversals). *)
From Coq Require Import QArith ZArith List Lia String Permutation.
From mathcomp Require Import all_ssreflect all_algebra all_fingroup.
From mathcomp Require Import algC.
From Verif Require Import Py Mat3 MatQ GroupModel GroupSpec GroupProofs PointGroupData RepSpec RepModel
  IndexRepSpec IndexGroup ChainModel SmallModel SmallSpec SmallTheory RobustTheory SpinorModel SpinorSpec SpinorProofs
  CorepModel CorepSpec CorepProofs CorepBridge CorepPipeline CorepOutcome CorepCover CorepFull CorepGeneral CorepIrr CorepCover CorepFull DimTheory SmallExamples SpinorExamples ClaimsChain ClaimsSmall ClaimsSpinor ClaimsRobust ClaimsCorep ClaimsCorep2 ClaimsCorep3.
Import Order.TTheory GRing.Theory Num.Theory.
Set Implicit Arguments.
Unset Strict Implicit.
Unset Printing Implicit Defensive.
Local Open Scope ring_scope.

(* ---------- C64 ---------- *)
(** Exact arithmetic: atol = 0.  A returned array of matrices that obeys the co-representation
    law (C37 says which do) is irreducible; and an irreducible co-representation X with the
    same factor system is equivalent to exactly one of the returned ones. *)
Theorem C64_irreducible : forall (C : numClosedFieldType) (E : numpy C) (G : trig C) L rots flags mul e rtol atol method max_num r,
  numpy_ok E rtol atol -> rounds (np_around E) -> Qeq atol (inject_Z 0) ->
  eig_ok E -> trig_ok G -> lattice_ok L -> size flags = size rots ->
  (forall x, In x rots -> preserves_metric L x) ->
  lists_magnetic_group (combine rots flags) -> mag_multiplication (combine rots flags) mul e -> has id flags ->
  method_ok E (unitary_rots rots flags) method ->
  get_magnetic_pointgroup_spinor_irreps_from_symmetry E G L rots flags method rtol atol max_num = COk r -> co_ok r ->
  let n := size rots in let anti i := nth false flags i in let z := co_factors r in let N := size (co_irreps r) in
  let F m := arr_nth (co_irreps r) m in
  (forall m, (m < N)%N -> corep n mul e anti z (aget (F m)) -> corep_irreducible n anti (aget (F m))) /\
  forall d (X : nat -> 'M[C]_d), corep n mul e anti z X -> corep_irreducible n anti X ->
    exists m, (m < N)%N /\ forall m', (m' < N)%N -> corep n mul e anti z (aget (F m')) ->
      corep_equivalent n anti X (aget (F m')) <-> m' = m.
Proof.
move=> C E G L rots flags mul e rtol atol method max_num r NO RO A0 EO GO LO LE PM LG M hs mok res ok n anti z N F.
have A3 : Qle atol (Qmake 1 3) by rewrite A0.
have eps0 : qC C atol = 0 by rewrite (qC_eq C A0) qC0.
have small : (size rots ^ 2)%:R * qC C atol < 2%:R^-1 by rewrite eps0 mulr0 invr_gt0 ltr0n.
have [Z [hz _]] := corep_factor_system EO GO LO LE PM LG M.
rewrite -linear_unitary // in mok.
have [zE _] := gen_structure LE (point_size rots) LG M NO A3 hz (spin_signs EO GO LO LE PM LG M hz (fun _ _ _ _ => erefl)) (point_gauge Z NO LE M) mok hs res; rewrite /z zE.
exact: (gen_irreducible LE (point_size rots) LG M NO A3 hz (spin_signs EO GO LO LE PM LG M hz (fun _ _ _ _ => erefl)) (point_gauge Z NO LE M) mok hs res RO ok eps0).
Qed.
Print Assumptions C64_irreducible.

(** The sum rule: a co-representation of dimension d accounts for d^2, d^2/2 or d^2/4 of the
    order of the unitary half, according to its indicator 1, 0 or -1. *)
Theorem C64_dimensions : forall (C : numClosedFieldType) (E : numpy C) (G : trig C) L rots flags mul e rtol atol method max_num r,
  numpy_ok E rtol atol -> rounds (np_around E) -> Qle atol (Qmake 1 3) -> (size rots ^ 2)%:R * qC C atol < 2%:R^-1 ->
  eig_ok E -> trig_ok G -> lattice_ok L -> size flags = size rots ->
  (forall x, In x rots -> preserves_metric L x) ->
  lists_magnetic_group (combine rots flags) -> mag_multiplication (combine rots flags) mul e -> has id flags ->
  method_ok E (unitary_rots rots flags) method ->
  get_magnetic_pointgroup_spinor_irreps_from_symmetry E G L rots flags method rtol atol max_num = COk r -> co_ok r ->
  let weight (ind : int) : nat := if ind == 1 then 4%N else if ind == 0 then 2%N else 1%N in
  (\sum_(m < size (co_irreps r)) weight (nth 0%R (co_indicators r) m) * adim (arr_nth (co_irreps r) m) ^ 2 =
   4 * size (unitary_rots rots flags))%N.
Proof.
move=> C E G L rots flags mul e rtol atol method max_num r NO RO A3 small EO GO LO LE PM LG M hs mok res ok weight.
have [Z [hz _]] := corep_factor_system EO GO LO LE PM LG M.
rewrite -linear_unitary // in mok.
rewrite -linear_unitary // size_linear_rots.
exact: (gen_dimensions LE (point_size rots) LG M NO A3 hz (spin_signs EO GO LO LE PM LG M hz (fun _ _ _ _ => erefl)) (point_gauge Z NO LE M) mok hs res RO ok small).
Qed.
Print Assumptions C64_dimensions.

(** Kramers degeneracy: the group of the identity and time reversal, on a cubic lattice. *)
Definition kramers_numpy : numpy algCF :=
  {| np_around := ex_around; np_powinv := np_powinv ex_numpy; np_nroot := np_nroot ex_numpy; np_rnd := @unit_draw algCF;
     np_exp := np_exp ex_numpy; np_eigh := np_eigh ex_numpy; np_qr := np_qr ex_numpy; np_hrnd := np_hrnd ex_numpy;
     np_key_le := np_key_le ex_numpy; np_int := np_int ex_numpy; np_eig := @ex_eig algCF;
     spglib_pointgroup := fun _ => ("1"%string, qid) |}.
Definition kramers_mul (i j : nat) : nat := ((i + j) %% 2)%N.
Example C64_hypotheses_met :
  let rots := [:: mid; mid] in let flags := [:: false; true] in
  [/\ numpy_ok kramers_numpy (inject_Z 0) (inject_Z 0), rounds (np_around kramers_numpy), eig_ok kramers_numpy,
      spglib_ok kramers_numpy (unitary_rots rots flags) &
      lists_magnetic_group (combine rots flags) /\ mag_multiplication (combine rots flags) kramers_mul 0] /\
  exists r, [/\ get_magnetic_pointgroup_spinor_irreps_from_symmetry kramers_numpy (ex_trig algCF) 1%:M rots flags
    "Neto" (inject_Z 0) (inject_Z 0) 1 = COk r, co_ok r, (0 < size (co_irreps r))%N &
    forall m, (m < size (co_irreps r))%N ->
      corep 2 kramers_mul 0 (fun i => nth false flags i) (co_factors r) (aget (arr_nth (co_irreps r) m))].
Proof.
move=> rots flags; have RO : rounds ex_around by have [] := C61_hypotheses_met.
have ex_nat (m : nat) : ex_around m%:R = m%:R by apply: rounds_near RO _; rewrite subrr normr0 invr_gt0 ltr0n.
have NO : numpy_ok kramers_numpy (inject_Z 0) (inject_Z 0).
  have [[h1 h2 h3 h4 h5] [k1 k2 k3 k4] h] := ex_numpy_ok; by split.
have EO : eig_ok kramers_numpy by move=> n M; exact: ex_eig_ok.
have SP : spglib_ok kramers_numpy (unitary_rots rots flags).
  split; first by vm_compute.
    move=> r hr; apply: (qintegral_eq (qofz r)); last exact: qofz_integral.
    have q1 : qmeq (qinv qid) qid by vm_compute.
    by apply: qmeq_sym; rewrite -> q1, qmul_1l, qmul_1r; exact: qmeq_refl.
  eexists; exists [:: mid]; split; [reflexivity|by left|].
  have -> : List.map (PointGroupModel.conj_round qid) (unitary_rots rots flags) = [:: mid] by vm_compute.
  exact: Permutation_refl.
have LG : lists_magnetic_group (combine rots flags).
  split.
  + by repeat constructor; simpl; intuition discriminate.
  + by left.
  + by move=> a b; do 2?[case=> [<-|]]; try by []; do 2?[case=> [<-|]]; try by []; vm_compute; intuition.
  + move=> a h; exists a; split=> //; move: h; by do 2?[case=> [<-|]].
have M : mag_multiplication (combine rots flags) kramers_mul 0.
  split=> //.
  - by do 2?[case=> //]; move=> + ?; do 2?[case=> //].
  - by do 2?[case=> //]; move=> + ?; do 2?[case=> //].
split=> //; have [LO _ PM _ _] := C36_hypotheses_met algCF.
have {}PM x : In x rots -> preserves_metric (1%:M : 'M[algCF]_3) x.
  move=> h; apply: PM; do 3!right; left; by case: h => [<-|[<-|[]]].
have A3 : Qle (inject_Z 0) (Qmake 1 3) by [].
have small : (size rots ^ 2)%:R * qC algCF (inject_Z 0) < 2%:R^-1 by rewrite qC0 mulr0 invr_gt0 ltr0n.
have [||r [res ok]] := @C63_success _ kramers_numpy _ _ rots flags kramers_mul 0%N _ _ 1%N 1 NO RO A3 small EO (ex_trig_ok algCF) LO erefl PM LG M erefl SP ler01.
- move=> tr d a b _; rewrite mxE; case: (eq_op _ _); rewrite ?normr1 ?normr0 //; exact: ler01.
- cbv zeta; rewrite qC0 mulr0 expr0n addr0 mulr0 mulr0 addr0; exact: unit_draw_lucky.
have sF : size flags = size rots := erefl.
have hs : has id flags := erefl.
have mok := or_introl (conj erefl SP) : method_ok kramers_numpy (unitary_rots rots flags) "Neto".
have [a1 [_ _ [dim [D [hD _]]]]] := C62_each_pair_once NO RO A3 small EO (ex_trig_ok algCF) LO sF PM LG M hs mok res ok.
have [/(_ ok) pos [a0 [_ _ hF]]] := C37_unitary_half NO A3 EO (ex_trig_ok algCF) LO sF PM LG M hs mok res.
exists r; split=> // m hm; apply/(C37_law_iff_real NO (Qeq_refl _) EO (ex_trig_ok algCF) LO sF PM LG M hs mok res ok hm).
have [[_ F1] _ _ _] := hF m hm; have [_ _ _ dF _] := hD m hm.
case=> [|[|u]] //= _; rewrite F1; split; first by rewrite map_mx1.
move=> ind; rewrite ind /= in dF; exists (dim m), dF, 1%:M; rewrite -scalar_mx_block.
by case: _ / dF.
Qed.
Print Assumptions C64_hypotheses_met.
