(** Property theorems C62 and C63: which co-representations of magnetic point groups are returned
    (corep.py:78-242, core.py:596-686 with time reversals). *)
From Coq Require Import QArith ZArith List Lia String.
From mathcomp Require Import all_ssreflect all_algebra.
From mathcomp Require Import algC.
From Verif Require Import Py Mat3 MatQ GroupModel GroupSpec GroupProofs RepSpec RepModel
  IndexRepSpec ChainModel SmallModel SmallSpec SmallTheory RobustTheory SpinorModel SpinorSpec SpinorProofs
  CorepModel CorepSpec CorepProofs CorepBridge CorepPipeline CorepOutcome CorepCover CorepFull CorepGeneral CorepCover DimTheory SmallExamples SpinorExamples ClaimsChain ClaimsSmall ClaimsSpinor ClaimsRobust ClaimsCorep ClaimsCorep2.
Import Order.TTheory GRing.Theory Num.Theory.
Set Implicit Arguments.
Unset Strict Implicit.
Unset Printing Implicit Defensive.
Local Open Scope ring_scope.

(* ---------- C62 ---------- *)
(** The m-th co-representation is built from the irreducible representation D m of the unitary
    half.  Every irreducible representation X of the unitary half is equivalent to D m, or to
    the conjugated D m, for exactly one m. *)
Theorem C62_each_pair_once : forall (C : numClosedFieldType) (E : numpy C) (G : trig C) L rots flags mul e rtol atol method max_num r,
  numpy_ok E rtol atol -> rounds (np_around E) -> Qle atol (Qmake 1 3) -> (size rots ^ 2)%:R * qC C atol < 2%:R^-1 ->
  eig_ok E -> trig_ok G -> lattice_ok L -> size flags = size rots ->
  (forall x, In x rots -> preserves_metric L x) ->
  lists_magnetic_group (combine rots flags) -> mag_multiplication (combine rots flags) mul e -> has id flags ->
  method_ok E (unitary_rots rots flags) method ->
  get_magnetic_pointgroup_spinor_irreps_from_symmetry E G L rots flags method rtol atol max_num = COk r -> co_ok r ->
  let n := size rots in let anti i := nth false flags i in let z := co_factors r in let N := size (co_irreps r) in
  exists a0, [/\ (a0 < n)%N, anti a0 & exists (dim : nat -> nat) (D : forall m, nat -> 'M[C]_(dim m)),
    (forall m, (m < N)%N -> let F := arr_nth (co_irreps r) m in let ind := nth 0 (co_indicators r) m in
      [/\ linear_rep n mul e anti z (D m), linear_irreducible n anti (D m), corep_kind n mul anti z a0 (D m) ind,
          adim F = (if ind == 1 then dim m else dim m + dim m)%N &
          forall u (i j : 'I_(dim m)) (i' j' : 'I_(adim F)), linear_op n anti u -> i = i' :> nat -> j = j' :> nat ->
            `|aget F u i' j' - D m u i j| <= qC C atol]) /\
    forall d (X : nat -> 'M[C]_d), linear_rep n mul e anti z X -> linear_irreducible n anti X ->
      exists m, (m < N)%N /\ forall m', (m' < N)%N ->
        (linear_equivalent n anti X (D m') \/ conj_equivalent n mul anti z a0 X (D m')) <-> m' = m].
Proof.
move=> C E G L rots flags mul e rtol atol method max_num r NO RO A3 small EO GO LO LE PM LG M hs mok res ok n anti z N.
have [Z [hz _]] := corep_factor_system EO GO LO LE PM LG M.
rewrite -linear_unitary // in mok.
have [zE _] := gen_structure LE (point_size rots) LG M NO A3 hz (spin_signs EO GO LO LE PM LG M hz (fun _ _ _ _ => erefl)) (point_gauge Z NO LE M) mok hs res; rewrite /z zE.
exact: (gen_pairs LE (point_size rots) LG M NO A3 hz (spin_signs EO GO LO LE PM LG M hz (fun _ _ _ _ => erefl)) (point_gauge Z NO LE M) mok hs res RO ok small).
Qed.
Print Assumptions C62_each_pair_once.

(* ---------- C63 ---------- *)
(** The entries of the drawn matrices have modulus at most B.  The only failures are those the
    code reports: the warning of the irreps of the unitary half, or a flagged result in which
    the random method found nothing or an intertwiner was missed because the draws were all
    orthogonal to it up to the tolerance (amplified by the purification). *)
Theorem C63_outcome : forall (C : numClosedFieldType) (E : numpy C) (G : trig C) L rots flags mul e rtol atol method max_num B,
  numpy_ok E rtol atol -> rounds (np_around E) -> Qle atol (Qmake 1 3) -> (size rots ^ 2)%:R * qC C atol < 2%:R^-1 ->
  eig_ok E -> trig_ok G -> lattice_ok L -> size flags = size rots ->
  (forall x, In x rots -> preserves_metric L x) ->
  lists_magnetic_group (combine rots flags) -> mag_multiplication (combine rots flags) mul e -> has id flags ->
  method_ok E (unitary_rots rots flags) method ->
  (forall trial d (a b : 'I_d), (trial < max_num)%N -> `|np_rnd E trial d a b| <= B) ->
  let f := get_magnetic_pointgroup_spinor_irreps_from_symmetry E G L rots flags method rtol atol max_num in
  let h := size (unitary_rots rots flags) in let eps := qC C atol in
  [\/ f = CWarn /\ method = "Neto"%string /\ unlucky_samples h (np_rnd E) eps max_num,
      exists r, [/\ f = COk r, ~~ co_ok r & (method = "random"%string /\ co_irreps r = [::]) \/
        unlucky_samples h (np_rnd E) (eps + (h ^ 2)%:R * (B * (2%:R * eps + eps ^+ 2))) max_num] |
      exists r, f = COk r /\ co_ok r].
Proof.
move=> C E G L rots flags mul e rtol atol method max_num B NO RO A3 small EO GO LO LE PM LG M hs mok hB f h eps.
have [Z [hz _]] := corep_factor_system EO GO LO LE PM LG M.
rewrite /h -linear_unitary // size_linear_rots; rewrite -linear_unitary // in mok.
exact: (corep_outcome LE (point_size rots) LG M NO RO A3 hz small (mu_signs LE LG M (spin_signs EO GO LO LE PM LG M hz (fun _ _ _ _ => erefl)) (point_gauge Z NO LE M)) mok hs hB).
Qed.
Print Assumptions C63_outcome.

(** With the deterministic method and draws one of which meets every unitary matrix, there are
    no failures. *)
Theorem C63_success : forall (C : numClosedFieldType) (E : numpy C) (G : trig C) L rots flags mul e rtol atol max_num B,
  numpy_ok E rtol atol -> rounds (np_around E) -> Qle atol (Qmake 1 3) -> (size rots ^ 2)%:R * qC C atol < 2%:R^-1 ->
  eig_ok E -> trig_ok G -> lattice_ok L -> size flags = size rots ->
  (forall x, In x rots -> preserves_metric L x) ->
  lists_magnetic_group (combine rots flags) -> mag_multiplication (combine rots flags) mul e -> has id flags ->
  spglib_ok E (unitary_rots rots flags) -> 0 <= B ->
  (forall trial d (a b : 'I_d), (trial < max_num)%N -> `|np_rnd E trial d a b| <= B) ->
  (let h := size (unitary_rots rots flags) in let eps := qC C atol in
   ~ unlucky_samples h (np_rnd E) (eps + (h ^ 2)%:R * (B * (2%:R * eps + eps ^+ 2))) max_num) ->
  exists r, get_magnetic_pointgroup_spinor_irreps_from_symmetry E G L rots flags "Neto" rtol atol max_num = COk r /\ co_ok r.
Proof.
move=> C E G L rots flags mul e rtol atol max_num B NO RO A3 small EO GO LO LE PM LG M hs sp B0 hB luck.
case: (C63_outcome NO RO A3 small EO GO LO LE PM LG M hs (or_introl (conj erefl sp)) hB) => [[_ [_ h]]|[r [_ _ [[//]|/luck []]]]|//].
case: luck; apply: unlucky_weaken h; rewrite ler_addl mulr_ge0 ?ler0n // mulr_ge0 //.
have eps0 := or_atol (no_oracles NO); by apply: addr_ge0; [apply: mulr_ge0; [exact: ler0n|]|apply: exprn_ge0].
Qed.
Print Assumptions C63_success.

(** The grey group of 222 on a cubic lattice: its spinor co-representation needs an intertwiner
    of dimension two, found among four draws. *)
Definition grey_numpy : numpy algCF :=
  {| np_around := ex_around; np_powinv := np_powinv ex_numpy; np_nroot := np_nroot ex_numpy; np_rnd := @unit_draw algCF;
     np_exp := np_exp ex_numpy; np_eigh := np_eigh ex_numpy; np_qr := np_qr ex_numpy; np_hrnd := np_hrnd ex_numpy;
     np_key_le := np_key_le ex_numpy; np_int := np_int ex_numpy; np_eig := @ex_eig algCF;
     spglib_pointgroup := spglib_pointgroup ex_numpy |}.
Example C62_C63_hypotheses_met :
  let rots := (p2_rots ++ p2_rots)%list in let flags := (nseq 4 false ++ nseq 4 true)%list in
  [/\ numpy_ok grey_numpy (inject_Z Z0) (inject_Z Z0), rounds (np_around grey_numpy), eig_ok grey_numpy &
      spglib_ok grey_numpy (unitary_rots rots flags)] /\
  exists r, get_magnetic_pointgroup_spinor_irreps_from_symmetry grey_numpy (ex_trig algCF) 1%:M rots flags
    "Neto" (inject_Z Z0) (inject_Z Z0) 4 = COk r /\ co_ok r.
Proof.
move=> rots flags; have RO : rounds ex_around by have [] := C61_hypotheses_met.
have ex_nat (m : nat) : ex_around m%:R = m%:R by apply: rounds_near RO _; rewrite subrr normr0 invr_gt0 ltr0n.
have NO : numpy_ok grey_numpy (inject_Z Z0) (inject_Z Z0).
  have [[h1 h2 h3 h4 h5] [k1 k2 k3 k4] h] := ex_numpy_ok; by split.
have EO : eig_ok grey_numpy by move=> n M; exact: ex_eig_ok.
have SP : spglib_ok grey_numpy (unitary_rots rots flags).
  by have [[_ _ _ _ [[_ h]//|//]] _] := C27_hypotheses_met.
split=> //; have [LO LE PM LG M] := C36_hypotheses_met algCF.
apply: (@C63_success _ grey_numpy _ _ _ _ grey_mul 3%N _ _ _ 1 NO RO _ _ EO (ex_trig_ok algCF) LO LE PM LG M) => //.
- by rewrite qC0 mulr0 invr_gt0 ltr0n.
- move=> tr d a b _; rewrite mxE; case: (eq_op _ _); rewrite ?normr1 ?normr0 //; exact: ler01.
- cbv zeta; rewrite qC0 mulr0 expr0n addr0 mulr0 mulr0 addr0; exact: unit_draw_lucky.
Qed.
