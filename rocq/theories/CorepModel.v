(** Model of corep.py:24-316 and of the parts of core.py:268-460, 463-593, 596-686 that
    handle time reversals (magmoms or time_reversals given).  Floating-point numbers are
    elements of C; array indices are in range. *)
From Coq Require List.
From Coq Require Import QArith ZArith String.
From mathcomp Require Import all_ssreflect all_algebra.
From Verif Require Import Py Mat3 MatQ GroupModel TransformModel RepSpec RepModel Mx2 ChainModel RandomModel SmallModel CentringModel
  SpinorModel.
Import Order.TTheory GRing.Theory Num.Theory.
Set Implicit Arguments.
Unset Strict Implicit.
Unset Printing Implicit Defensive.
Local Open Scope ring_scope.

(** core.py:390-391, 413-414: reduction to the primitive cell, with the time reversals
    time_reversals[mapping_to_prim] of the reduced operations. *)
Definition magnetic_unique_symmetry (rots : list mat) (trans : list vec) (flags : list bool)
  : list mat * list vec * list bool * list nat :=
  let: (ur, ut, M) := unique_primitive_symmetry rots trans in
  (ur, ut, List.map (fun i => List.nth i flags false) M, M).

Section CorepModel.
Variable C : numClosedFieldType.
Variables (E : numpy C) (G : trig C).
Local Notation arr := (arr C).

(** np.conj of a matrix. *)
Definition conj_mx m n (A : 'M[C]_(m, n)) : 'M[C]_(m, n) := map_mx conjC A.
(** corep.py:278-284. *)
Definition time_reversal_matrix : 'M[C]_2 := mx2 0 (-1) 1 0.
(** corep.py:290-299, one operation. *)
Definition get_magnetic_unitary_rotation (lattice : 'M[C]_3) (o : op) : pyres 'M[C]_2 :=
  bind (get_spinor_unitary_rotation E G lattice o.1) (fun U =>
  Ret (if o.2 then U *m time_reversal_matrix else U)).
(** corep.py:304-310: the product of two operators. *)
Definition operator_product (anti : bool) (A B : 'M[C]_2) : 'M[C]_2 :=
  if anti then A *m conj_mx B else A *m B.
(** corep.py:245-316: factor system, unitary rotations and anti_linear. *)
Definition get_corep_spinor_factor_system (lattice : 'M[C]_3) (rots : list mat) (flags : list bool)
  : pyres ((nat -> nat -> C) * seq 'M[C]_2 * seq bool) :=
  let ops := List.combine rots flags in
  bind (mapM (get_magnetic_unitary_rotation lattice) ops) (fun U =>
  let anti_linear := List.map snd ops in
  bind (get_cayley_table_ops ops) (fun t =>
  Ret (fun i j => find_multiplier (operator_product (List.nth i anti_linear false) (nth 0 U i) (nth 0 U j)) (nth 0 U (tget t i j)),
       U, anti_linear))).

(** corep.py:96-98 and its uses: the dictionary from an operation to its position in the XSG
    (maximal space subgroup), KeyError for a missing key. *)
Definition xsg_position (xsg : list nat) (x : nat) : cres nat :=
  if x \in xsg then COk (index x xsg) else CExn KeyError.

(** corep.py:131-141: the conjugated irrep. *)
Definition conjugated_irrep (t : table) (mu : nat -> nat -> C) (xsg : list nat) (a0 inv_a0 : nat) (A : arr)
  : cres (seq 'M[C]_(adim A)) :=
  cmap (fun u =>
    let c := tget t inv_a0 (tget t u a0) in
    cbind (xsg_position xsg c) (fun p => COk ((mu u a0 / mu a0 c) *: conj_mx (aget A p)))) xsg.

(** corep.py:159-162: the sum before rounding. *)
Definition corep_indicator_sum (mu : nat -> nat -> C) (a0u squares : list nat) (chars : seq C) : C :=
  \sum_(x <- zip a0u squares) mu x.1 x.1 * nth 0 chars x.2.
(** corep.py:150-186: the indicators with the positions of the chosen irreps.  The two
    assertions raise AssertionError. *)
Fixpoint corep_pairs (mu : nat -> nat -> C) (a0u squares : list nat) (order : nat) (chars conj_chars : seq (seq C))
    (todo : seq nat) (visited : seq bool) : cres (seq (int * nat)) :=
  if todo is i :: todo' then
    if nth true visited i then corep_pairs mu a0u squares order chars conj_chars todo' visited
    else
      let visited := set_nth true visited i true in
      let s := np_int E (corep_indicator_sum mu a0u squares (nth [::] chars i)) in
      if (s %% order%:Z)%Z != 0 then CExn AssertionError
      else
        let ind := (s %/ order%:Z)%Z in
        if ind != 0 then
          cbind (corep_pairs mu a0u squares order chars conj_chars todo' visited) (fun l => COk ((ind, i) :: l))
        else
          let j := find (fun j => ~~ nth true visited j &&
                     is_equivalent_irrep (np_around E) (nth [::] conj_chars i) (nth [::] chars j)) (iota 0 (size chars)) in
          if (j < size chars)%N then
            cbind (corep_pairs mu a0u squares order chars conj_chars todo' (set_nth true visited j true))
                  (fun l => COk ((ind, i) :: l))
          else CExn AssertionError
  else COk [::].

(** Assignment to positions of an array: a[idx] = vals. *)
Definition assign_at T (x0 : T) (a : seq T) (idx : seq nat) (vals : seq T) : seq T :=
  foldl (fun a p => set_nth x0 a p.1 p.2) a (zip idx vals).
(** corep.py:199-238: zeros, then corep[xsg_indices] = linear, then
    corep[a0u] = conj(factor_system[a0, xsg_indices]) * corep_a0 @ linear. *)
Definition fill_corep (order : nat) (mu : nat -> nat -> C) (xsg a0u : list nat) (a0 : nat) d
    (corep_a0 : 'M[C]_d) (linear : seq 'M[C]_d) : arr :=
  let half := assign_at 0 (nseq order 0) xsg linear in
  @Arr C d (assign_at 0 half a0u [seq ((mu a0 x.1)^* *: corep_a0) *m x.2 | x <- zip xsg linear]).

(** corep.py:195-238: one co-representation before the phases; the flag is false when
    get_intertwiner warned (it then returns zeros). *)
Definition make_corep (order : nat) (t : table) (mu : nat -> nat -> C) (xsg a0u : list nat) (a0 : nat)
    (atol : C) (max_num : nat) (ind : int) (A : arr) (B : seq 'M[C]_(adim A)) : cres (arr * bool) :=
  let doubled := [seq block_mx x.1 0 0 x.2 | x <- zip (amats A) B] in
  if (ind == 1) || (ind == -1) then
    if aorder A == size B then
      let found := get_intertwiner_mats (np_powinv E) (np_rnd E) atol max_num (amats A) B in
      let U := if found is Some U then U else 0 in
      COk (if ind == 1 then fill_corep order mu xsg a0u a0 U (amats A)
           else fill_corep order mu xsg a0u a0 (block_mx 0 (- U) U 0) doubled,
           isSome found)
    else CExn AssertionError
  else if ind == 0 then
    cbind (xsg_position xsg (tget t a0 a0)) (fun p =>
    COk (fill_corep order mu xsg a0u a0 (block_mx 0 (mu a0 a0 *: aget A p) 1%:M 0) doubled, true))
  else CExn ValueError.

(** corep.py:88-242.  The result is the co-representations, their indicators, the spin factor
    system, the unitary rotations, anti_linear and the flag "no warning". *)
Definition corep_result : Type := seq arr * seq int * (nat -> nat -> C) * seq 'M[C]_2 * seq bool * bool.
Definition co_irreps (r : corep_result) : seq arr := r.1.1.1.1.1.
Definition co_indicators (r : corep_result) : seq int := r.1.1.1.1.2.
Definition co_factors (r : corep_result) : nat -> nat -> C := r.1.1.1.2.
Definition co_rotations (r : corep_result) : seq 'M[C]_2 := r.1.1.2.
Definition co_anti_linear (r : corep_result) : seq bool := r.1.2.
Definition co_ok (r : corep_result) : bool := r.2.
(** corep.py:78-242. *)
Definition enumerate_spinor_small_corepresentations (lattice : 'M[C]_3) (rots : list mat) (trans : list vec) (flags : list bool)
    (k : vec) (method : string) (rtol atol : Q) (max_num : nat) : cres corep_result :=
  let order := List.length rots in
  if List.forallb negb flags then
    cbind (enumerate_spinor_small_representations E G lattice rots trans k method rtol atol max_num) (fun r =>
    COk (r.1.1.1, [::], r.1.1.2, r.1.2, nseq order false, r.2))
  else
    cbind (clift (decompose_by_maximal_space_subgroup (List.combine (List.combine rots trans) flags))) (fun d =>
    if d is Some (xsg, _, a0) then
      cbind (clift (get_corep_spinor_factor_system lattice rots flags)) (fun spin =>
      let mu i j := spin.1.1 i j * little_factor_system E rots trans k i j in
      cbind (enumerate_unitary_irreps E (List.map (fun i => List.nth i rots mid) xsg)
               (fun i j => mu (nth 0%N xsg i) (nth 0%N xsg j)) false method rtol atol max_num) (fun raw =>
      let irreps := raw.1.1 in
      cbind (clift (get_cayley_table_ops (List.combine rots flags))) (fun t =>
      let chars := [seq get_character A | A <- irreps] in
      cbind (clift (get_inverse_index t a0)) (fun inv_a0 =>
      cbind (cmap (fun A => cbind (conjugated_irrep t mu xsg a0 inv_a0 A)
                                  (fun B => COk (existT (fun A : arr => seq 'M[C]_(adim A)) A B))) irreps) (fun pairs =>
      let conj_chars := [seq get_character_mats (projT2 x) | x <- pairs] in
      let a0u := [seq tget t a0 u | u <- xsg] in
      cbind (cmap (fun x => xsg_position xsg (tget t x x)) a0u) (fun squares =>
      cbind (corep_pairs mu a0u squares (size xsg) chars conj_chars (iota 0 (size irreps)) (nseq (size irreps) false)) (fun chosen =>
      cbind (cmap (fun x : int * nat =>
               let p := nth (existT (fun A : arr => seq 'M[C]_(adim A)) (@Arr C 0 [::]) [::]) pairs x.2 in
               make_corep order t mu xsg a0u a0 (qC C atol) max_num x.1 (projT2 p)) chosen) (fun coreps =>
      COk ([seq apply_phases E trans k x.1 | x <- coreps], [seq x.1 | x <- chosen], spin.1.1, spin.1.2, spin.2,
           raw.2 && all snd coreps)))))))))
    else CExn TypeError).

(** core.py:463-593 with time_reversals given; also the mapping of the little group.
    get_little_group does not look at the time reversals. *)
Definition get_magnetic_spinor_irreps_from_primitive_symmetry (lattice : 'M[C]_3) (rots : list mat) (trans : list vec)
    (flags : list bool) (k : vec) (method : string) (rtol atol : Q) (max_num : nat) : cres (corep_result * list nat) :=
  if not_primitive atol rots trans then CExn ValueError
  else
    let: (lr, lt, lm) := get_little_group rots trans k atol in
    cbind (enumerate_spinor_small_corepresentations lattice lr lt (List.map (fun i => List.nth i flags false) lm) k
             method rtol atol max_num) (fun r => COk (r, lm)).

(** core.py:268-460 with magmoms given; the dataset and the converted k-point are arguments as
    in get_spacegroup_irreps. *)
Definition get_magnetic_spacegroup_spinor_irreps (choice hall_symbol : string) (hall_number : Z) (lattice : 'M[C]_3)
    (rots : list mat) (trans : list vec) (flags : list bool) (kpoint_conv : vec) (method : string) (rtol atol : Q)
    (max_num : nat) : cres (seq arr * (nat -> nat -> C) * seq 'M[C]_2 * seq bool * list nat * bool) :=
  cbind (clift (get_primitive_transformation_matrix choice hall_symbol hall_number)) (fun P =>
  let: (prim_rots, prim_trans, prim_k) := transform_symmetry_and_kpoint P rots trans kpoint_conv in
  let: (uniq_rots, uniq_trans, uniq_flags, M) := magnetic_unique_symmetry prim_rots prim_trans flags in
  cbind (get_magnetic_spinor_irreps_from_primitive_symmetry (primitive_lattice P lattice) uniq_rots uniq_trans uniq_flags
           prim_k method rtol atol max_num) (fun x =>
  let: (r, lm) := x in
  let: (irreps, lm) := adjust_phase_for_centering_translations E prim_trans prim_k uniq_trans M (co_irreps r) lm in
  COk (irreps, co_factors r, co_rotations r, co_anti_linear r, lm, co_ok r))).

(** core.py:596-686 with time_reversals given: zero translations and k = 0. *)
Definition get_magnetic_pointgroup_spinor_irreps_from_symmetry (lattice : 'M[C]_3) (rots : list mat) (flags : list bool)
    (method : string) (rtol atol : Q) (max_num : nat) : cres corep_result :=
  enumerate_spinor_small_corepresentations lattice rots (List.map (fun _ => vzero) rots) flags vzero method rtol atol max_num.
End CorepModel.
