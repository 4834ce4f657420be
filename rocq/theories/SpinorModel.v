(** Model of spinor.py:15-218, of the k-point and lattice conversions core.py:89-93, 361-366,
    387, and of the spinor functions core.py:268-460, 463-593, 596-686 without time reversal.
    Floating-point numbers are real elements of C; the tolerances of np.allclose and
    np.isclose (default values) are kept. *)
From Coq Require List.
From Coq Require Import QArith ZArith String.
From mathcomp Require Import all_ssreflect all_algebra.
From Verif Require Import Py Mat3 MatQ GroupModel TransformModel RepSpec RepModel Mx2 ChainModel RandomModel SmallModel CentringModel.
Import Order.TTheory GRing.Theory Num.Theory.
Set Implicit Arguments.
Unset Strict Implicit.
Unset Printing Implicit Defensive.
Local Open Scope ring_scope.

(** np.cos, np.sin, np.pi, np.arctan2. *)
Record trig (C : numClosedFieldType) := Trig { t_cos : C -> C; t_sin : C -> C; t_pi : C; t_arctan2 : C -> C -> C }.

Section SpinorModel.
Variable C : numClosedFieldType.
Variables (E : numpy C) (G : trig C).

(** An integer or rational matrix as a complex one. *)
Definition mx3 (a b c d e f g h i : C) : 'M[C]_3 :=
  \matrix_(x, y) nth 0 (nth [::] [:: [:: a; b; c]; [:: d; e; f]; [:: g; h; i]] x) y.
Definition mC (r : mat) : 'M[C]_3 :=
  mx3 (zC C (m11 r)) (zC C (m12 r)) (zC C (m13 r)) (zC C (m21 r)) (zC C (m22 r)) (zC C (m23 r))
      (zC C (m31 r)) (zC C (m32 r)) (zC C (m33 r)).
Definition qmC (P : qmat) : 'M[C]_3 :=
  mx3 (qC C (q11 P)) (qC C (q12 P)) (qC C (q13 P)) (qC C (q21 P)) (qC C (q22 P)) (qC C (q23 P))
      (qC C (q31 P)) (qC C (q32 P)) (qC C (q33 P)).
Definition vC (k : vec) : 'rV[C]_3 := \row_i nth 0 [:: qC C (v1 k); qC C (v2 k); qC C (v3 k)] i.

(** np.isclose(a, b) and np.allclose(a, b): |a - b| <= 1e-8 + 1e-5 |b|. *)
Definition isclose (a b : C) : bool := `|a - b| <= qC C (Qmake 1 100000000) + qC C (Qmake 1 100000) * `|b|.
Definition allclose m n (A B : 'M[C]_(m, n)) : bool := [forall i, forall j, isclose (A i j) (B i j)].

(** core.py:89-93, 361-366: the k-point in the dual basis of the lattice, whose rows are the
    basis vectors. *)
Definition dual_lattice (lattice : 'M[C]_3) : 'M[C]_3 := (invmx lattice)^T.
Definition convert_kpoint (lattice : 'M[C]_3) (reciprocal : option 'M[C]_3) (k : 'rV[C]_3) : 'rV[C]_3 :=
  let dual := dual_lattice lattice in
  let reciprocal := if reciprocal is Some r then r else dual in
  k *m reciprocal *m invmx dual.
(** core.py:387: to_primitive.T @ lattice. *)
Definition primitive_lattice (P : qmat) (lattice : 'M[C]_3) : 'M[C]_3 := (qmC P)^T *m lattice.

(** np.linalg.norm. *)
Definition norm2 n (v : 'cV[C]_n) : C := sqrtC (\sum_i `|v i 0| ^+ 2).
(** spinor.py:199-203: the first component not close to 0 is made positive. *)
Definition fix_direction (v : 'cV[C]_3) : 'cV[C]_3 :=
  let j := find (fun j => ~~ isclose (v j 0) 0) (enum 'I_3) in
  if (j < 3)%N then (if v (nth ord0 (enum 'I_3) j) 0 < 0 then - v else v) else v.
(** spinor.py:195-203. *)
Definition axis_of_column (v : 'cV[C]_3) : 'cV[C]_3 :=
  let r := map_mx (fun z => 'Re z) v in fix_direction ((norm2 r)^-1 *: r).
(** spinor.py:190-203: the last eigenvalue close to 1 decides; None when there is none. *)
Definition axis_of_twofold (R : 'M[C]_3) : option 'cV[C]_3 :=
  let ev := np_eig E R in
  foldl (fun axis (i : 'I_3) => if isclose (nth 0 ev.1 i) 1 then Some (axis_of_column (col i ev.2)) else axis)
        None (enum 'I_3).
Definition cv3 (a b c : C) : 'cV[C]_3 := \col_i nth 0 [:: a; b; c] i.
Definition x0 : 'I_3 := ord0.
Definition x1 : 'I_3 := lift ord0 ord0.
Definition x2 : 'I_3 := lift ord0 (lift ord0 ord0).
(** spinor.py:176-218. *)
Definition get_rotation_angle_and_axis (R : 'M[C]_3) : C * option 'cV[C]_3 :=
  if allclose R 1%:M then (0, Some (cv3 0 0 1))
  else
    let cos_theta := (\tr R - 1) / 2%:R in
    if isclose cos_theta (-1) then (t_pi G, axis_of_twofold R)
    else
      let nondiag := cv3 (R x1 x2 - R x2 x1) (R x2 x0 - R x0 x2) (R x0 x1 - R x1 x0) in
      let sin_theta := norm2 nondiag / 2%:R in
      (t_arctan2 G sin_theta cos_theta, Some ((- 2%:R * sin_theta)^-1 *: nondiag)).

(** spinor.py:148-173.  An axis None makes cart_axis[2] raise TypeError. *)
Definition spin_matrix (c s : C) (n : 'cV[C]_3) : 'M[C]_2 :=
  mx2 (c - 'i * n x2 0 * s) (s * (- 'i * n x0 0 - n x1 0))
      (s * (- 'i * n x0 0 + n x1 0)) (c + 'i * n x2 0 * s).
Definition proper_part (r : mat) : mat := if Z.ltb 0 (mdet r) then r else mneg r.
Definition cart_rotation (lattice : 'M[C]_3) (r : mat) : 'M[C]_3 :=
  lattice^T *m mC (proper_part r) *m invmx lattice^T.
Definition get_spinor_unitary_rotation (lattice : 'M[C]_3) (r : mat) : pyres 'M[C]_2 :=
  let: (theta, axis) := get_rotation_angle_and_axis (cart_rotation lattice r) in
  match axis with
  | None => Raise TypeError
  | Some n => Ret (spin_matrix (t_cos G (2%:R^-1 * theta)) (t_sin G (2%:R^-1 * theta)) n)
  end.

(** spinor.py:140-143, corep.py:311-314: -1 is tried before 1; the entry stays 0 if neither
    fits. *)
Definition find_multiplier (A B : 'M[C]_2) : C :=
  if allclose A (- B) then -1 else if allclose A B then 1 else 0.
(** spinor.py:97-145. *)
Definition get_spinor_factor_system (lattice : 'M[C]_3) (rots : list mat) : pyres ((nat -> nat -> C) * seq 'M[C]_2) :=
  bind (mapM (get_spinor_unitary_rotation lattice) rots) (fun U =>
  bind (get_cayley_table rots) (fun t =>
  Ret (fun i j => find_multiplier (nth 0 U i *m nth 0 U j) (nth 0 U (tget t i j)), U))).

(** spinor.py:15-94: irreps, spinor factor system, rotations and the flag "no warning". *)
Definition enumerate_spinor_small_representations (lattice : 'M[C]_3) (rots : list mat) (trans : list vec) (k : vec)
    (method : string) (rtol atol : Q) (max_num : nat) : cres (seq (arr C) * (nat -> nat -> C) * seq 'M[C]_2 * bool) :=
  cbind (clift (get_spinor_factor_system lattice rots)) (fun zU =>
  cbind (enumerate_unitary_irreps E rots (fun i j => zU.1 i j * little_factor_system E rots trans k i j) false
           method rtol atol max_num) (fun r =>
  COk ([seq apply_phases E trans k A | A <- r.1.1], zU.1, zU.2, r.2))).

(** core.py:463-593 with time_reversals=None: also the mapping of the little group. *)
Definition get_spacegroup_spinor_irreps_from_primitive_symmetry (lattice : 'M[C]_3) (rots : list mat) (trans : list vec)
    (k : vec) (method : string) (rtol atol : Q) (max_num : nat)
  : cres (seq (arr C) * (nat -> nat -> C) * seq 'M[C]_2 * list nat * bool) :=
  if not_primitive atol rots trans then CExn ValueError
  else
    let: (lr, lt, lm) := get_little_group rots trans k atol in
    cbind (enumerate_spinor_small_representations lattice lr lt k method rtol atol max_num) (fun r =>
    let: (irreps, z, U, ok) := r in COk (irreps, z, U, lm, ok)).

(** core.py:268-460 with magmoms=None; the dataset and the converted k-point are arguments as
    in get_spacegroup_irreps. *)
Definition get_spacegroup_spinor_irreps (choice hall_symbol : string) (hall_number : Z) (lattice : 'M[C]_3)
    (rots : list mat) (trans : list vec) (kpoint_conv : vec) (method : string) (rtol atol : Q) (max_num : nat)
  : cres (seq (arr C) * (nat -> nat -> C) * seq 'M[C]_2 * list nat * bool) :=
  cbind (clift (get_primitive_transformation_matrix choice hall_symbol hall_number)) (fun P =>
  let: (prim_rots, prim_trans, prim_k) := transform_symmetry_and_kpoint P rots trans kpoint_conv in
  let: (uniq_rots, uniq_trans, M) := unique_primitive_symmetry prim_rots prim_trans in
  cbind (get_spacegroup_spinor_irreps_from_primitive_symmetry (primitive_lattice P lattice) uniq_rots uniq_trans prim_k
           method rtol atol max_num) (fun r =>
  let: (irreps, z, U, lm, ok) := r in
  let: (irreps, lm) := adjust_phase_for_centering_translations E prim_trans prim_k uniq_trans M irreps lm in
  COk (irreps, z, U, lm, ok))).

(** core.py:596-686 with time_reversals=None. *)
Definition get_crystallographic_pointgroup_spinor_irreps_from_symmetry (lattice : 'M[C]_3) (rots : list mat)
    (method : string) (rtol atol : Q) (max_num : nat) : cres (seq (arr C) * (nat -> nat -> C) * seq 'M[C]_2 * bool) :=
  cbind (clift (get_spinor_factor_system lattice rots)) (fun zU =>
  cbind (enumerate_unitary_irreps E rots zU.1 false method rtol atol max_num) (fun r =>
  COk (r.1.1, zU.1, zU.2, r.2))).
End SpinorModel.
