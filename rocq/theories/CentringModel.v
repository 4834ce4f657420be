(** Model of core.py:33-131 (get_spacegroup_irreps) and 694-732
    (_adjust_phase_for_centering_translations). *)
From Coq Require List.
From Coq Require Import QArith ZArith String.
From mathcomp Require Import all_ssreflect all_algebra.
From Verif Require Import Py Mat3 MatQ GroupModel TransformModel RepSpec RepModel ChainModel RandomModel SmallModel.
Import Order.TTheory GRing.Theory Num.Theory.
Set Implicit Arguments.
Unset Strict Implicit.
Unset Printing Implicit Defensive.
Local Open Scope ring_scope.

(** core.py:702-704: the dictionary idx |-> i; a later entry replaces an earlier one. *)
Definition remapping (lm : list nat) : nat -> option nat :=
  List.fold_left (fun d p => fun x => if Nat.eqb x (snd p) then Some (fst p) else d x) (enumerate lm) (fun _ => None).

(** core.py:706-721: for every operation of the conventional cell in the little group its
    position, the position of its image in the primitive little group and the shift. *)
Definition select_little (prim_trans uniq_trans : list vec) (M lm : list nat) : list (nat * (nat * vec)) :=
  List.flat_map (fun p => match remapping lm (snd p) with
    | None => [::]
    | Some l => [:: (fst p, (l, vsub (List.nth (fst p) prim_trans vzero) (List.nth (snd p) uniq_trans vzero)))]
    end) (enumerate M).

Section CentringModel.
Variable C : numClosedFieldType.
Variable E : numpy C.

(** core.py:694-732.  purify_irrep_value is called with its default tolerance 1e-8. *)
Definition adjust_one (k : vec) (sel : list (nat * (nat * vec))) (A : arr C) : arr C :=
  @Arr C (adim A) [seq np_exp E (Qopp (vdot k x.2.2)) *: aget A x.2.1 | x <- sel].
Definition adjust_phase_for_centering_translations (prim_trans : list vec) (k : vec) (uniq_trans : list vec)
    (M : list nat) (irreps : seq (arr C)) (lm : list nat) : seq (arr C) * list nat :=
  let sel := select_little prim_trans uniq_trans M lm in
  ([seq purify_irrep_value E (qC C atol_default) (adjust_one k sel A) | A <- irreps], List.map fst sel).

(** core.py:33-131 get_spacegroup_irreps.  The dataset of spglib (operations, Hall number,
    choice and Hall symbol of the space group type) and the converted k-point of line 91 are
    arguments; the k-point conversion is modelled by convert_kpoint in SpinorModel. *)
Definition get_spacegroup_irreps (choice hall_symbol : string) (hall_number : Z) (rots : list mat) (trans : list vec)
    (kpoint_conv : vec) (method : string) (rtol atol : Q) (max_num : nat) : cres (seq (arr C) * list nat * bool) :=
  cbind (clift (get_primitive_transformation_matrix choice hall_symbol hall_number)) (fun P =>
  let: (prim_rots, prim_trans, prim_k) := transform_symmetry_and_kpoint P rots trans kpoint_conv in
  let: (uniq_rots, uniq_trans, M) := unique_primitive_symmetry prim_rots prim_trans in
  cbind (get_spacegroup_irreps_from_primitive_symmetry E uniq_rots uniq_trans prim_k false method rtol atol max_num) (fun r =>
  let: (irreps, lm, ok) := r in
  let: (irreps, lm) := adjust_phase_for_centering_translations prim_trans prim_k uniq_trans M irreps lm in
  COk (irreps, lm, ok))).
End CentringModel.
