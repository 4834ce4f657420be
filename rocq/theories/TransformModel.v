(** Model of src/spgrep/transform.py. *)
From Coq Require Import List Arith ZArith QArith Bool String Ascii.
From Verif Require Import Py Mat3 MatQ.
Import ListNotations.

(** transform.py:41-45, one rotation: [around(pinv @ R @ P).astype(int)]. *)
Definition transform_rotation (P : qmat) (r : mat) : mat :=
  qround (qmul (qmul (qinv P) (qofz r)) P).
(** transform.py:47, one translation: [pinv @ t] (never reduced). *)
Definition transform_translation (P : qmat) (t : vec) : vec := qvec (qinv P) t.
(** transform.py:49: [P.T @ k]. *)
Definition transform_kpoint (P : qmat) (k : vec) : vec := qtvec P k.

(** transform.py:13-52 transform_symmetry_and_kpoint. *)
Definition transform_symmetry_and_kpoint (P : qmat) (rots : list mat) (trans : list vec) (k : vec)
  : list mat * list vec * vec :=
  (map (transform_rotation P) rots, map (transform_translation P) trans, transform_kpoint P k).

(** transform.py:72-90 unique_primitive_symmetry: one pass with the accumulated unique
    rotations, unique translations and mapping; [i] is the loop counter.  Note that a new
    operation is mapped to [i] (line 87), a duplicate to its position [j] among the
    unique ones (line 82), exactly as in the code. *)
Fixpoint unique_loop (i : nat) (ops : list (mat * vec))
    (ur : list mat) (ut : list vec) (mp : list nat) : list mat * list vec * list nat :=
  match ops with
  | [] => (ur, ut, mp)
  | (r, t) :: ops' =>
      match find_index (meqb r) ur with
      | Some j => unique_loop (S i) ops' ur ut (mp ++ [j])
      | None => unique_loop (S i) ops' (ur ++ [r]) (ut ++ [vmap rem1 t]) (mp ++ [i])
      end
  end.
Definition unique_primitive_symmetry (rots : list mat) (trans : list vec)
  : list mat * list vec * list nat := unique_loop 0 (combine rots trans) [] [] [].

Inductive crystal_system :=
  Triclinic | Monoclinic | Orthorhombic | Tetragonal | Trigonal | Hexagonal | Cubic.

(** transform.py:172-180, the dictionary of ranges in insertion order. *)
Definition crystal_system_range : list (crystal_system * (Z * Z)) :=
  [(Triclinic, (1, 2)); (Monoclinic, (3, 107)); (Orthorhombic, (108, 348));
   (Tetragonal, (349, 429)); (Trigonal, (430, 461)); (Hexagonal, (462, 488)); (Cubic, (489, 530))]%Z.

(** transform.py:166-186 get_crystal_system. *)
Fixpoint crystal_search (l : list (crystal_system * (Z * Z))) (h : Z) : pyres crystal_system :=
  match l with
  | [] => Raise ValueError
  | (c, (lb, ub)) :: l' => if (lb <=? h)%Z && (h <=? ub)%Z then Ret c else crystal_search l' h
  end.
Definition get_crystal_system (h : Z) : pyres crystal_system := crystal_search crystal_system_range h.

(** transform.py:189-195 get_centering: first character, or the second after a minus.
    Indexing an absent character raises IndexError. *)
Definition get_centering (hall_symbol : string) : pyres ascii :=
  match hall_symbol with
  | EmptyString => Raise IndexError
  | String c rest =>
      if Ascii.eqb c "-" then
        match rest with EmptyString => Raise IndexError | String c' _ => Ret c' end
      else Ret c
  end.

(** transform.py:93-163: the matrices, row by row. *)
Definition prim_H : qmat := QMat (2#3) (-1#3) (-1#3) (1#3) (1#3) (-2#3) (1#3) (1#3) (1#3).
Definition prim_P : qmat := qid.
Definition prim_A : qmat := QMat 1 0 0 0 (1#2) (-1#2) 0 (1#2) (1#2).
Definition prim_B : qmat := QMat (1#2) 0 (-1#2) 0 1 0 (1#2) 0 (1#2).
Definition prim_C : qmat := QMat (1#2) (1#2) 0 (-1#2) (1#2) 0 0 0 1.
Definition prim_I : qmat := QMat (-1#2) (1#2) (1#2) (1#2) (-1#2) (1#2) (1#2) (1#2) (-1#2).
Definition prim_F : qmat := QMat 0 (1#2) (1#2) (1#2) 0 (1#2) (1#2) (1#2) 0.

(** transform.py:93-163 get_primitive_transformation_matrix.  [choice] and [hall_symbol]
    are the fields of spglib's get_spacegroup_type(hall_number) (oracle arguments). *)
Definition get_primitive_transformation_matrix (choice hall_symbol : string) (h : Z) : pyres qmat :=
  bind (get_crystal_system h) (fun cs =>
    match cs with
    | Trigonal =>
        if String.eqb choice "H" then Ret prim_H
        else if String.eqb choice "" || String.eqb choice "R" then Ret qid
        else Raise ValueError
    | _ =>
        bind (get_centering hall_symbol) (fun c =>
          if Ascii.eqb c "P" then Ret prim_P
          else if Ascii.eqb c "A" then Ret prim_A
          else if Ascii.eqb c "B" then Ret prim_B
          else if Ascii.eqb c "C" then Ret prim_C
          else if Ascii.eqb c "I" then Ret prim_I
          else if Ascii.eqb c "F" then Ret prim_F
          else Raise ValueError)
    end).
