(** Specification data for the 32 crystallographic point groups: numbers of rotations of
    each type, in the order -6 -4 -3 -2 -1 1 2 3 4 6 (International Tables A). *)
From Coq Require Import List ZArith String Bool.
From Verif Require Import Mat3.
Import ListNotations.
Open Scope string_scope.

(** Type of a crystallographic rotation from determinant and trace. *)
Definition rotation_type (r : mat) : option Z :=
  match mdet r, mtrace r with
  | 1, 3 => Some 1 | 1, -1 => Some 2 | 1, 0 => Some 3 | 1, 1 => Some 4 | 1, 2 => Some 6
  | -1, -3 => Some (-1) | -1, 1 => Some (-2) | -1, 0 => Some (-3) | -1, -1 => Some (-4) | -1, -2 => Some (-6)
  | _, _ => None
  end%Z.
Definition type_count (t : Z) (l : list mat) : nat :=
  List.length (filter (fun r => match rotation_type r with Some t' => Z.eqb t t' | None => false end) l).
Definition rotation_types : list Z := [-6; -4; -3; -2; -1; 1; 2; 3; 4; 6]%Z.

Definition point_groups : list (string * list nat) := [
  ("1", [0;0;0;0;0;1;0;0;0;0]); ("-1", [0;0;0;0;1;1;0;0;0;0]);
  ("2", [0;0;0;0;0;1;1;0;0;0]); ("m", [0;0;0;1;0;1;0;0;0;0]); ("2/m", [0;0;0;1;1;1;1;0;0;0]);
  ("222", [0;0;0;0;0;1;3;0;0;0]); ("mm2", [0;0;0;2;0;1;1;0;0;0]); ("mmm", [0;0;0;3;1;1;3;0;0;0]);
  ("4", [0;0;0;0;0;1;1;0;2;0]); ("-4", [0;2;0;0;0;1;1;0;0;0]); ("4/m", [0;2;0;1;1;1;1;0;2;0]);
  ("422", [0;0;0;0;0;1;5;0;2;0]); ("4mm", [0;0;0;4;0;1;1;0;2;0]); ("-42m", [0;2;0;2;0;1;3;0;0;0]);
  ("4/mmm", [0;2;0;5;1;1;5;0;2;0]);
  ("3", [0;0;0;0;0;1;0;2;0;0]); ("-3", [0;0;2;0;1;1;0;2;0;0]); ("32", [0;0;0;0;0;1;3;2;0;0]);
  ("3m", [0;0;0;3;0;1;0;2;0;0]); ("-3m", [0;0;2;3;1;1;3;2;0;0]);
  ("6", [0;0;0;0;0;1;1;2;0;2]); ("-6", [2;0;0;1;0;1;0;2;0;0]); ("6/m", [2;0;2;1;1;1;1;2;0;2]);
  ("622", [0;0;0;0;0;1;7;2;0;2]); ("6mm", [0;0;0;6;0;1;1;2;0;2]); ("-6m2", [2;0;0;4;0;1;3;2;0;0]);
  ("6/mmm", [2;0;2;7;1;1;7;2;0;2]);
  ("23", [0;0;0;0;0;1;3;8;0;0]); ("m-3", [0;0;8;3;1;1;3;8;0;0]); ("432", [0;0;0;0;0;1;9;8;6;0]);
  ("-43m", [0;6;0;6;0;1;3;8;0;0]); ("m-3m", [0;6;8;9;1;1;9;8;6;0])]%nat.
