(** Model of src/spgrep/pointgroup.py:665-718 (the literal tables are in PointGroupData.v). *)
From Coq Require Import List Arith ZArith QArith Bool String.
From Verif Require Import Py Mat3 MatQ PointGroupData.
Import ListNotations.

(** Dictionary lookup; a missing key raises KeyError. *)
Fixpoint dict_get {A} (d : list (string * A)) (key : string) : pyres A :=
  match d with
  | [] => Raise KeyError
  | (k, v) :: d' => if String.eqb k key then Ret v else dict_get d' key
  end.
(** List indexing; out of range raises IndexError (non-negative indices only). *)
Definition list_get {A} (l : list A) (i : nat) : pyres A :=
  match nth_error l i with Some a => Ret a | None => Raise IndexError end.

(** pointgroup.py:671-678 _get_generators.  The recursion follows the chain table; [fuel]
    bounds the depth and None is returned when it runs out (never, see C18). *)
Fixpoint get_generators_fuel (fuel : nat) (sym : string) (idx : nat) (gens : list nat)
  : option (pyres (list nat)) :=
  match fuel with
  | O => None
  | S f =>
      if String.eqb sym "1" then Some (Ret gens)
      else match bind (dict_get pg_solvable_chain sym) (fun l => list_get l idx) with
           | Raise e => Some (Raise e)
           | Ret ((nsym, nidx), g) => get_generators_fuel f nsym nidx (gens ++ [g])
           end
  end.
(** pointgroup.py:665-668 get_generators (32 point groups, so 32 levels at most). *)
Definition get_generators (sym : string) (idx : nat) : option (pyres (list nat)) :=
  get_generators_fuel 33 sym idx [].

(** pointgroup.py:706: [ndarray2d_to_integer_tuple(Pinv @ r @ P)]. *)
Definition conj_round (P : qmat) (r : mat) : mat := qround (qmul (qmul (qinv P) (qofz r)) P).

(** pointgroup.py:708-716: the mapping of one tabulated setting into the matched list,
    None when some operation is absent. *)
Fixpoint match_setting (matched std : list mat) : option (list nat) :=
  match std with
  | [] => Some []
  | r :: std' =>
      match find_index (meqb r) matched with
      | None => None
      | Some j => match match_setting matched std' with None => None | Some l => Some (j :: l) end
      end
  end.

(** pointgroup.py:704-721, loop over the settings.  When the setting has more operations
    than the input the assignment mapping[i] raises IndexError; this cannot happen when
    the matched operations are distinct and is not modelled.  The ValueError at line 717
    is constructed but not raised. *)
Fixpoint match_loop (sym : string) (matched : list mat) (idx : nat) (settings : list (list mat))
  : option (pyres (list nat)) :=
  match settings with
  | [] => Some (Ret [])
  | std :: rest =>
      match match_setting matched std with
      | Some mapping =>
          match get_generators sym idx with
          | None => None
          | Some (Raise e) => Some (Raise e)
          | Some (Ret gens) => Some (mapM (fun g => list_get mapping g) gens)
          end
      | None => match_loop sym matched (S idx) rest
      end
  end.

(** pointgroup.py:681-718 get_pointgroup_chain_generators.  [sym] and [P] are spglib's
    answer get_pointgroup(prim_rotations). *)
Definition get_pointgroup_chain_generators (sym : string) (P : qmat) (rots : list mat)
  : option (pyres (list nat)) :=
  match dict_get pg_dataset sym with
  | Raise e => Some (Raise e)
  | Ret settings => match_loop sym (map (conj_round P) rots) 0 settings
  end.
