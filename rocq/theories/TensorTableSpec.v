(** The textbook numbers of independent components of a polar tensor of rank 1, 2, 3 and 4 without
    intrinsic symmetry, for the 32 crystallographic point groups.  Written down by hand; no
    model function occurs. *)
From Coq Require Import List String ZArith.
From Verif Require Import Mat3.
Import ListNotations.
Local Open Scope string_scope.

Definition tensor_components : list (string * list nat) := [
  ("1", [3;9;27;81]); ("-1", [0;9;0;81]);
  ("2", [1;5;13;41]); ("m", [2;5;14;41]); ("2/m", [0;5;0;41]);
  ("222", [0;3;6;21]); ("mm2", [1;3;7;21]); ("mmm", [0;3;0;21]);
  ("4", [1;3;7;21]); ("-4", [0;3;6;21]); ("4/m", [0;3;0;21]);
  ("422", [0;2;3;11]); ("4mm", [1;2;4;11]); ("-42m", [0;2;3;11]); ("4/mmm", [0;2;0;11]);
  ("3", [1;3;9;27]); ("-3", [0;3;0;27]); ("32", [0;2;4;14]); ("3m", [1;2;5;14]); ("-3m", [0;2;0;14]);
  ("6", [1;3;7;19]); ("-6", [0;3;2;19]); ("6/m", [0;3;0;19]);
  ("622", [0;2;3;10]); ("6mm", [1;2;4;10]); ("-6m2", [0;2;1;10]); ("6/mmm", [0;2;0;10]);
  ("23", [0;1;2;7]); ("m-3", [0;1;0;7]); ("432", [0;1;1;4]); ("-43m", [0;1;1;4]); ("m-3m", [0;1;0;4])].

(** The sum of the k-th powers of the traces of a list of rotations. *)
Definition trace_power (k : nat) (l : list mat) : Z := fold_right Z.add 0%Z (map (fun r => Z.pow (mtrace r) (Z.of_nat k)) l).
