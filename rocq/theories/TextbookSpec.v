(** The textbook lists of dimensions of the irreducible representations of the 32
    crystallographic point groups: single-valued and double-valued (spinor) ones, over the
    complex numbers.  Written down from character tables; no model function occurs. *)
From Coq Require Import List ZArith String.
From Verif Require Import Mat3.
Import ListNotations.
Local Open Scope string_scope.

Definition single_valued : list (string * list nat) := [
  ("1", [1]); ("-1", [1;1]);
  ("2", [1;1]); ("m", [1;1]); ("2/m", [1;1;1;1]);
  ("222", [1;1;1;1]); ("mm2", [1;1;1;1]); ("mmm", [1;1;1;1;1;1;1;1]);
  ("4", [1;1;1;1]); ("-4", [1;1;1;1]); ("4/m", [1;1;1;1;1;1;1;1]);
  ("422", [1;1;1;1;2]); ("4mm", [1;1;1;1;2]); ("-42m", [1;1;1;1;2]);
  ("4/mmm", [1;1;1;1;1;1;1;1;2;2]);
  ("3", [1;1;1]); ("-3", [1;1;1;1;1;1]); ("32", [1;1;2]); ("3m", [1;1;2]); ("-3m", [1;1;1;1;2;2]);
  ("6", [1;1;1;1;1;1]); ("-6", [1;1;1;1;1;1]); ("6/m", [1;1;1;1;1;1;1;1;1;1;1;1]);
  ("622", [1;1;1;1;2;2]); ("6mm", [1;1;1;1;2;2]); ("-6m2", [1;1;1;1;2;2]);
  ("6/mmm", [1;1;1;1;1;1;1;1;2;2;2;2]);
  ("23", [1;1;1;3]); ("m-3", [1;1;1;1;1;1;3;3]); ("432", [1;1;2;3;3]); ("-43m", [1;1;2;3;3]);
  ("m-3m", [1;1;1;1;2;2;3;3;3;3])].

Definition double_valued : list (string * list nat) := [
  ("1", [1]); ("-1", [1;1]);
  ("2", [1;1]); ("m", [1;1]); ("2/m", [1;1;1;1]);
  ("222", [2]); ("mm2", [2]); ("mmm", [2;2]);
  ("4", [1;1;1;1]); ("-4", [1;1;1;1]); ("4/m", [1;1;1;1;1;1;1;1]);
  ("422", [2;2]); ("4mm", [2;2]); ("-42m", [2;2]);
  ("4/mmm", [2;2;2;2]);
  ("3", [1;1;1]); ("-3", [1;1;1;1;1;1]); ("32", [1;1;2]); ("3m", [1;1;2]); ("-3m", [1;1;1;1;2;2]);
  ("6", [1;1;1;1;1;1]); ("-6", [1;1;1;1;1;1]); ("6/m", [1;1;1;1;1;1;1;1;1;1;1;1]);
  ("622", [2;2;2]); ("6mm", [2;2;2]); ("-6m2", [2;2;2]);
  ("6/mmm", [2;2;2;2;2;2]);
  ("23", [2;2;2]); ("m-3", [2;2;2;2;2;2]); ("432", [2;2;4]); ("-43m", [2;2;4]);
  ("m-3m", [2;2;2;2;4;4])].

(** Two operations whose proper parts are different rotations by 180 degrees. *)
Record twofold_pair (a b : mat) : Prop := {
  tp_a : mmul a a = mid;
  tp_b : mmul b b = mid;
  tp_a1 : a <> mid /\ a <> mneg mid;
  tp_b1 : b <> mid /\ b <> mneg mid;
  tp_ab : a <> b /\ a <> mneg b }.
