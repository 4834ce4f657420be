(** The textbook lists of dimensions of the irreducible representations of the 32
    crystallographic point groups over the real numbers (complex conjugate pairs joined).
    Written down from character tables; no model function occurs. *)
From Coq Require Import List String.
Import ListNotations.
Local Open Scope string_scope.

Definition physical : list (string * list nat) := [
  ("1", [1]); ("-1", [1;1]);
  ("2", [1;1]); ("m", [1;1]); ("2/m", [1;1;1;1]);
  ("222", [1;1;1;1]); ("mm2", [1;1;1;1]); ("mmm", [1;1;1;1;1;1;1;1]);
  ("4", [1;1;2]); ("-4", [1;1;2]); ("4/m", [1;1;2;1;1;2]);
  ("422", [1;1;1;1;2]); ("4mm", [1;1;1;1;2]); ("-42m", [1;1;1;1;2]);
  ("4/mmm", [1;1;1;1;2;1;1;1;1;2]);
  ("3", [1;2]); ("-3", [1;2;1;2]); ("32", [1;1;2]); ("3m", [1;1;2]); ("-3m", [1;1;2;1;1;2]);
  ("6", [1;1;2;2]); ("-6", [1;2;1;2]); ("6/m", [1;1;2;2;1;1;2;2]);
  ("622", [1;1;1;1;2;2]); ("6mm", [1;1;1;1;2;2]); ("-6m2", [1;1;2;1;1;2]);
  ("6/mmm", [1;1;1;1;2;2;1;1;1;1;2;2]);
  ("23", [1;2;3]); ("m-3", [1;2;3;1;2;3]); ("432", [1;1;2;3;3]); ("-43m", [1;1;2;3;3]);
  ("m-3m", [1;1;2;3;3;1;1;2;3;3])].
