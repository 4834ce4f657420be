(** Model of src/spgrep/utils.py:124-168, [mode_dot], on NumPy arrays of any rank. *)
From Verif Require Import Py.
From mathcomp Require Import all_ssreflect all_algebra.
Import GRing.Theory.
Set Implicit Arguments.
Unset Strict Implicit.
Unset Printing Implicit Defensive.
Local Open Scope ring_scope.

(** An array: its shape and its value at every index (only indices inside the shape matter). *)
Record ndarray (R : Type) := Nd { nshape : seq nat; at_ : seq nat -> R }.

Section Mode.
Variable R : comRingType.
Implicit Types (x y : ndarray R) (s : seq nat).

Definition ndim x := size (nshape x).

(** Exchange the entries at positions i and j of a list. *)
Definition sswap (i j : nat) s := mkseq (fun k => nth 0%N s (if k == i then j else if k == j then i else k)) (size s).

(** np.swapaxes(x, i, j); an axis outside the rank raises AxisError, a ValueError. *)
Definition swapaxes x i j : pyres (ndarray R) :=
  if (i < ndim x)%N && (j < ndim x)%N then Ret (Nd (sswap i j (nshape x)) (fun s => at_ x (sswap i j s)))
  else Raise ValueError.

(** x.reshape((1, ) + x.shape) *)
Definition add_front x := Nd (1%N :: nshape x) (fun s => at_ x (behead s)).
(** x.reshape(x.shape + (1, ) * n) *)
Definition add_back n x := Nd (nshape x ++ nseq n 1%N) (fun s => at_ x (take (ndim x) s)).

(** Broadcasting of one axis: equal sizes, or one of them 1. *)
Definition bdim (a b : nat) : pyres nat :=
  if a == b then Ret a else if a == 1%N then Ret b else if b == 1%N then Ret a else Raise ValueError.
Definition lpad n s := nseq (n - size s) 1%N ++ s.
Fixpoint bshape s1 s2 : pyres (seq nat) :=
  match s1, s2 with
  | a :: s1', b :: s2' => bind (bdim a b) (fun d => bind (bshape s1' s2') (fun r => Ret (d :: r)))
  | _, _ => Ret [::]
  end.
(** The index used in an array of shape sh for the broadcast index s. *)
Definition bidx sh s := [seq (if p.1 == 1%N then 0%N else p.2) | p <- zip sh (drop (size s - size sh) s)].

(** x * y *)
Definition multiply x y : pyres (ndarray R) :=
  let n := maxn (ndim x) (ndim y) in
  bind (bshape (lpad n (nshape x)) (lpad n (nshape y))) (fun sh =>
  Ret (Nd sh (fun s => at_ x (bidx (nshape x) s) * at_ y (bidx (nshape y) s)))).

(** np.sum(x, axis=ax, keepdims=True) *)
Definition sum_axis ax x : pyres (ndarray R) :=
  if (ax < ndim x)%N then
    Ret (Nd (set_nth 0%N (nshape x) ax 1%N) (fun s => \sum_(i < nth 0%N (nshape x) ax) at_ x (set_nth 0%N s ax i)))
  else Raise ValueError.

(** x[0] *)
Definition first x : pyres (ndarray R) :=
  match nshape x with
  | d :: sh => if (0 < d)%N then Ret (Nd sh (fun s => at_ x (0%N :: s))) else Raise IndexError
  | [::] => Raise IndexError
  end.

(** utils.py:139-163 [_mode_dot] *)
Definition mode_dot1 (tensor mat : ndarray R) (axis : nat) : pyres (ndarray R) :=
  let tensor_reshaped := add_front tensor in
  bind (swapaxes (add_back (ndim tensor).-1 mat) 0 1) (fun m1 =>
  bind (swapaxes m1 1 axis.+1) (fun mat_reshaped =>
  bind (multiply tensor_reshaped mat_reshaped) (fun p =>
  bind (sum_axis axis.+1 p) (fun q =>
  bind (swapaxes q 0 axis.+1) first)))).

(** utils.py:165-168 *)
Fixpoint mode_dot_loop (ret : ndarray R) (list_matrix : seq (ndarray R)) (axis : nat) : pyres (ndarray R) :=
  match list_matrix with
  | [::] => Ret ret
  | m :: ms => bind (mode_dot1 ret m axis) (fun r => mode_dot_loop r ms axis.+1)
  end.

(** utils.py:124-168 [mode_dot] *)
Definition mode_dot (coeffs : ndarray R) (list_matrix : seq (ndarray R)) : pyres (ndarray R) :=
  mode_dot_loop coeffs list_matrix 0.
End Mode.
