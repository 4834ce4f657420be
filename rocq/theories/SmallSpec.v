(** Specification vocabulary for small representations. *)
From Coq Require Import QArith ZArith List String Permutation.
From mathcomp Require Import all_ssreflect all_algebra.
From Verif Require Import Py Mat3 MatQ GroupModel GroupSpec PointGroupData PointGroupModel PointGroupSpec ChainModel RepSpec RepModel CExpSpec IndexRepSpec
  SmallModel ClaimsChain ClaimsRandom.
Import Order.TTheory GRing.Theory Num.Theory.
Set Implicit Arguments.
Unset Strict Implicit.
Unset Printing Implicit Defensive.
Local Open Scope ring_scope.

(** mul i j is the position of the product of the i-th and j-th rotation, e that of the
    identity. *)
Record multiplication (rots : list mat) (mul : nat -> nat -> nat) (e : nat) : Prop := {
  mt_lt : forall i j, (i < size rots)%N -> (j < size rots)%N -> (mul i j < size rots)%N;
  mt_mul : forall i j, (i < size rots)%N -> (j < size rots)%N ->
    List.nth (mul i j) rots mid = mmul (List.nth i rots mid) (List.nth j rots mid);
  mt_e : (e < size rots)%N;
  mt_id : List.nth e rots mid = mid }.

Section Law.
Variables (C : numClosedFieldType) (cexp : Q -> C).
(** The lattice translation by which the product (R_i,w_i)(R_j,w_j) differs from the listed
    operation: R_i w_j + w_i - w_ij. *)
Definition lattice_shift (rots : list mat) (trans : list vec) (mul : nat -> nat -> nat) (i j : nat) : vec :=
  vsub (vadd (mvec (List.nth i rots mid) (List.nth j trans vzero)) (List.nth i trans vzero))
       (List.nth (mul i j) trans vzero).
(** The factor system of the space-group representations at k, in which a lattice
    translation t is represented by exp(-2 pi i k.t). *)
Definition bloch_factor (rots : list mat) (trans : list vec) (k : vec) (mul : nat -> nat -> nat) (i j : nat) : C :=
  cexp (Qopp (vdot k (lattice_shift rots trans mul i j))).
End Law.

(** What is assumed of NumPy. *)
Record numpy_ok (C : numClosedFieldType) (E : numpy C) (rtol atol : Q) : Prop := {
  no_oracles : oracles (np_around E) (np_powinv E) (np_nroot E) (np_exp E) (qC C atol);
  no_numerics : numerics (np_around E) (np_eigh E) (np_qr E) (qC C rtol);
  no_int : forall (z : C) (m : int), `|'Re z - m%:~R| < 2%:R^-1 -> np_int E z = m }.
(** What is assumed of spglib's get_pointgroup: it answers with the symbol of a point group
    one of whose tabulated settings is the given group in the returned basis. *)
Definition spglib_ok (C : numClosedFieldType) (E : numpy C) (rots : list mat) : Prop :=
  let: (sym, P) := spglib_pointgroup E rots in
  [/\ ~ Qeq (qdet P) (inject_Z Z0),
      forall r, In r rots -> qintegral (qmul (qmul (qinv P) (qofz r)) P) &
      exists settings std, [/\ dict_get pg_dataset sym = Ret settings, In std settings &
        Permutation std (List.map (conj_round P) rots)]].
Definition method_ok (C : numClosedFieldType) (E : numpy C) (rots : list mat) (method : string) : Prop :=
  (method = "Neto"%string /\ spglib_ok E rots) \/ method = "random"%string.

(** Two arrays of the same shape whose entries differ by at most eps. *)
Definition near (C : numClosedFieldType) (eps : C) (A B : arr C) : Prop :=
  exists d (ms ns : seq 'M[C]_d), [/\ A = Arr ms, B = Arr ns, size ms = size ns &
    forall g i j, `|nth 0 ms g i j - nth 0 ns g i j| <= eps].
Definition arr_nth (C : numClosedFieldType) (L : seq (arr C)) (k : nat) : arr C := nth (@Arr C 0 [::]) L k.
Definition near_list (C : numClosedFieldType) (eps : C) (L L' : seq (arr C)) : Prop :=
  size L = size L' /\ forall k, (k < size L)%N -> near eps (arr_nth L k) (arr_nth L' k).
(** L is the full list of irreducible representations of the group of rotations with factor
    system mu. *)
Definition complete_list (C : numClosedFieldType) (rots : list mat) (mul : nat -> nat -> nat) (e : nat)
    (mu : nat -> nat -> C) (L : seq (arr C)) : Prop :=
  (forall k, (k < size L)%N -> aorder (arr_nth L k) = size rots) /\
  complete_irreps (size rots) mul e mu (size L) (fun k => aget (arr_nth L k)).
(** What the Frobenius-Schur indicator v of a representation D means: real, quaternionic or
    inequivalent to its complex conjugate. *)
Definition fs_meaning (C : numClosedFieldType) (n d : nat) (D : nat -> 'M[C]_d) (v : int) : Prop :=
  let inter X := forall g, (g < n)%N -> D g *m X = X *m map_mx conjC (D g) in
  [\/ v = 1 /\ exists U, [/\ inter U, U *m adj U = 1%:M & U^T = U],
      v = -1 /\ exists U, [/\ inter U, U *m adj U = 1%:M & U^T = - U] |
      v = 0 /\ forall X, inter X -> X = 0].
