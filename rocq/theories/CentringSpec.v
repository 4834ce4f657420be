(** Space groups listed with centring translations, and their small representations. *)
From Coq Require Import QArith ZArith List.
From mathcomp Require Import all_ssreflect all_algebra.
From Verif Require Import Py Mat3 RepSpec IndexRepSpec.
Import Order.TTheory GRing.Theory Num.Theory.
Set Implicit Arguments.
Unset Strict Implicit.
Unset Printing Implicit Defensive.
Local Open Scope ring_scope.

(** Operations in coordinates of a primitive basis; rotations may repeat (one copy per
    centring translation), products are listed up to integer translations. *)
Record centred_space_group (rots : list mat) (trans : list vec) : Prop := {
  cs_len : size trans = size rots;
  cs_id : In mid rots;
  cs_mul : forall a b, In a rots -> In b rots -> In (mmul a b) rots;
  cs_inv : forall a, In a rots -> exists b, In b rots /\ mmul a b = mid /\ mmul b a = mid;
  cs_closed : forall i j m, (i < size rots)%N -> (j < size rots)%N -> (m < size rots)%N ->
    List.nth m rots mid = mmul (List.nth i rots mid) (List.nth j rots mid) ->
    vint (vsub (vadd (mvec (List.nth i rots mid) (List.nth j trans vzero)) (List.nth i trans vzero)) (List.nth m trans vzero)) }.

(** lr, lt are taken from the listed operations, one for each position of lr, up to lattice
    translations of the primitive cell. *)
Definition representatives (rots : list mat) (trans : list vec) (lr : list mat) (lt : list vec) : Prop :=
  forall i, (i < size lr)%N -> exists x, [/\ (x < size rots)%N, List.nth x rots mid = List.nth i lr mid &
    vint (vsub (List.nth x trans vzero) (List.nth i lt vzero))].

Section Law.
Variables (C : numClosedFieldType) (cexp : Q -> C).
(** The operations are those at the positions lm; zeta is the factor of the rotation parts
    (1, or the sign of the spin rotations). *)
Variables (zeta : mat -> mat -> C) (rots : list mat) (trans : list vec) (k : vec) (lm : list nat).
Let R a := List.nth (List.nth a lm 0%N) rots mid.
Let w a := List.nth (List.nth a lm 0%N) trans vzero.
(** D is a representation of the operations in which (E,t) is exp(-2 pi i k.t). *)
Definition op_law d (D : nat -> 'M[C]_d) : Prop :=
  (forall a, (a < size lm)%N -> R a = mid -> D a = cexp (Qopp (vdot k (w a))) *: 1%:M) /\
  forall a b c, (a < size lm)%N -> (b < size lm)%N -> (c < size lm)%N -> R c = mmul (R a) (R b) ->
    D a *m D b = (zeta (R a) (R b) * cexp (Qopp (vdot k (vsub (vadd (mvec (R a) (w b)) (w a)) (w c))))) *: D c.
(** A full list of unitary irreducible representations of these operations. *)
Record centred_irreps (N : nat) (dim : nat -> nat) (D : forall m, nat -> 'M[C]_(dim m)) : Prop := {
  cen_law : forall m, (m < N)%N -> op_law (D m);
  cen_unitary : forall m, (m < N)%N -> iunitary (size lm) (D m);
  cen_irreducible : forall m, (m < N)%N -> iirreducible (size lm) (D m);
  cen_inequivalent : forall m l, (m < N)%N -> (l < N)%N -> m <> l -> ~ iequivalent (size lm) (D m) (D l);
  cen_complete : forall d (F : nat -> 'M[C]_d), op_law F -> iirreducible (size lm) F ->
    exists m, [/\ (m < N)%N, iequivalent (size lm) (D m) F &
      forall l, (l < N)%N -> iequivalent (size lm) (D l) F -> l = m];
  cen_squares : exists U, [/\ NoDup U, forall r, In r U <-> exists2 a, (a < size lm)%N & R a = r &
    (\sum_(m < N) dim m ^ 2 = size U)%N] }.
End Law.
