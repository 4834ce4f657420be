(** Specification vocabulary for group.py: what a user means by "group", "order", ...
    Nothing here refers to the model functions. *)
From Coq Require Import List Arith ZArith QArith Bool.
From Verif Require Import Py Mat3.
Import ListNotations.

(** A list of integer matrices lists a group of matrices exactly once each. *)
Record lists_group (l : list mat) : Prop := {
  lg_nodup : NoDup l;
  lg_id : In mid l;
  lg_mul : forall a b, In a l -> In b l -> In (mmul a b) l;
  lg_inv : forall a, In a l -> exists b, In b l /\ mmul a b = mid /\ mmul b a = mid }.

(** Magnetic operations: product of the rotation parts, parity of the flags. *)
Definition mag_mul (a b : mat * bool) : mat * bool :=
  (mmul (fst a) (fst b), xorb (snd a) (snd b)).
Record lists_magnetic_group (l : list (mat * bool)) : Prop := {
  mg_nodup : NoDup l;
  mg_id : In (mid, false) l;
  mg_mul : forall a b, In a l -> In b l -> In (mag_mul a b) l;
  mg_inv : forall a, In a l -> exists b, In b l /\ mag_mul a b = (mid, false) /\ mag_mul b a = (mid, false) }.

(** A binary operation on the indices 0..n-1 is a group law with identity e. *)
Record group_law (n : nat) (m : nat -> nat -> nat) (e : nat) : Prop := {
  gl_closed : forall i j, i < n -> j < n -> m i j < n;
  gl_assoc : forall i j k, i < n -> j < n -> k < n -> m i (m j k) = m (m i j) k;
  gl_e : e < n;
  gl_1l : forall i, i < n -> m e i = i;
  gl_1r : forall i, i < n -> m i e = i;
  gl_inv : forall i, i < n -> exists j, j < n /\ m i j = e /\ m j i = e }.

(** Powers: [mpow m e a k] = a^k. *)
Fixpoint mpow (m : nat -> nat -> nat) (e a k : nat) : nat :=
  match k with O => e | S k' => m (mpow m e a k') a end.

(** d is the order of the element a. *)
Definition is_element_order (m : nat -> nat -> nat) (e a d : nat) : Prop :=
  1 <= d /\ mpow m e a d = e /\ forall d', 1 <= d' -> d' < d -> mpow m e a d' <> e.

(** The k-point is fixed modulo the reciprocal lattice by the transposed rotation. *)
Definition fixes_kpoint (k : vec) (r : mat) : Prop := vint (vsub (mtvec r k) k).

(** A k-point whose coordinates have common denominator D. *)
Definition has_denominator (D : positive) (k : vec) : Prop :=
  qint (inject_Z (Zpos D) * v1 k) /\ qint (inject_Z (Zpos D) * v2 k) /\ qint (inject_Z (Zpos D) * v3 k).

(** A space group in a primitive cell, listed by coset representatives of its lattice. *)
Record lists_space_group (rots : list mat) (trans : list vec) : Prop := {
  sg_len : length trans = length rots;
  sg_rots : lists_group rots;
  sg_closed : forall i j k, i < length rots -> j < length rots -> k < length rots ->
     nth k rots mid = mmul (nth i rots mid) (nth j rots mid) ->
     vint (vsub (vadd (mvec (nth i rots mid) (nth j trans vzero)) (nth i trans vzero))
                (nth k trans vzero)) }.

(** Magnetic space-group operations (rotation, translation, time reversal): product
    (W,w,s)(V,v,u) = (WV, Wv + w, s xor u), and equality modulo lattice translations. *)
Definition msg_mul (a b : mat * vec * bool) : mat * vec * bool :=
  let '(ra, ta, sa) := a in let '(rb, tb, sb) := b in
  (mmul ra rb, vadd (mvec ra tb) ta, xorb sa sb).
Definition msg_equiv (a b : mat * vec * bool) : Prop :=
  let '(ra, ta, sa) := a in let '(rb, tb, sb) := b in
  ra = rb /\ vint (vsub ta tb) /\ sa = sb.
Definition msg_one : mat * vec * bool := (mid, vzero, false).

(** A magnetic space group listed by coset representatives of its lattice. *)
Record lists_magnetic_space_group (ops : list (mat * vec * bool)) : Prop := {
  ms_distinct : forall i j, i < length ops -> j < length ops ->
     msg_equiv (nth i ops msg_one) (nth j ops msg_one) -> i = j;
  ms_one : exists a, In a ops /\ msg_equiv a msg_one;
  ms_mul : forall a b, In a ops -> In b ops -> exists c, In c ops /\ msg_equiv c (msg_mul a b);
  ms_inv : forall a, In a ops -> exists b, In b ops /\ msg_equiv (msg_mul a b) msg_one }.

(** The translations have a common denominator D. *)
Definition translations_over (D : positive) (ops : list (mat * vec * bool)) : Prop :=
  forall a, In a ops -> has_denominator D (snd (fst a)).
