(** 3x3 integer matrices, rational 3-vectors and rational 3x3 matrices. *)
From Coq Require Import List Arith ZArith QArith Bool Lia Ring Field.
From Verif Require Import Py.
Import ListNotations.

(* ------------------------------------------------------------------ *)
(** * Integer 3x3 matrices (ndarray[int], shape (3,3); also the nested
    integer tuples used as dictionary keys, utils.py:24-28) *)

Record mat := Mat { m11 : Z; m12 : Z; m13 : Z;
                    m21 : Z; m22 : Z; m23 : Z;
                    m31 : Z; m32 : Z; m33 : Z }.

Open Scope Z_scope.

(** [a @ b] for integer matrices. *)
Definition mmul (a b : mat) : mat :=
  Mat (m11 a * m11 b + m12 a * m21 b + m13 a * m31 b)
      (m11 a * m12 b + m12 a * m22 b + m13 a * m32 b)
      (m11 a * m13 b + m12 a * m23 b + m13 a * m33 b)
      (m21 a * m11 b + m22 a * m21 b + m23 a * m31 b)
      (m21 a * m12 b + m22 a * m22 b + m23 a * m32 b)
      (m21 a * m13 b + m22 a * m23 b + m23 a * m33 b)
      (m31 a * m11 b + m32 a * m21 b + m33 a * m31 b)
      (m31 a * m12 b + m32 a * m22 b + m33 a * m32 b)
      (m31 a * m13 b + m32 a * m23 b + m33 a * m33 b).

Definition mid : mat := Mat 1 0 0 0 1 0 0 0 1.
Definition mneg (a : mat) : mat :=
  Mat (- m11 a) (- m12 a) (- m13 a) (- m21 a) (- m22 a) (- m23 a)
      (- m31 a) (- m32 a) (- m33 a).

Definition mdet (a : mat) : Z :=
  m11 a * (m22 a * m33 a - m23 a * m32 a)
  - m12 a * (m21 a * m33 a - m23 a * m31 a)
  + m13 a * (m21 a * m32 a - m22 a * m31 a).

Definition mtrace (a : mat) : Z := m11 a + m22 a + m33 a.

(** Adjugate: [madj a @ a = det a * identity]. *)
Definition madj (a : mat) : mat :=
  Mat (m22 a * m33 a - m23 a * m32 a) (m13 a * m32 a - m12 a * m33 a) (m12 a * m23 a - m13 a * m22 a)
      (m23 a * m31 a - m21 a * m33 a) (m11 a * m33 a - m13 a * m31 a) (m13 a * m21 a - m11 a * m23 a)
      (m21 a * m32 a - m22 a * m31 a) (m12 a * m31 a - m11 a * m32 a) (m11 a * m22 a - m12 a * m21 a).

Definition meqb (a b : mat) : bool :=
  (m11 a =? m11 b) && (m12 a =? m12 b) && (m13 a =? m13 b) &&
  (m21 a =? m21 b) && (m22 a =? m22 b) && (m23 a =? m23 b) &&
  (m31 a =? m31 b) && (m32 a =? m32 b) && (m33 a =? m33 b).

Lemma meqb_eq a b : meqb a b = true <-> a = b.
Proof.
  destruct a, b; unfold meqb; simpl.
  rewrite !andb_true_iff, !Z.eqb_eq. split.
  - intuition congruence.
  - intros [= -> -> -> -> -> -> -> -> ->]. tauto.
Qed.

Lemma meqb_refl a : meqb a a = true.
Proof. apply meqb_eq; reflexivity. Qed.

Lemma mat_eq_dec (a b : mat) : {a = b} + {a <> b}.
Proof.
  destruct (meqb a b) eqn:E; [left; apply meqb_eq; auto|right; intros ->; rewrite meqb_refl in E; discriminate].
Qed.

Lemma mmul_assoc a b c : mmul a (mmul b c) = mmul (mmul a b) c.
Proof. destruct a, b, c; unfold mmul; simpl; f_equal; ring. Qed.
Lemma mmul_1l a : mmul mid a = a.
Proof. destruct a; unfold mmul, mid; cbn -[Z.mul Z.add]; f_equal; ring. Qed.
Lemma mmul_1r a : mmul a mid = a.
Proof. destruct a; unfold mmul, mid; cbn -[Z.mul Z.add]; f_equal; ring. Qed.
Lemma mdet_mul a b : mdet (mmul a b) = mdet a * mdet b.
Proof. destruct a, b; unfold mdet, mmul; simpl; ring. Qed.
Lemma mdet_1 : mdet mid = 1.
Proof. reflexivity. Qed.

Lemma madj_mul a b :
  mmul (madj a) (mmul a b) =
  Mat (mdet a * m11 b) (mdet a * m12 b) (mdet a * m13 b)
      (mdet a * m21 b) (mdet a * m22 b) (mdet a * m23 b)
      (mdet a * m31 b) (mdet a * m32 b) (mdet a * m33 b).
Proof. destruct a, b; unfold madj, mmul, mdet; simpl; f_equal; ring. Qed.

Lemma mmul_madj_r a b :
  mmul (mmul b a) (madj a) =
  Mat (mdet a * m11 b) (mdet a * m12 b) (mdet a * m13 b)
      (mdet a * m21 b) (mdet a * m22 b) (mdet a * m23 b)
      (mdet a * m31 b) (mdet a * m32 b) (mdet a * m33 b).
Proof. destruct a, b; unfold madj, mmul, mdet; simpl; f_equal; ring. Qed.

Lemma mmul_cancel_l a b c : mdet a <> 0 -> mmul a b = mmul a c -> b = c.
Proof.
  intros Hd H. assert (mmul (madj a) (mmul a b) = mmul (madj a) (mmul a c)) as E by congruence.
  rewrite !madj_mul in E. destruct b, c; simpl in E. injection E; intros.
  f_equal; eapply Z.mul_reg_l; eauto.
Qed.

Lemma mmul_cancel_r a b c : mdet a <> 0 -> mmul b a = mmul c a -> b = c.
Proof.
  intros Hd H. assert (mmul (mmul b a) (madj a) = mmul (mmul c a) (madj a)) as E by congruence.
  rewrite !mmul_madj_r in E. destruct b, c; simpl in E. injection E; intros.
  f_equal; eapply Z.mul_reg_l; eauto.
Qed.

(** A right inverse of a square integer matrix is a left inverse. *)
Lemma mmul_inv_comm a b : mmul a b = mid -> mmul b a = mid.
Proof.
  intros H. assert (mdet a <> 0) as Hd.
  { intros Hd. assert (mdet a * mdet b = 1) by (rewrite <- mdet_mul, H; reflexivity).
    rewrite Hd in *; lia. }
  apply (mmul_cancel_l a); auto. rewrite mmul_assoc, H, mmul_1l, mmul_1r. reflexivity.
Qed.

Close Scope Z_scope.

(* ------------------------------------------------------------------ *)
(** * Rational 3-vectors *)

Record vec := Vec { v1 : Q; v2 : Q; v3 : Q }.
Open Scope Q_scope.

Definition veq (u v : vec) : Prop := v1 u == v1 v /\ v2 u == v2 v /\ v3 u == v3 v.
Definition vzero : vec := Vec 0 0 0.
Definition vadd (u v : vec) : vec := Vec (v1 u + v1 v) (v2 u + v2 v) (v3 u + v3 v).
Definition vsub (u v : vec) : vec := Vec (v1 u - v1 v) (v2 u - v2 v) (v3 u - v3 v).
Definition vscale (c : Q) (u : vec) : vec := Vec (c * v1 u) (c * v2 u) (c * v3 u).
(** np.dot of two vectors. *)
Definition vdot (u v : vec) : Q := v1 u * v1 v + v2 u * v2 v + v3 u * v3 v.
Definition vmap (f : Q -> Q) (u : vec) : vec := Vec (f (v1 u)) (f (v2 u)) (f (v3 u)).
Definition vall (p : Q -> bool) (u : vec) : bool := p (v1 u) && p (v2 u) && p (v3 u).

(** [rotation @ v] and [rotation.T @ v]. *)
Definition mvec (a : mat) (v : vec) : vec :=
  Vec (inject_Z (m11 a) * v1 v + inject_Z (m12 a) * v2 v + inject_Z (m13 a) * v3 v)
      (inject_Z (m21 a) * v1 v + inject_Z (m22 a) * v2 v + inject_Z (m23 a) * v3 v)
      (inject_Z (m31 a) * v1 v + inject_Z (m32 a) * v2 v + inject_Z (m33 a) * v3 v).
Definition mtvec (a : mat) (v : vec) : vec :=
  Vec (inject_Z (m11 a) * v1 v + inject_Z (m21 a) * v2 v + inject_Z (m31 a) * v3 v)
      (inject_Z (m12 a) * v1 v + inject_Z (m22 a) * v2 v + inject_Z (m32 a) * v3 v)
      (inject_Z (m13 a) * v1 v + inject_Z (m23 a) * v2 v + inject_Z (m33 a) * v3 v).

(** Integer vectors. *)
Definition qint (q : Q) : Prop := exists z, q == inject_Z z.
Definition vint (v : vec) : Prop := qint (v1 v) /\ qint (v2 v) /\ qint (v3 v).

Lemma qint_plus a b : qint a -> qint b -> qint (a + b).
Proof. intros [x Hx] [y Hy]. exists (x + y)%Z. rewrite Hx, Hy, inject_Z_plus. reflexivity. Qed.
Lemma qint_mult a b : qint a -> qint b -> qint (a * b).
Proof. intros [x Hx] [y Hy]. exists (x * y)%Z. rewrite Hx, Hy, inject_Z_mult. reflexivity. Qed.
Lemma qint_opp a : qint a -> qint (- a).
Proof. intros [x Hx]. exists (- x)%Z. rewrite Hx, inject_Z_opp. reflexivity. Qed.
Lemma qint_minus a b : qint a -> qint b -> qint (a - b).
Proof. intros. apply qint_plus; auto using qint_opp. Qed.
Lemma qint_Z z : qint (inject_Z z).
Proof. exists z; reflexivity. Qed.
Lemma qint_eq a b : a == b -> qint a -> qint b.
Proof. intros E [z Hz]. exists z. rewrite <- E. auto. Qed.
Global Instance qint_proper : Proper (Qeq ==> iff) qint.
Proof. intros a b H; split; apply qint_eq; [auto|symmetry; auto]. Qed.
Lemma qint_0 : qint 0.
Proof. exists 0%Z; reflexivity. Qed.

Lemma vint_eq u v : veq u v -> vint u -> vint v.
Proof. intros (?&?&?) (?&?&?). repeat split; eapply qint_eq; eauto. Qed.
Lemma vint_add u v : vint u -> vint v -> vint (vadd u v).
Proof. intros (?&?&?) (?&?&?). repeat split; apply qint_plus; auto. Qed.
Lemma vint_sub u v : vint u -> vint v -> vint (vsub u v).
Proof. intros (?&?&?) (?&?&?). repeat split; apply qint_minus; auto. Qed.
Lemma vint_0 : vint vzero.
Proof. repeat split; apply qint_0. Qed.
Lemma qint_dot u v : vint u -> vint v -> qint (vdot u v).
Proof. intros (?&?&?) (?&?&?). unfold vdot. auto using qint_plus, qint_mult. Qed.
Lemma vint_mvec a v : vint v -> vint (mvec a v).
Proof. intros (?&?&?). unfold mvec. repeat split; simpl; auto 8 using qint_plus, qint_mult, qint_Z. Qed.
Lemma vint_mtvec a v : vint v -> vint (mtvec a v).
Proof. intros (?&?&?). unfold mtvec. repeat split; simpl; auto 8 using qint_plus, qint_mult, qint_Z. Qed.

Lemma veq_refl u : veq u u.
Proof. repeat split; reflexivity. Qed.
Lemma veq_sym u v : veq u v -> veq v u.
Proof. intros (?&?&?); repeat split; symmetry; auto. Qed.
Lemma veq_trans u v w : veq u v -> veq v w -> veq u w.
Proof. intros (?&?&?) (?&?&?); repeat split; etransitivity; eauto. Qed.

Global Add Relation vec veq
  reflexivity proved by veq_refl symmetry proved by veq_sym
  transitivity proved by veq_trans as veq_rel.

Ltac vsolve := unfold veq, vadd, vsub, vscale, vdot, mvec, mtvec, mmul, mid, vzero;
  cbn [v1 v2 v3 m11 m12 m13 m21 m22 m23 m31 m32 m33];
  rewrite ?inject_Z_plus, ?inject_Z_mult; change (inject_Z 0) with 0; change (inject_Z 1) with 1;
  repeat split; ring.

Lemma mvec_mul a b v : veq (mvec (mmul a b) v) (mvec a (mvec b v)).
Proof. vsolve. Qed.
Lemma mtvec_mul a b v : veq (mtvec (mmul a b) v) (mtvec b (mtvec a v)).
Proof. vsolve. Qed.
Lemma mvec_1 v : veq (mvec mid v) v.
Proof. vsolve. Qed.
Lemma mtvec_1 v : veq (mtvec mid v) v.
Proof. vsolve. Qed.
Lemma mvec_add a u v : veq (mvec a (vadd u v)) (vadd (mvec a u) (mvec a v)).
Proof. vsolve. Qed.
Lemma mvec_sub a u v : veq (mvec a (vsub u v)) (vsub (mvec a u) (mvec a v)).
Proof. vsolve. Qed.
Lemma mtvec_add a u v : veq (mtvec a (vadd u v)) (vadd (mtvec a u) (mtvec a v)).
Proof. vsolve. Qed.
Lemma mtvec_sub a u v : veq (mtvec a (vsub u v)) (vsub (mtvec a u) (mtvec a v)).
Proof. vsolve. Qed.
Lemma vdot_mtvec a k t : vdot (mtvec a k) t == vdot k (mvec a t).
Proof. unfold vdot, mtvec, mvec; simpl; ring. Qed.
Lemma vdot_add_l u v w : vdot (vadd u v) w == vdot u w + vdot v w.
Proof. unfold vdot, vadd; simpl; ring. Qed.
Lemma vdot_add_r u v w : vdot u (vadd v w) == vdot u v + vdot u w.
Proof. unfold vdot, vadd; simpl; ring. Qed.
Lemma vdot_sub_l u v w : vdot (vsub u v) w == vdot u w - vdot v w.
Proof. unfold vdot, vsub; simpl; ring. Qed.
Lemma vdot_sub_r u v w : vdot u (vsub v w) == vdot u v - vdot u w.
Proof. unfold vdot, vsub; simpl; ring. Qed.

Global Instance vdot_proper : Proper (veq ==> veq ==> Qeq) vdot.
Proof. intros u u' (A&B&C) v v' (D&E&F). unfold vdot. rewrite A,B,C,D,E,F. reflexivity. Qed.
Global Instance vadd_proper : Proper (veq ==> veq ==> veq) vadd.
Proof. intros u u' (A&B&C) v v' (D&E&F). unfold vadd; repeat split; simpl. rewrite A,D; reflexivity. rewrite B,E; reflexivity. rewrite C,F; reflexivity. Qed.
Global Instance vsub_proper : Proper (veq ==> veq ==> veq) vsub.
Proof. intros u u' (A&B&C) v v' (D&E&F). unfold vsub; repeat split; simpl. rewrite A,D; reflexivity. rewrite B,E; reflexivity. rewrite C,F; reflexivity. Qed.
Global Instance mvec_proper : Proper (eq ==> veq ==> veq) mvec.
Proof. intros a a' <- v v' (D&E&F). unfold mvec; repeat split; simpl; rewrite D,E,F; reflexivity. Qed.
Global Instance mtvec_proper : Proper (eq ==> veq ==> veq) mtvec.
Proof. intros a a' <- v v' (D&E&F). unfold mtvec; repeat split; simpl; rewrite D,E,F; reflexivity. Qed.
Global Instance vint_proper : Proper (veq ==> iff) vint.
Proof. intros u v H; split; apply vint_eq; auto using veq_sym. Qed.

Close Scope Q_scope.
