(** Rational 3x3 matrices (transformation matrices of transform.py / pointgroup.py). *)
From Coq Require Import List Arith ZArith QArith Bool Lia Ring Field Lqa.
From Verif Require Import Py Mat3.
Open Scope Q_scope.

Record qmat := QMat { q11 : Q; q12 : Q; q13 : Q;
                      q21 : Q; q22 : Q; q23 : Q;
                      q31 : Q; q32 : Q; q33 : Q }.

Definition qmeq (a b : qmat) : Prop :=
  q11 a == q11 b /\ q12 a == q12 b /\ q13 a == q13 b /\
  q21 a == q21 b /\ q22 a == q22 b /\ q23 a == q23 b /\
  q31 a == q31 b /\ q32 a == q32 b /\ q33 a == q33 b.

Definition qmul (a b : qmat) : qmat :=
  QMat (q11 a * q11 b + q12 a * q21 b + q13 a * q31 b)
       (q11 a * q12 b + q12 a * q22 b + q13 a * q32 b)
       (q11 a * q13 b + q12 a * q23 b + q13 a * q33 b)
       (q21 a * q11 b + q22 a * q21 b + q23 a * q31 b)
       (q21 a * q12 b + q22 a * q22 b + q23 a * q32 b)
       (q21 a * q13 b + q22 a * q23 b + q23 a * q33 b)
       (q31 a * q11 b + q32 a * q21 b + q33 a * q31 b)
       (q31 a * q12 b + q32 a * q22 b + q33 a * q32 b)
       (q31 a * q13 b + q32 a * q23 b + q33 a * q33 b).

Definition qid : qmat := QMat 1 0 0 0 1 0 0 0 1.

Definition qdet (a : qmat) : Q :=
  q11 a * (q22 a * q33 a - q23 a * q32 a)
  - q12 a * (q21 a * q33 a - q23 a * q31 a)
  + q13 a * (q21 a * q32 a - q22 a * q31 a).

(** np.linalg.inv (exact; a singular matrix raises in NumPy, here theorems assume a
    non-zero determinant). *)
Definition qinv (a : qmat) : qmat :=
  let d := / qdet a in
  QMat (d * (q22 a * q33 a - q23 a * q32 a)) (d * (q13 a * q32 a - q12 a * q33 a)) (d * (q12 a * q23 a - q13 a * q22 a))
       (d * (q23 a * q31 a - q21 a * q33 a)) (d * (q11 a * q33 a - q13 a * q31 a)) (d * (q13 a * q21 a - q11 a * q23 a))
       (d * (q21 a * q32 a - q22 a * q31 a)) (d * (q12 a * q31 a - q11 a * q32 a)) (d * (q11 a * q22 a - q12 a * q21 a)).

Definition qvec (a : qmat) (v : vec) : vec :=
  Vec (q11 a * v1 v + q12 a * v2 v + q13 a * v3 v)
      (q21 a * v1 v + q22 a * v2 v + q23 a * v3 v)
      (q31 a * v1 v + q32 a * v2 v + q33 a * v3 v).
(** [a.T @ v] *)
Definition qtvec (a : qmat) (v : vec) : vec :=
  Vec (q11 a * v1 v + q21 a * v2 v + q31 a * v3 v)
      (q12 a * v1 v + q22 a * v2 v + q32 a * v3 v)
      (q13 a * v1 v + q23 a * v2 v + q33 a * v3 v).

Definition qofz (a : mat) : qmat :=
  QMat (inject_Z (m11 a)) (inject_Z (m12 a)) (inject_Z (m13 a))
       (inject_Z (m21 a)) (inject_Z (m22 a)) (inject_Z (m23 a))
       (inject_Z (m31 a)) (inject_Z (m32 a)) (inject_Z (m33 a)).

(** [np.around(a).astype(int)] (utils.py:24-28, transform.py:45). *)
Definition qround (a : qmat) : mat :=
  Mat (rint (q11 a)) (rint (q12 a)) (rint (q13 a))
      (rint (q21 a)) (rint (q22 a)) (rint (q23 a))
      (rint (q31 a)) (rint (q32 a)) (rint (q33 a)).

(** All entries integral. *)
Definition qintegral (a : qmat) : Prop :=
  qint (q11 a) /\ qint (q12 a) /\ qint (q13 a) /\
  qint (q21 a) /\ qint (q22 a) /\ qint (q23 a) /\
  qint (q31 a) /\ qint (q32 a) /\ qint (q33 a).

Lemma qmeq_refl a : qmeq a a.
Proof. repeat split; reflexivity. Qed.
Lemma qmeq_sym a b : qmeq a b -> qmeq b a.
Proof. unfold qmeq; intuition (symmetry; auto). Qed.
Lemma qmeq_trans a b c : qmeq a b -> qmeq b c -> qmeq a c.
Proof. unfold qmeq; intuition (etransitivity; eauto). Qed.
Global Add Relation qmat qmeq
  reflexivity proved by qmeq_refl symmetry proved by qmeq_sym
  transitivity proved by qmeq_trans as qmeq_rel.

Global Instance qmul_proper : Proper (qmeq ==> qmeq ==> qmeq) qmul.
Proof.
  intros a a' (A1&A2&A3&A4&A5&A6&A7&A8&A9) b b' (B1&B2&B3&B4&B5&B6&B7&B8&B9).
  unfold qmul, qmeq; simpl. rewrite A1,A2,A3,A4,A5,A6,A7,A8,A9,B1,B2,B3,B4,B5,B6,B7,B8,B9.
  repeat split; reflexivity.
Qed.
Global Instance qvec_proper : Proper (qmeq ==> veq ==> veq) qvec.
Proof.
  intros a a' (A1&A2&A3&A4&A5&A6&A7&A8&A9) v v' (B1&B2&B3).
  unfold qvec, veq; simpl. rewrite A1,A2,A3,A4,A5,A6,A7,A8,A9,B1,B2,B3. repeat split; reflexivity.
Qed.
Global Instance qtvec_proper : Proper (qmeq ==> veq ==> veq) qtvec.
Proof.
  intros a a' (A1&A2&A3&A4&A5&A6&A7&A8&A9) v v' (B1&B2&B3).
  unfold qtvec, veq; simpl. rewrite A1,A2,A3,A4,A5,A6,A7,A8,A9,B1,B2,B3. repeat split; reflexivity.
Qed.
Global Instance qdet_proper : Proper (qmeq ==> Qeq) qdet.
Proof.
  intros a a' (A1&A2&A3&A4&A5&A6&A7&A8&A9). unfold qdet.
  rewrite A1,A2,A3,A4,A5,A6,A7,A8,A9. reflexivity.
Qed.
Lemma qround_proper a b : qmeq a b -> qround a = qround b.
Proof.
  intros (A1&A2&A3&A4&A5&A6&A7&A8&A9). unfold qround.
  rewrite (rint_proper _ _ A1), (rint_proper _ _ A2), (rint_proper _ _ A3),
          (rint_proper _ _ A4), (rint_proper _ _ A5), (rint_proper _ _ A6),
          (rint_proper _ _ A7), (rint_proper _ _ A8), (rint_proper _ _ A9). reflexivity.
Qed.

Ltac qsolve := unfold qmeq, veq, qmul, qvec, qtvec, qid, qofz, mmul, mid, mvec, mtvec, vadd, vsub, vdot;
  cbn [q11 q12 q13 q21 q22 q23 q31 q32 q33 v1 v2 v3 m11 m12 m13 m21 m22 m23 m31 m32 m33];
  rewrite ?inject_Z_plus, ?inject_Z_mult; change (inject_Z 0) with 0; change (inject_Z 1) with 1;
  repeat split; ring.

Lemma qmul_assoc a b c : qmeq (qmul a (qmul b c)) (qmul (qmul a b) c).
Proof. qsolve. Qed.
Lemma qmul_1l a : qmeq (qmul qid a) a.
Proof. qsolve. Qed.
Lemma qmul_1r a : qmeq (qmul a qid) a.
Proof. qsolve. Qed.
Lemma qvec_mul a b v : veq (qvec (qmul a b) v) (qvec a (qvec b v)).
Proof. qsolve. Qed.
Lemma qtvec_mul a b v : veq (qtvec (qmul a b) v) (qtvec b (qtvec a v)).
Proof. qsolve. Qed.
Lemma qvec_1 v : veq (qvec qid v) v.
Proof. qsolve. Qed.
Lemma qtvec_1 v : veq (qtvec qid v) v.
Proof. qsolve. Qed.
Lemma qvec_add a u v : veq (qvec a (vadd u v)) (vadd (qvec a u) (qvec a v)).
Proof. qsolve. Qed.
Lemma qvec_sub a u v : veq (qvec a (vsub u v)) (vsub (qvec a u) (qvec a v)).
Proof. qsolve. Qed.
Lemma qtvec_sub a u v : veq (qtvec a (vsub u v)) (vsub (qtvec a u) (qtvec a v)).
Proof. qsolve. Qed.
Lemma qtvec_add a u v : veq (qtvec a (vadd u v)) (vadd (qtvec a u) (qtvec a v)).
Proof. qsolve. Qed.
Lemma qofz_mul a b : qmeq (qofz (mmul a b)) (qmul (qofz a) (qofz b)).
Proof. qsolve. Qed.
Lemma qofz_1 : qmeq (qofz mid) qid.
Proof. qsolve. Qed.
Lemma qofz_vec a v : veq (qvec (qofz a) v) (mvec a v).
Proof. qsolve. Qed.
Lemma qofz_tvec a v : veq (qtvec (qofz a) v) (mtvec a v).
Proof. qsolve. Qed.
Lemma vdot_qtvec a k t : vdot (qtvec a k) t == vdot k (qvec a t).
Proof. unfold vdot, qtvec, qvec; simpl; ring. Qed.
Lemma qdet_mul a b : qdet (qmul a b) == qdet a * qdet b.
Proof. unfold qdet, qmul; simpl; ring. Qed.
Lemma qdet_1 : qdet qid == 1.
Proof. reflexivity. Qed.

Lemma qinv_l a : ~ qdet a == 0 -> qmeq (qmul (qinv a) a) qid.
Proof.
  intros H. unfold qmul, qinv, qid, qmeq; cbn [q11 q12 q13 q21 q22 q23 q31 q32 q33]. 
  repeat split; unfold qdet in *; field; exact H.
Qed.
Lemma qinv_r a : ~ qdet a == 0 -> qmeq (qmul a (qinv a)) qid.
Proof.
  intros H. unfold qmul, qinv, qid, qmeq; cbn [q11 q12 q13 q21 q22 q23 q31 q32 q33]. 
  repeat split; unfold qdet in *; field; exact H.
Qed.

Lemma qinv_unique a b : ~ qdet a == 0 -> qmeq (qmul b a) qid -> qmeq b (qinv a).
Proof.
  intros H E. rewrite <- (qmul_1r b), <- (qinv_r a H), qmul_assoc, E, qmul_1l. reflexivity.
Qed.

Lemma qinv_mul a b : ~ qdet a == 0 -> ~ qdet b == 0 ->
  qmeq (qinv (qmul a b)) (qmul (qinv b) (qinv a)).
Proof.
  intros Ha Hb. symmetry. apply qinv_unique.
  - rewrite qdet_mul. intros Hc. apply Qmult_integral in Hc. tauto.
  - rewrite <- qmul_assoc, (qmul_assoc (qinv a)), (qinv_l a Ha), qmul_1l. apply qinv_l; auto.
Qed.

Lemma qofz_qround a : qintegral a -> qmeq (qofz (qround a)) a.
Proof.
  intros ([z1 H1]&[z2 H2]&[z3 H3]&[z4 H4]&[z5 H5]&[z6 H6]&[z7 H7]&[z8 H8]&[z9 H9]).
  unfold qofz, qround, qmeq; cbn [q11 q12 q13 q21 q22 q23 q31 q32 q33 m11 m12 m13 m21 m22 m23 m31 m32 m33].
  rewrite (rint_proper _ _ H1), (rint_proper _ _ H2), (rint_proper _ _ H3), (rint_proper _ _ H4),
    (rint_proper _ _ H5), (rint_proper _ _ H6), (rint_proper _ _ H7), (rint_proper _ _ H8), (rint_proper _ _ H9).
  rewrite !rint_Z. repeat split; symmetry; assumption.
Qed.

Lemma qround_qofz a : qround (qofz a) = a.
Proof. destruct a; unfold qround, qofz; cbn. rewrite !rint_Z. reflexivity. Qed.

Lemma qofz_inj a b : qmeq (qofz a) (qofz b) -> a = b.
Proof. intros H. rewrite <- (qround_qofz a), <- (qround_qofz b). apply qround_proper; auto. Qed.

Lemma qofz_integral a : qintegral (qofz a).
Proof. unfold qintegral, qofz; simpl; repeat split; apply qint_Z. Qed.

Lemma qintegral_eq a b : qmeq a b -> qintegral a -> qintegral b.
Proof.
  unfold qmeq, qintegral. intros (?&?&?&?&?&?&?&?&?) (?&?&?&?&?&?&?&?&?).
  repeat split; eapply qint_eq; eauto.
Qed.
