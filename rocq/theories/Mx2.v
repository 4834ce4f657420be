(** 2 x 2 matrices given by their entries. *)
From mathcomp Require Import all_ssreflect all_algebra.
From Verif Require Import RepSpec.
Import Order.TTheory GRing.Theory Num.Theory.
Set Implicit Arguments.
Unset Strict Implicit.
Unset Printing Implicit Defensive.
Local Open Scope ring_scope.

Section Mx2.
Variable C : numClosedFieldType.
Definition mx2 (a b c d : C) : 'M[C]_2 :=
  \matrix_(i, j) if val i == 0%N then (if val j == 0%N then a else b) else (if val j == 0%N then c else d).
Lemma ord2P (P : 'I_2 -> Prop) : P ord0 -> P (lift ord0 ord0) -> forall i, P i.
Proof. by move=> h0 h1 i; case: (unliftP ord0 i) => [j|] -> //; rewrite (ord1 j). Qed.
Lemma mx2P (A B : 'M[C]_2) :
  [/\ A ord0 ord0 = B ord0 ord0, A ord0 (lift ord0 ord0) = B ord0 (lift ord0 ord0),
      A (lift ord0 ord0) ord0 = B (lift ord0 ord0) ord0 &
      A (lift ord0 ord0) (lift ord0 ord0) = B (lift ord0 ord0) (lift ord0 ord0)] -> A = B.
Proof. by case=> h1 h2 h3 h4; apply/matrixP; apply: ord2P; apply: ord2P. Qed.
Lemma mx2_eta (A : 'M[C]_2) : A = mx2 (A ord0 ord0) (A ord0 (lift ord0 ord0)) (A (lift ord0 ord0) ord0) (A (lift ord0 ord0) (lift ord0 ord0)).
Proof. by apply: mx2P; split; rewrite mxE. Qed.
Lemma mx2M a b c d a' b' c' d' :
  mx2 a b c d *m mx2 a' b' c' d' = mx2 (a * a' + b * c') (a * b' + b * d') (c * a' + d * c') (c * b' + d * d').
Proof. by apply: mx2P; split; rewrite !mxE !big_ord_recl big_ord0 !mxE /= addr0. Qed.
Lemma mx2Z k a b c d : k *: mx2 a b c d = mx2 (k * a) (k * b) (k * c) (k * d).
Proof. by apply: mx2P; split; rewrite !mxE. Qed.
Lemma mx2D a b c d a' b' c' d' : mx2 a b c d + mx2 a' b' c' d' = mx2 (a + a') (b + b') (c + c') (d + d').
Proof. by apply: mx2P; split; rewrite !mxE. Qed.
Lemma mx2_1 : 1%:M = mx2 1 0 0 1.
Proof. by apply: mx2P; split; rewrite !mxE. Qed.
Lemma mx2_s a : a%:M = mx2 a 0 0 a.
Proof. by apply: mx2P; split; rewrite !mxE. Qed.
Lemma mx2_adj a b c d : adj (mx2 a b c d) = mx2 (a^*) (c^*) (b^*) (d^*).
Proof. by apply: mx2P; split; rewrite !mxE. Qed.
Lemma mx2_conj a b c d : map_mx conjC (mx2 a b c d) = mx2 (a^*) (b^*) (c^*) (d^*).
Proof. by apply: mx2P; split; rewrite !mxE. Qed.
Lemma mx2_tr a b c d : \tr (mx2 a b c d) = a + d.
Proof. by rewrite /mxtrace !big_ord_recl big_ord0 !mxE /= addr0. Qed.
Lemma mx2_trmx a b c d : (mx2 a b c d)^T = mx2 a c b d.
Proof. by apply: mx2P; split; rewrite !mxE. Qed.
Lemma mx2_det a b c d : \det (mx2 a b c d) = a * d - b * c.
Proof.
rewrite (expand_det_row _ ord0) !big_ord_recl big_ord0 !mxE /= addr0 /cofactor !det_mx11 !mxE /=.
by rewrite expr0 expr1 mul1r mulN1r mulrN.
Qed.
Lemma mx2_inj a b c d a' b' c' d' : mx2 a b c d = mx2 a' b' c' d' -> [/\ a = a', b = b', c = c' & d = d'].
Proof.
move=> h; split.
- by have := congr1 (fun M : 'M[C]_2 => M ord0 ord0) h; rewrite !mxE.
- by have := congr1 (fun M : 'M[C]_2 => M ord0 (lift ord0 ord0)) h; rewrite !mxE.
- by have := congr1 (fun M : 'M[C]_2 => M (lift ord0 ord0) ord0) h; rewrite !mxE.
- by have := congr1 (fun M : 'M[C]_2 => M (lift ord0 ord0) (lift ord0 ord0)) h; rewrite !mxE.
Qed.
End Mx2.
