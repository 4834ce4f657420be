(** IEEE binary64 arithmetic meets the specification of FloatSpec. *)
From Coq Require Import ZArith Reals Lra Lia.
From Flocq Require Import Core Relative.
From Verif Require Import FloatModel FloatSpec.
Open Scope R_scope.

Lemma b64_u_pow : b64_u = / 2 * bpow radix2 (-53 + 1).
Proof. unfold b64_u. change (-53 + 1)%Z with (-52)%Z. cbn. lra. Qed.
Lemma b64_eta_pow : b64_eta = / 2 * bpow radix2 (-1074).
Proof. unfold b64_eta. change (-1075)%Z with (-1 + -1074)%Z. rewrite bpow_plus. f_equal. Qed.
Lemma b64_eta_pos : 0 < b64_eta.
Proof. apply bpow_gt_0. Qed.
Lemma b64_eta_le : b64_eta <= / 1000000000000000000000000000000.
Proof.
  unfold b64_eta. apply Rle_trans with (bpow radix2 (-100)); [apply bpow_le; lia|].
  cbn. lra.
Qed.

Lemma b64_error x : Rabs (b64 x - x) <= b64_u * Rabs x + b64_eta.
Proof.
  destruct (error_N_FLT radix2 (-1074) 53 ltac:(lia) (fun z => negb (Z.even z)) x) as (eps & et & He & Ht & _ & E).
  unfold b64. rewrite E. replace (x * (1 + eps) + et - x) with (eps * x + et) by ring.
  apply Rle_trans with (1 := Rabs_triang _ _). rewrite Rabs_mult.
  apply Rplus_le_compat; [|rewrite b64_eta_pow; exact Ht].
  apply Rmult_le_compat_r; [apply Rabs_pos|]. rewrite b64_u_pow. exact He.
Qed.

Lemma b64_between x m : Rabs x <= m -> x - (b64_u * m + b64_eta) <= b64 x <= x + (b64_u * m + b64_eta).
Proof.
  intros H. pose proof (b64_error x) as E.
  assert (b64_u * Rabs x <= b64_u * m) by (apply Rmult_le_compat_l; [unfold b64_u; lra|auto]).
  assert (Rabs (b64 x - x) <= b64_u * m + b64_eta) as K by lra. apply Rabs_le_inv in K. lra.
Qed.

Section Dot.
Variables a b : rvec.
Let y1 := x1 a * x1 b. Let y2 := x2 a * x2 b. Let y3 := x3 a * x3 b.
Let t1 := Rabs y1. Let t2 := Rabs y2. Let t3 := Rabs y3.
Let T1 : - t1 <= y1 <= t1. Proof. apply Rabs_le_inv, Rle_refl. Qed.
Let T2 : - t2 <= y2 <= t2. Proof. apply Rabs_le_inv, Rle_refl. Qed.
Let T3 : - t3 <= y3 <= t3. Proof. apply Rabs_le_inv, Rle_refl. Qed.
Let P1 : 0 <= t1 := Rabs_pos _. Let P2 : 0 <= t2 := Rabs_pos _. Let P3 : 0 <= t3 := Rabs_pos _.
Let E0 := b64_eta_pos.
Ltac fin := unfold b64_u in *; apply Rabs_le; lra.

Lemma dot_left_ok : Rabs (dot_left a b - rdot a b) <= 4 * b64_u * adot a b + 8 * b64_eta.
Proof.
  unfold dot_left, rdot, adot. fold y1 y2 y3. fold t1 t2 t3.
  pose proof (b64_between y1 t1 (Rle_refl _)) as H1. pose proof (b64_between y2 t2 (Rle_refl _)) as H2.
  pose proof (b64_between y3 t3 (Rle_refl _)) as H3.
  set (p1 := b64 y1) in *. set (p2 := b64 y2) in *. set (p3 := b64 y3) in *.
  assert (Rabs (p1 + p2) <= 5 / 4 * (t1 + t2) + 3 * b64_eta) as M1 by fin.
  pose proof (b64_between _ _ M1) as H4. set (s1 := b64 (p1 + p2)) in *.
  assert (Rabs (s1 + p3) <= 5 / 4 * (t1 + t2 + t3) + 6 * b64_eta) as M2 by fin.
  pose proof (b64_between _ _ M2) as H5. fin.
Qed.
Lemma dot_right_ok : Rabs (dot_right a b - rdot a b) <= 4 * b64_u * adot a b + 8 * b64_eta.
Proof.
  unfold dot_right, rdot, adot. fold y1 y2 y3. fold t1 t2 t3.
  pose proof (b64_between y1 t1 (Rle_refl _)) as H1. pose proof (b64_between y2 t2 (Rle_refl _)) as H2.
  pose proof (b64_between y3 t3 (Rle_refl _)) as H3.
  set (p1 := b64 y1) in *. set (p2 := b64 y2) in *. set (p3 := b64 y3) in *.
  assert (Rabs (p2 + p3) <= 5 / 4 * (t2 + t3) + 3 * b64_eta) as M1 by fin.
  pose proof (b64_between _ _ M1) as H4. set (s1 := b64 (p2 + p3)) in *.
  assert (Rabs (p1 + s1) <= 5 / 4 * (t1 + t2 + t3) + 6 * b64_eta) as M2 by fin.
  pose proof (b64_between _ _ M2) as H5. fin.
Qed.
Lemma dot_fma_ok : Rabs (dot_fma a b - rdot a b) <= 4 * b64_u * adot a b + 8 * b64_eta.
Proof.
  unfold dot_fma, rdot, adot. fold y1 y2 y3. fold t1 t2 t3.
  pose proof (b64_between y1 t1 (Rle_refl _)) as H1. set (p1 := b64 y1) in *.
  assert (Rabs (y2 + p1) <= 5 / 4 * (t1 + t2) + 3 * b64_eta) as M1 by fin.
  pose proof (b64_between _ _ M1) as H4. set (s1 := b64 (y2 + p1)) in *.
  assert (Rabs (y3 + s1) <= 5 / 4 * (t1 + t2 + t3) + 6 * b64_eta) as M2 by fin.
  pose proof (b64_between _ _ M2) as H5. fin.
Qed.
End Dot.

(** NumPy on a machine with binary64 arithmetic, whichever of the three inner products it uses. *)
Lemma b64_arith_ok dot inv : (dot = dot_left \/ dot = dot_right \/ dot = dot_fma) ->
  arith_ok b64_u b64_eta {| fl := b64; dot3 := dot; inv3 := inv |}.
Proof.
  intros H. split; cbn [fl dot3].
  - unfold b64_u. lra.
  - apply Rlt_le, b64_eta_pos.
  - apply b64_error.
  - destruct H as [ -> | [ -> | -> ]]; [apply dot_left_ok|apply dot_right_ok|apply dot_fma_ok].
Qed.
