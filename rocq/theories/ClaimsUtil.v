(** C43 (number helpers) and C40 (mode_dot). *)
From Coq Require Import List Arith ZArith QArith Qabs Bool Reals Lra Lia Znumtheory.
From Verif Require Import Py UtilModel UtilProofs.
Import ListNotations.

(* ---------- C43 ---------- *)
(** is_prime decides primality from 2 on. *)
Theorem C43_is_prime : forall n, (2 <= n)%Z -> is_prime n = true <-> prime n.
Proof. exact is_primeP. Qed.
Print Assumptions C43_is_prime.

(** Below 2 it answers True, although no such number is prime. *)
Theorem C43_is_prime_small_refuted : forall n, (n < 2)%Z -> is_prime n = true /\ ~ prime n.
Proof.
  intros n hn. split; [now apply is_prime_small|]. intros p. apply prime_ge_2 in p. lia.
Qed.
Print Assumptions C43_is_prime_small_refuted.

(** is_integer_array answers True exactly when every value is within atol + rtol * |value| of
    some integer. *)
Theorem C43_is_integer_array : forall rtol atol a,
  is_integer_array rtol atol a = true <->
  forall x, In x a -> exists z : Z, (Qabs (inject_Z z - x) <= atol + rtol * Qabs x)%Q.
Proof. exact is_integer_arrayP. Qed.
Print Assumptions C43_is_integer_array.

(** Integral arrays are always accepted. *)
Theorem C43_integral_accepted : forall rtol atol a, (0 <= rtol)%Q -> (0 <= atol)%Q ->
  (forall x, In x a -> exists z, (x == inject_Z z)%Q) -> is_integer_array rtol atol a = true.
Proof.
  intros rtol atol a h1 h2 h. apply is_integer_arrayP. intros x hx. destruct (h x hx) as [z hz].
  exists z. setoid_replace (inject_Z z - x)%Q with 0%Q by (rewrite hz; ring).
  change (Qabs 0) with 0%Q.
  assert (0 <= rtol * Qabs x)%Q by (apply Qmult_le_0_compat; [exact h1|apply Qabs_nonneg]).
  rewrite <- (Qplus_0_l 0). now apply Qplus_le_compat.
Qed.
Print Assumptions C43_integral_accepted.

(** With the default tolerances every number of absolute value 50000 or more counts as an
    integer, for instance 50000.5. *)
Theorem C43_large_values_refuted : forall x, (50000 <= Qabs x)%Q ->
  is_integer_array (1 # 100000) (1 # 100000000) [x] = true.
Proof.
  intros x hx. apply is_integer_arrayP. intros y [<-|[]]. exists (rint x).
  rewrite Qabs_Qminus. apply Qle_trans with (1 # 2); [apply rint_bound|].
  apply Qle_trans with (0 + (1 # 100000) * 50000)%Q; [discriminate|].
  apply Qplus_le_compat; [discriminate|].
  rewrite (Qmult_comm _ 50000), (Qmult_comm _ (Qabs x)). now apply Qmult_le_compat_r.
Qed.
Print Assumptions C43_large_values_refuted.

(** On integral arrays the integer tuple is the array itself; in general every entry is the
    nearest integer. *)
Theorem C43_integer_tuple : forall a : list (list Z),
  ndarray2d_to_integer_tuple (map (map inject_Z) a) = a.
Proof.
  intros a. unfold ndarray2d_to_integer_tuple. rewrite map_map.
  induction a as [|r a IH]; simpl; [reflexivity|]. rewrite IH. f_equal.
  rewrite map_map. induction r as [|x r IHr]; simpl; [reflexivity|]. now rewrite IHr, rint_Z.
Qed.
Print Assumptions C43_integer_tuple.
Theorem C43_integer_tuple_nearest : forall a i j r q, nth_error a i = Some r -> nth_error r j = Some q ->
  exists r' z, nth_error (ndarray2d_to_integer_tuple a) i = Some r' /\ nth_error r' j = Some z /\
    forall w : Z, (Qabs (q - inject_Z z) <= Qabs (q - inject_Z w))%Q.
Proof.
  intros a i j r q hr hq. exists (map rint r), (rint q). unfold ndarray2d_to_integer_tuple.
  rewrite (map_nth_error _ _ _ hr), (map_nth_error _ _ _ hq). repeat split; auto. intros w; apply rint_nearest.
Qed.
Print Assumptions C43_integer_tuple_nearest.

(** nroot is an n-th root, it is the root of smallest angle, and its angle correction never
    changes anything: it returns the principal root z ** (1 / n). *)
Theorem C43_nroot : forall z n, (0 < n)%nat -> cpow (nroot z n) n = z.
Proof. exact nroot_pow. Qed.
Print Assumptions C43_nroot.
Theorem C43_nroot_angle : forall z n, (0 < n)%nat ->
  (- (PI / INR n) < cangle (nroot z n) <= PI / INR n)%R.
Proof. exact nroot_angle. Qed.
Print Assumptions C43_nroot_angle.
Theorem C43_nroot_principal : forall z n, (0 < n)%nat -> nroot z n = cpowinv z n.
Proof. exact nroot_principal. Qed.
Print Assumptions C43_nroot_principal.

(** The model's np.angle and np.absolute are polar coordinates. *)
Theorem C43_polar_coordinates : forall z,
  z = polar (cabs z) (cangle z) /\ (0 <= cabs z)%R /\ (- PI < cangle z <= PI)%R.
Proof.
  intros z. split; [apply polar_angle|]. split; [apply cabs_ge0|].
  split; [apply cangle_gt|]. exact (proj2 (cangle_bound z)).
Qed.
Print Assumptions C43_polar_coordinates.

Example C43_prime_values :
  (is_prime 7, is_prime 9, is_prime 1, is_prime 0, is_prime (-4)) = (true, false, true, true, true).
Proof. reflexivity. Qed.
Example C43_integer_values :
  (is_integer_array (1 # 100000) (1 # 100000000) [1; 2; 4]%Q,
   is_integer_array (1 # 100000) (1 # 100000000) [3 # 2; 2]%Q,
   is_integer_array (1 # 100000) (1 # 100000000) [100001 # 2]%Q) = (true, false, true).
Proof. reflexivity. Qed.
Example C43_tuple_value :
  ndarray2d_to_integer_tuple [[9999 # 10000; 1 # 2]; [-3 # 2; -1]]%Q = [[1; 0]; [-2; -1]]%Z.
Proof. reflexivity. Qed.
(** The square root of -1 is i. *)
Lemma C43_nroot_value : nroot (-1, 0)%R 2 = (0, 1)%R.
Proof.
  assert (A : cabs (-1, 0)%R = 1%R).
  { unfold cabs; simpl. replace (-1 * -1 + 0 * 0)%R with 1%R by lra. exact sqrt_1. }
  rewrite nroot_principal by lia. unfold cpowinv, cangle. rewrite A. simpl.
  destruct (Req_EM_T 1 0) as [e|_]; [lra|]. destruct (Rle_dec 0 0) as [_|e]; [|lra].
  replace (-1 / 1)%R with (- (1))%R by field. rewrite acos_opp, acos_1, ln_1.
  unfold polar. replace (0 / (1 + 1))%R with 0%R by field. rewrite exp_0.
  replace ((PI - 0) / (1 + 1))%R with (PI / 2)%R by field. rewrite cos_PI2, sin_PI2. f_equal; ring.
Qed.
