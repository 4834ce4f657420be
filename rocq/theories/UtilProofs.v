(** Proofs about the number helpers. *)
From Coq Require Import List Arith ZArith QArith Qabs Bool Reals Lra Lia Znumtheory.
From Verif Require Import Py UtilModel.
Import ListNotations.

(* ---------- integers ---------- *)
Lemma is_integer_arrayP rtol atol a :
  is_integer_array rtol atol a = true <->
  forall x, In x a -> exists z : Z, (Qabs (inject_Z z - x) <= atol + rtol * Qabs x)%Q.
Proof.
unfold is_integer_array; rewrite forallb_forall; split; intros h x hx.
- exists (rint x). specialize (h x hx). unfold isclose in h. now apply Qle_bool_iff in h.
- destruct (h x hx) as [z hz]. unfold isclose. apply Qle_bool_iff.
  eapply Qle_trans; [|exact hz].
  rewrite (Qabs_Qminus _ x), (Qabs_Qminus _ x). apply rint_nearest.
Qed.

Lemma zrangeP lo hi x : In x (zrange lo hi) <-> (lo <= x < hi)%Z.
Proof.
unfold zrange; rewrite in_map_iff; split.
- intros [i [<- hi']]. apply in_seq in hi'. lia.
- intros h. exists (Z.to_nat (x - lo)). split; [lia|]. apply in_seq. lia.
Qed.

Lemma is_prime_loopP n l :
  is_prime_loop n l = true <-> forall i, In i l -> (n mod i <> 0)%Z.
Proof.
induction l as [|i l IH]; simpl.
- split; [intros _ i []|reflexivity].
- destruct (Z.eqb_spec (n mod i) 0) as [h|h].
  + split; [discriminate|]. intros H. exfalso. exact (H i (or_introl eq_refl) h).
  + rewrite IH. split.
    * intros H j [<-|hj]; auto.
    * intros H j hj; auto.
Qed.

Lemma is_primeP n : (2 <= n)%Z -> is_prime n = true <-> prime n.
Proof.
intros hn. unfold is_prime. rewrite is_prime_loopP. split.
- intros H. apply prime_alt. split; [lia|].
  intros k hk hd. apply (H k).
  + apply zrangeP. lia.
  + apply Z.mod_divide; [lia|exact hd].
- intros hp i hi hm. apply zrangeP in hi.
  apply prime_alt in hp as [_ hp]. apply (hp i); [lia|].
  apply Z.mod_divide; [lia|exact hm].
Qed.

Lemma is_prime_small n : (n < 2)%Z -> is_prime n = true.
Proof.
intros hn. unfold is_prime, zrange. replace (Z.to_nat (n - 2)) with 0%nat by lia. reflexivity.
Qed.

(* ---------- complex numbers ---------- *)
Open Scope R_scope.
Lemma polar_mul r1 t1 r2 t2 : cmul (polar r1 t1) (polar r2 t2) = polar (r1 * r2) (t1 + t2).
Proof. unfold cmul, polar; simpl. rewrite cos_plus, sin_plus. f_equal; ring. Qed.

Lemma polar_pow r t n : cpow (polar r t) n = polar (r ^ n) (INR n * t).
Proof.
induction n as [|n IH].
- simpl. unfold polar. rewrite Rmult_0_l, cos_0, sin_0. f_equal; ring.
- cbn [cpow]. rewrite IH, polar_mul. rewrite S_INR. f_equal; ring.
Qed.

Lemma cabs_polar r t : 0 <= r -> cabs (polar r t) = r.
Proof.
intros hr. unfold cabs, polar; simpl.
replace (r * cos t * (r * cos t) + r * sin t * (r * sin t)) with (r * r * ((sin t)² + (cos t)²)).
2: unfold Rsqr; ring.
rewrite sin2_cos2, Rmult_1_r. now apply sqrt_square.
Qed.

Lemma cabs_ge0 z : 0 <= cabs z.
Proof. apply sqrt_pos. Qed.

Lemma cabs_sq z : cabs z * cabs z = fst z * fst z + snd z * snd z.
Proof. apply sqrt_sqrt. generalize (Rle_0_sqr (fst z)), (Rle_0_sqr (snd z)); unfold Rsqr; lra. Qed.

Lemma cabs_0 z : cabs z = 0 -> z = (0, 0).
Proof.
intros h. generalize (cabs_sq z). rewrite h. destruct z as [x y]; simpl. intros e.
generalize (Rle_0_sqr x) (Rle_0_sqr y); unfold Rsqr; intros a b.
assert (x * x = 0) by lra. assert (y * y = 0) by lra.
f_equal; now apply Rsqr_0_uniq.
Qed.

Lemma cangle_bound z : - PI <= cangle z <= PI.
Proof.
unfold cangle. generalize PI_RGT_0 (acos_bound (fst z / cabs z)); intros p q.
destruct (Req_EM_T _ _); [lra|]. destruct (Rle_dec _ _); lra.
Qed.

Lemma polar_angle z : z = polar (cabs z) (cangle z).
Proof.
unfold cangle. destruct (Req_EM_T (cabs z) 0) as [h|h].
- rewrite h. rewrite (cabs_0 z h). unfold polar. f_equal; ring.
- assert (hp : 0 < cabs z) by (generalize (cabs_ge0 z); lra).
  assert (e := cabs_sq z).
  assert (hx : -1 <= fst z / cabs z <= 1).
  { assert (fst z * fst z <= cabs z * cabs z) by (generalize (Rle_0_sqr (snd z)); unfold Rsqr; lra).
    assert (Rabs (fst z) <= cabs z).
    { rewrite <- (Rabs_right (cabs z)) by lra. apply Rsqr_le_abs_0. exact H. }
    apply Rabs_le_inv in H0 || (unfold Rabs in H0; destruct (Rcase_abs (fst z)) in H0).
    all: split; [apply Rmult_le_reg_r with (cabs z)|apply Rmult_le_reg_r with (cabs z)]; try lra;
      unfold Rdiv; rewrite Rmult_assoc, Rinv_l by lra; lra. }
  assert (s : sqrt (1 - (fst z / cabs z)²) = Rabs (snd z) / cabs z).
  { replace (1 - (fst z / cabs z)²) with ((snd z / cabs z)²).
    - rewrite sqrt_Rsqr_abs. unfold Rdiv. rewrite Rabs_mult, (Rabs_right (/ cabs z)); [reflexivity|].
      apply Rle_ge, Rlt_le, Rinv_0_lt_compat, hp.
    - unfold Rsqr. field_simplify_eq; [|exact h]. simpl. rewrite !Rmult_1_r. lra. }
  destruct z as [x y]; simpl fst in *; simpl snd in *.
  unfold polar. destruct (Rle_dec 0 y) as [hy|hy].
  + rewrite cos_acos, sin_acos by exact hx. rewrite s, (Rabs_right y) by lra. f_equal; field; exact h.
  + rewrite cos_neg, sin_neg, cos_acos, sin_acos by exact hx. rewrite s, (Rabs_left y) by lra.
    f_equal; field; exact h.
Qed.

Lemma Int_part_bound x : IZR (Int_part x) <= x < IZR (Int_part x) + 1.
Proof. generalize (base_Int_part x); lra. Qed.

Lemma rrint_bound x : Rabs (x - IZR (rrint x)) <= 1 / 2.
Proof.
unfold rrint. generalize (Int_part_bound (x + 1 / 2)). set (k := Int_part (x + 1 / 2)). intros h.
apply Rabs_le.
destruct (Req_EM_T _ _) as [e|e]; [destruct (Z.even k)|]; try rewrite minus_IZR; lra.
Qed.

Lemma int_small k x : IZR k <= x < IZR k + 1 -> 0 <= x < 1 -> k = 0%Z.
Proof.
intros h1 h2.
assert (IZR k < IZR 1) by (simpl; lra). assert (IZR (-1) < IZR k) by (simpl; lra).
apply lt_IZR in H. apply lt_IZR in H0. lia.
Qed.

Lemma rrint_small x : - (1 / 2) <= x <= 1 / 2 -> rrint x = 0%Z.
Proof.
intros h. unfold rrint. generalize (Int_part_bound (x + 1 / 2)). set (k := Int_part (x + 1 / 2)). intros hk.
destruct (Rlt_dec x (1 / 2)) as [l|l].
- assert (k = 0)%Z by (apply int_small with (x + 1 / 2); lra). rewrite H.
  destruct (Req_EM_T _ _); reflexivity.
- assert (k = 1)%Z.
  { assert (k - 1 = 0)%Z; [|lia]. apply int_small with (x + 1 / 2 - 1); [rewrite minus_IZR; lra|lra]. }
  rewrite H. destruct (Req_EM_T _ _) as [e|e]; [reflexivity|]. exfalso; apply e; simpl; lra.
Qed.

Lemma cpowinv_pow z n : (0 < n)%nat -> cpow (cpowinv z n) n = z.
Proof.
intros hn. assert (hN : 0 < INR n) by (now apply lt_0_INR).
unfold cpowinv. destruct (Req_EM_T (cabs z) 0) as [h|h].
- rewrite (cabs_0 z h). destruct n as [|n]; [lia|]. simpl. unfold cmul; simpl. f_equal; ring.
- assert (hp : 0 < cabs z) by (generalize (cabs_ge0 z); lra).
  rewrite polar_pow.
  replace (exp (ln (cabs z) / INR n) ^ n) with (cabs z).
  + replace (INR n * (cangle z / INR n)) with (cangle z) by (field; lra). symmetry. apply polar_angle.
  + rewrite <- Rpower_pow by apply exp_pos. unfold Rpower. rewrite ln_exp.
    replace (INR n * (ln (cabs z) / INR n)) with (ln (cabs z)) by (field; lra). symmetry; now apply exp_ln.
Qed.

Lemma cangle_polar r t : 0 < r -> - PI < t <= PI -> cangle (polar r t) = t.
Proof.
intros hr ht. unfold cangle. rewrite cabs_polar by lra.
destruct (Req_EM_T r 0) as [e|_]; [lra|]. simpl.
replace (r * cos t / r) with (cos t) by (field; lra).
destruct (Rle_dec 0 (r * sin t)) as [h|h].
- assert (0 <= sin t) by (apply Rmult_le_reg_l with r; lra).
  destruct (Rle_dec 0 t) as [p|p].
  + apply acos_cos. lra.
  + exfalso. assert (sin (- t) > 0) by (apply sin_gt_0; lra). rewrite sin_neg in H0. lra.
- assert (sin t < 0).
  { apply Rnot_le_lt. intros q. apply h. apply Rmult_le_pos; lra. }
  destruct (Rle_dec 0 t) as [p|p].
  + exfalso. assert (0 <= sin t) by (apply sin_ge_0; lra). lra.
  + rewrite <- (cos_neg t), acos_cos by lra. ring.
Qed.

Lemma cangle_gt z : - PI < cangle z.
Proof.
unfold cangle. generalize PI_RGT_0; intros p.
destruct (Req_EM_T _ _) as [e|e]; [lra|]. generalize (acos_bound (fst z / cabs z)); intros q.
destruct (Rle_dec _ _) as [l|l]; [lra|].
assert (acos (fst z / cabs z) <> PI); [|lra]. intros E.
assert (hp : 0 < cabs z) by (generalize (cabs_ge0 z); lra).
assert (hx : -1 <= fst z / cabs z <= 1).
{ assert (hs := cabs_sq z).
  assert (H : fst z * fst z <= cabs z * cabs z) by (generalize (Rle_0_sqr (snd z)); unfold Rsqr; lra).
  assert (H0 : Rabs (fst z) <= cabs z).
  { rewrite <- (Rabs_right (cabs z)) by lra. apply Rsqr_le_abs_0. exact H. }
  unfold Rabs in H0; destruct (Rcase_abs (fst z)).
  all: split; apply Rmult_le_reg_r with (cabs z); try lra;
      unfold Rdiv; rewrite Rmult_assoc, Rinv_l by lra; lra. }
assert (c := cos_acos _ hx). rewrite E, cos_PI in c.
assert (fst z = - cabs z).
{ apply Rmult_eq_reg_r with (/ cabs z); [|apply Rinv_neq_0_compat; lra].
  unfold Rdiv in c. rewrite <- c. field. lra. }
assert (hs := cabs_sq z). rewrite H in hs.
assert (snd z * snd z = 0) by lra. apply Rsqr_0_uniq in H0. lra.
Qed.

(** The angle correction of nroot never changes the principal root. *)
Lemma nroot_principal z n : (0 < n)%nat -> nroot z n = cpowinv z n.
Proof.
intros hn. assert (hN : 1 <= INR n) by (apply (le_INR 1 n); lia).
assert (hp := PI_RGT_0).
assert (B : - PI < cangle (cpowinv z n) * INR n <= PI).
{ unfold cpowinv. destruct (Req_EM_T (cabs z) 0) as [h|h].
  - unfold cangle. replace (cabs (0, 0)) with 0.
    + destruct (Req_EM_T 0 0) as [_|e]; [lra|]. now exfalso; apply e.
    + unfold cabs; simpl. rewrite Rmult_0_l, Rplus_0_l. symmetry; apply sqrt_0.
  - assert (Ht : - PI < cangle z / INR n <= PI).
    { generalize (cangle_bound z) (cangle_gt z); intros b g.
      split.
      - apply Rmult_lt_reg_r with (INR n); [lra|]. unfold Rdiv; rewrite Rmult_assoc, Rinv_l by lra.
        assert (PI * 1 <= PI * INR n) by (apply Rmult_le_compat_l; lra). lra.
      - apply Rmult_le_reg_r with (INR n); [lra|]. unfold Rdiv; rewrite Rmult_assoc, Rinv_l by lra.
        assert (PI * 1 <= PI * INR n) by (apply Rmult_le_compat_l; lra). lra. }
    rewrite cangle_polar by (auto using exp_pos).
    unfold Rdiv; rewrite Rmult_assoc, Rinv_l by lra. generalize (cangle_bound z) (cangle_gt z). lra. }
unfold nroot. cbv zeta.
rewrite rrint_small.
- replace (cangle (cpowinv z n) - 0 * 2 * PI / INR n) with (cangle (cpowinv z n)) by (field; lra).
  symmetry; apply polar_angle.
- split; apply Rmult_le_reg_r with (2 * PI); try lra.
  all: replace (cangle (cpowinv z n) * INR n / (2 * PI) * (2 * PI)) with (cangle (cpowinv z n) * INR n) by (field; lra); lra.
Qed.

Lemma nroot_pow z n : (0 < n)%nat -> cpow (nroot z n) n = z.
Proof. intros hn. rewrite nroot_principal by exact hn. now apply cpowinv_pow. Qed.

Lemma nroot_angle z n : (0 < n)%nat ->
  - (PI / INR n) < cangle (nroot z n) <= PI / INR n.
Proof.
intros hn. rewrite nroot_principal by exact hn.
assert (hN : 1 <= INR n) by (apply (le_INR 1 n); lia). assert (hp := PI_RGT_0).
assert (P : 0 < PI / INR n) by (apply Rdiv_lt_0_compat; lra).
unfold cpowinv. destruct (Req_EM_T (cabs z) 0) as [h|h].
- unfold cangle. replace (cabs (0, 0)) with 0.
  + destruct (Req_EM_T 0 0) as [_|e]; [lra|]. now exfalso; apply e.
  + unfold cabs; simpl. rewrite Rmult_0_l, Rplus_0_l. symmetry; apply sqrt_0.
- assert (B : - (PI / INR n) < cangle z / INR n <= PI / INR n).
  { generalize (cangle_bound z) (cangle_gt z); intros b g. unfold Rdiv.
    assert (i : 0 < / INR n) by (apply Rinv_0_lt_compat; lra).
    split.
    - rewrite Ropp_mult_distr_l. apply Rmult_lt_compat_r; lra.
    - apply Rmult_le_compat_r; lra. }
  assert (Q : PI / INR n <= PI).
  { unfold Rdiv. rewrite <- (Rmult_1_r PI) at 2. apply Rmult_le_compat_l; [lra|].
    rewrite <- Rinv_1. apply Rinv_le_contravar; lra. }
  rewrite cangle_polar; [exact B|apply exp_pos|lra].
Qed.
