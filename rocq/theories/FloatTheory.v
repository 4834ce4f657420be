(** Error analysis of FloatModel. *)
From Coq Require Import List ZArith QArith Qreals Reals Lra Lia Psatz.
From Flocq Require Import Core Relative.
From Verif Require Import Py Mat3 MatQ GroupModel GroupSpec GroupProofs SpaceGroupProofs TransformModel TransformSpec FloatModel FloatSpec.
Import ListNotations.
Open Scope R_scope.

Definition isint (x : R) : Prop := exists z, x = IZR z.

Lemma Q2R_inject z : Q2R (inject_Z z) = IZR z.
Proof. unfold Q2R, inject_Z; cbn. field. Qed.
Lemma isint_Q q : isint (Q2R q) <-> qint q.
Proof.
  split; intros [z H]; exists z.
  - apply eqR_Qeq. rewrite H, Q2R_inject. reflexivity.
  - rewrite (Qeq_eqR _ _ H). apply Q2R_inject.
Qed.
Lemma isint_add x z : isint (x + IZR z) <-> isint x.
Proof.
  split; intros [w H].
  - exists (w - z)%Z. rewrite minus_IZR, <- H. ring.
  - exists (w + z)%Z. rewrite plus_IZR, <- H. ring.
Qed.

Section Analysis.
Variables (u eta : R) (A : arith).
Hypothesis OK : arith_ok u eta A.
Let u0 : 0 <= u := proj1 (ok_u _ _ _ OK).
Let u1 : u <= / 4 := proj2 (ok_u _ _ _ OK).
Let eta0 : 0 <= eta := ok_eta _ _ _ OK.

Lemma fl_near x y e m : Rabs (x - y) <= e -> Rabs y <= m -> Rabs (fl A x - y) <= e + u * (m + e) + eta.
Proof.
  intros He Hm. pose proof (ok_fl _ _ _ OK x) as H.
  replace (fl A x - y) with ((fl A x - x) + (x - y)) by ring.
  apply Rle_trans with (1 := Rabs_triang _ _).
  assert (Rabs x <= m + e) as Hx.
  { replace x with (y + (x - y)) by ring. apply Rle_trans with (1 := Rabs_triang _ _). lra. }
  assert (u * Rabs x <= u * (m + e)) by (apply Rmult_le_compat_l; auto). lra.
Qed.

Lemma abs_mul_le a b c d : Rabs a <= c -> Rabs b <= d -> Rabs (a * b) <= c * d.
Proof. intros. rewrite Rabs_mult. apply Rmult_le_compat; auto using Rabs_pos. Qed.

Definition dot_err (c B d : R) : R := 3 * c * d + 12 * u * c * (B + d) + 8 * eta.
Lemma dot_near c B d a b b' : 0 <= c -> vsmall c a -> vsmall B b -> vnear d b' b ->
  Rabs (dot3 A a b' - rdot a b) <= dot_err c B d.
Proof.
  intros c0 (a1 & a2 & a3) (b1 & b2 & b3) (d1 & d2 & d3).
  pose proof (ok_dot _ _ _ OK a b') as H.
  replace (dot3 A a b' - rdot a b) with ((dot3 A a b' - rdot a b') + (rdot a b' - rdot a b)) by ring.
  apply Rle_trans with (1 := Rabs_triang _ _).
  assert (forall p q q', Rabs p <= c -> Rabs q <= B -> Rabs (q' - q) <= d -> Rabs (p * q') <= c * (B + d)) as K.
  { intros p q q' Hp Hq Hq'. apply abs_mul_le; auto. replace q' with (q + (q' - q)) by ring.
    apply Rle_trans with (1 := Rabs_triang _ _). lra. }
  assert (adot a b' <= 3 * (c * (B + d))) as Ha.
  { unfold adot. pose proof (K _ _ _ a1 b1 d1). pose proof (K _ _ _ a2 b2 d2). pose proof (K _ _ _ a3 b3 d3). lra. }
  assert (4 * u * adot a b' <= 4 * u * (3 * (c * (B + d)))) by (apply Rmult_le_compat_l; lra).
  assert (Rabs (rdot a b' - rdot a b) <= 3 * (c * d)).
  { unfold rdot.
    replace (_ - _) with (x1 a * (x1 b' - x1 b) + x2 a * (x2 b' - x2 b) + x3 a * (x3 b' - x3 b)) by ring.
    pose proof (abs_mul_le _ _ _ _ a1 d1). pose proof (abs_mul_le _ _ _ _ a2 d2). pose proof (abs_mul_le _ _ _ _ a3 d3).
    apply Rle_trans with (1 := Rabs_triang _ _).
    pose proof (Rabs_triang (x1 a * (x1 b' - x1 b)) (x2 a * (x2 b' - x2 b))). lra. }
  unfold dot_err. lra.
Qed.
Lemma rdot_le c B a b : 0 <= c -> vsmall c a -> vsmall B b -> Rabs (rdot a b) <= 3 * c * B.
Proof.
  intros c0 (a1 & a2 & a3) (b1 & b2 & b3). unfold rdot.
  pose proof (abs_mul_le _ _ _ _ a1 b1). pose proof (abs_mul_le _ _ _ _ a2 b2). pose proof (abs_mul_le _ _ _ _ a3 b3).
  apply Rle_trans with (1 := Rabs_triang _ _).
  pose proof (Rabs_triang (x1 a * x1 b) (x2 a * x2 b)). lra.
Qed.

(** The nearest-integer test. *)
Definition margin (atol : R) (D : positive) (e : R) : Prop :=
  e < / 2 /\ (1 + u) * e + eta <= atol /\ atol < (1 - u) * (/ IZR (Zpos D) - e) - eta.
Lemma near_test atol D e x x' : margin atol D e -> isint (IZR (Zpos D) * x) -> Rabs (x' - x) <= e ->
  (Rle_bool (Rabs (fl A (x' - IZR (frint x')))) atol = true <-> isint x).
Proof.
  intros (e2 & Hs & Hl) [w Hw] He. pose proof (ok_fl _ _ _ OK (x' - IZR (frint x'))) as Hf.
  set (y := x' - IZR (frint x')) in *.
  assert (Rabs (fl A y) <= (1 + u) * Rabs y + eta) as Hup.
  { replace (fl A y) with ((fl A y - y) + y) by ring. apply Rle_trans with (1 := Rabs_triang _ _). lra. }
  assert ((1 - u) * Rabs y - eta <= Rabs (fl A y)) as Hdn.
  { assert (Rabs y <= Rabs (fl A y) + Rabs (fl A y - y)).
    { replace y with (fl A y + (y - fl A y)) at 1 by ring. rewrite (Rabs_minus_sym (fl A y)). apply Rabs_triang. }
    lra. }
  split.
  - intros H. destruct (Rle_bool_spec (Rabs (fl A y)) atol) as [Hle|]; [clear H|discriminate].
    destruct (Req_dec x (IZR (frint x'))) as [E|NE]; [exists (frint x'); auto|exfalso].
    assert (0 < IZR (Zpos D)) as D0 by (apply IZR_lt; reflexivity).
    assert (1 <= Rabs (IZR (Zpos D) * (x - IZR (frint x')))) as H1.
    { rewrite Rmult_minus_distr_l, Hw, <- mult_IZR, <- minus_IZR, <- abs_IZR. apply IZR_le.
      assert (w - Z.pos D * frint x' <> 0)%Z; [|lia]. intros Z0. apply NE.
      apply (Rmult_eq_reg_l (IZR (Zpos D))); [|lra]. rewrite Hw, <- mult_IZR. f_equal. lia. }
    rewrite Rabs_mult, (Rabs_pos_eq (IZR (Zpos D))) in H1 by lra.
    assert (/ IZR (Zpos D) <= Rabs (x - IZR (frint x'))) as H2.
    { apply (Rmult_le_reg_l (IZR (Zpos D))); auto. rewrite Rinv_r by lra. exact H1. }
    assert (/ IZR (Zpos D) - e <= Rabs y) as H3.
    { assert (Rabs (x - IZR (frint x')) <= Rabs y + Rabs (x' - x)); [|lra].
      replace (x - IZR (frint x')) with (y + (x - x')) by (unfold y; ring).
      rewrite (Rabs_minus_sym x'). apply Rabs_triang. }
    assert ((1 - u) * (/ IZR (Z.pos D) - e) <= (1 - u) * Rabs y) by (apply Rmult_le_compat_l; lra). lra.
  - intros [z ->]. apply Rle_bool_true. apply Rle_trans with (1 := Hup).
    assert (Rabs y <= e) as Hy.
    { unfold y. replace (frint x') with z; [exact He|]. symmetry. apply Znearest_imp. lra. }
    assert ((1 + u) * Rabs y <= (1 + u) * e) by (apply Rmult_le_compat_l; lra). lra.
Qed.

(** numpy.remainder shifts its argument by an integer, up to rounding. *)
Lemma remainder_near x x' e : Rabs (x' - x) <= e ->
  exists z, Rabs (fremainder A x' - (x + IZR z)) <= e + u + eta.
Proof.
  intros He. unfold fremainder. set (t := Ztrunc x').
  destruct (Rlt_bool_spec (x' - IZR t) 0) as [Hn|Hp].
  - exists (1 - t)%Z. rewrite minus_IZR. pose proof (ok_fl _ _ _ OK (x' - IZR t + 1)) as Hf.
    assert (Rabs (x' - IZR t + 1) <= 1) as Hb.
    { assert (-1 <= x' - IZR t); [|rewrite Rabs_pos_eq; lra].
      unfold t, Ztrunc in *. destruct (Rlt_bool_spec x' 0) as [H|H].
      - pose proof (Zceil_lb x'). pose proof (Zceil_ub x').
        destruct (Req_dec (IZR (Zfloor x')) x') as [E|NE]; [rewrite <- E in Hn; rewrite Zceil_IZR in Hn; rewrite E in Hn; lra|].
        lra.
      - pose proof (Zfloor_lb x'). lra. }
    replace (fl A _ - _) with ((fl A (x' - IZR t + 1) - (x' - IZR t + 1)) + (x' - x)) by ring.
    apply Rle_trans with (1 := Rabs_triang _ _).
    assert (u * Rabs (x' - IZR t + 1) <= u * 1) by (apply Rmult_le_compat_l; auto). lra.
  - exists (- t)%Z. rewrite opp_IZR. replace (_ - _ - _) with (x' - x) by ring. lra.
Qed.

(** Rows of an integer matrix. *)
Lemma rows_small c m : entries_le c m -> vsmall (IZR c) (row1 (rofZ m)) /\ vsmall (IZR c) (row2 (rofZ m)) /\ vsmall (IZR c) (row3 (rofZ m)) /\
  vsmall (IZR c) (row1 (rtr (rofZ m))) /\ vsmall (IZR c) (row2 (rtr (rofZ m))) /\ vsmall (IZR c) (row3 (rtr (rofZ m))).
Proof. intros (?&?&?&?&?&?&?&?&?). unfold vsmall; cbn; rewrite <- !abs_IZR. repeat split; apply IZR_le; auto. Qed.
Lemma entries_pos c m : entries_le c m -> 0 <= IZR c.
Proof. intros (H & _). apply IZR_le. lia. Qed.

Lemma mtvec_R r k : vR (mtvec r k) = let m := rtr (rofZ r) in RVec (rdot (row1 m) (vR k)) (rdot (row2 m) (vR k)) (rdot (row3 m) (vR k)).
Proof. unfold vR, mtvec, rdot, rtr, rofZ; cbn [x1 x2 x3 row1 row2 row3 v1 v2 v3]. now rewrite !Q2R_plus, !Q2R_mult, !Q2R_inject. Qed.
Lemma mvec_R r k : vR (mvec r k) = let m := rofZ r in RVec (rdot (row1 m) (vR k)) (rdot (row2 m) (vR k)) (rdot (row3 m) (vR k)).
Proof. unfold vR, mvec, rdot, rofZ; cbn [x1 x2 x3 row1 row2 row3 v1 v2 v3]. now rewrite !Q2R_plus, !Q2R_mult, !Q2R_inject. Qed.

Lemma den_isint D v : has_denominator D v -> isint (IZR (Zpos D) * x1 (vR v)) /\ isint (IZR (Zpos D) * x2 (vR v)) /\ isint (IZR (Zpos D) * x3 (vR v)).
Proof.
  intros (H1 & H2 & H3). unfold vR; cbn [x1 x2 x3]. rewrite <- !Q2R_inject, <- !Q2R_mult, !isint_Q. auto.
Qed.
Lemma vint_isint v : vint v <-> isint (x1 (vR v)) /\ isint (x2 (vR v)) /\ isint (x3 (vR v)).
Proof. unfold vint, vR; cbn [x1 x2 x3]. rewrite !isint_Q. reflexivity. Qed.

Lemma near_testv atol D e v v' : margin atol D e -> has_denominator D v -> vnear e v' (vR v) ->
  (fclose0 atol (fnear A v') = true <-> vint v).
Proof.
  intros M HD (n1 & n2 & n3). destruct (den_isint _ _ HD) as (d1 & d2 & d3).
  unfold fclose0, rvall, fnear, rvmap; cbn [x1 x2 x3]. rewrite !andb_true_iff, vint_isint.
  rewrite (near_test _ _ _ _ _ M d1 n1), (near_test _ _ _ _ _ M d2 n2), (near_test _ _ _ _ _ M d3 n3). tauto.
Qed.

(** get_little_group *)
Definition residual_err (c B d : R) : R := (dot_err c B d + d) + u * ((3 * c + 1) * B + (dot_err c B d + d)) + eta.
Lemma residual_near c B d r k k' : entries_le c r -> vsmall B (vR k) -> vnear d k' (vR k) ->
  vnear (residual_err (IZR c) B d) (fsub A (fmv A (rtr (rofZ r)) k') k') (vR (residual r k)).
Proof.
  intros Hc HB Hd. pose proof (entries_pos _ _ Hc) as c0. destruct (rows_small _ _ Hc) as (_ & _ & _ & r1 & r2 & r3).
  assert (vR (residual r k) = rvmap2 Rminus (vR (mtvec r k)) (vR k)) as ->.
  { unfold residual, vsub, rvmap2, vR; cbn [v1 v2 v3 x1 x2 x3]. now rewrite !Q2R_minus. }
  rewrite mtvec_R. cbv zeta. destruct HB as (B1 & B2 & B3). pose proof Hd as (D1 & D2 & D3).
  assert (forall a y y', vsmall (IZR c) a -> Rabs y <= B -> Rabs (y' - y) <= d ->
    Rabs (fl A (dot3 A a k' - y') - (rdot a (vR k) - y)) <= residual_err (IZR c) B d) as K.
  { intros a y y' Ha Hy Hy'. unfold residual_err. apply fl_near.
    - replace (_ - _) with ((dot3 A a k' - rdot a (vR k)) - (y' - y)) by ring.
      unfold Rminus at 1. apply Rle_trans with (1 := Rabs_triang _ _). rewrite Rabs_Ropp.
      assert (Rabs (dot3 A a k' - rdot a (vR k)) <= dot_err (IZR c) B d); [|lra].
      apply dot_near; auto. repeat split; auto.
    - unfold Rminus. apply Rle_trans with (1 := Rabs_triang _ _). rewrite Rabs_Ropp.
      assert (Rabs (rdot a (vR k)) <= 3 * IZR c * B); [|lra]. apply rdot_le; auto. repeat split; auto. }
  unfold vnear, fsub, fmv, rvmap2; cbn [x1 x2 x3]. repeat split; apply K; auto.
Qed.
Lemma residual_den D r k : has_denominator D k -> has_denominator D (residual r k).
Proof.
  intros (H1 & H2 & H3). unfold has_denominator, residual, vsub, mtvec; cbn [v1 v2 v3].
  assert (forall a b c x, qint (inject_Z (Zpos D) * x) ->
    qint (inject_Z (Zpos D) * (inject_Z a * v1 k + inject_Z b * v2 k + inject_Z c * v3 k - x))) as K.
  { intros a b c x Hx.
    apply (qint_eq (inject_Z a * (inject_Z (Zpos D) * v1 k) + inject_Z b * (inject_Z (Zpos D) * v2 k)
       + inject_Z c * (inject_Z (Zpos D) * v3 k) + inject_Z (-1) * (inject_Z (Zpos D) * x))%Q); [unfold inject_Z; ring|].
    repeat apply qint_plus; apply qint_mult; auto using qint_Z. }
  repeat split; apply K; auto.
Qed.
Lemma keeps_fl atol D c B d r k k' : margin atol D (residual_err (IZR c) B d) -> has_denominator D k ->
  entries_le c r -> vsmall B (vR k) -> vnear d k' (vR k) ->
  (keeps_kpoint_fl A atol k' r = true <-> fixes_kpoint k r).
Proof.
  intros M HD Hc HB Hd. unfold keeps_kpoint_fl, fixes_kpoint.
  apply (near_testv _ D _ (residual r k)) with (1 := M); auto using residual_den, residual_near.
Qed.
Lemma little_fl atol D c B d rots trans k k' tol : margin atol D (residual_err (IZR c) B d) -> has_denominator D k ->
  Forall (entries_le c) rots -> vsmall B (vR k) -> vnear d k' (vR k) ->
  (0 <= tol)%Q -> (inject_Z (Zpos D) * tol < 1)%Q ->
  get_little_group_fl A rots trans k' atol = get_little_group rots trans k tol.
Proof.
  intros M HD Hc HB Hd t0 t1. unfold get_little_group_fl, get_little_group, little_entries.
  rewrite (filter_ext_in _ (fun x => keeps_kpoint tol k (fst (snd x)))); [reflexivity|].
  intros [i [r t]] Hin; cbn [fst snd]. apply Bool.eq_iff_eq_true.
  rewrite (keeps_kpoint_exact D); auto. apply (keeps_fl _ D c B d); auto.
  rewrite Forall_forall in Hc. apply Hc. apply in_enumerate in Hin. apply nth_error_In in Hin. apply in_combine_l in Hin. exact Hin.
Qed.

(** 2k *)
Definition double_err (B d : R) : R := 2 * d + u * (2 * B + 2 * d) + eta.
Lemma two_k_fl atol D B d k k' : margin atol D (double_err B d) -> has_denominator D k ->
  vsmall B (vR k) -> vnear d k' (vR k) ->
  (two_k_integral_fl A atol k' = true <-> vint (vadd k k)).
Proof.
  intros M HD (B1 & B2 & B3) (d1 & d2 & d3). unfold two_k_integral_fl.
  apply (near_testv _ D _ (vadd k k)) with (1 := M); [apply has_denominator_add; auto|].
  assert (forall y y', Rabs y <= B -> Rabs (y' - y) <= d -> Rabs (fl A (2 * y') - (y + y)) <= double_err B d) as K.
  { intros y y' Hy Hy'. apply fl_near.
    - replace (_ - _) with (2 * (y' - y)) by ring. rewrite Rabs_mult, (Rabs_pos_eq 2); lra.
    - apply Rle_trans with (1 := Rabs_triang _ _). lra. }
  unfold vnear, rvmap, vadd, vR; cbn [x1 x2 x3 v1 v2 v3]. rewrite !Q2R_plus. repeat split; apply K; auto.
Qed.

(** decompose_by_maximal_space_subgroup *)
Section Ops.
Variables (atol : R) (D : positive) (c : Z) (B d : R).
Hypotheses (c1 : (1 <= c)%Z) (B0 : 0 <= B) (d0 : 0 <= d).
Record approx (o : mop) (o' : fop) : Prop := {
  ap_rot : fst (fst o') = mop_rot o;
  ap_tr : snd o' = mop_tr o;
  ap_near : vnear d (snd (fst o')) (vR (mop_trans o));
  ap_entries : entries_le c (mop_rot o);
  ap_small : vsmall B (vR (mop_trans o));
  ap_den : has_denominator D (mop_trans o) }.
Definition diff_err : R :=
  let e := residual_err (IZR c) B d in (e + d) + u * ((3 * IZR c + 2) * B + (e + d)) + eta + u + eta.
Hypothesis M : margin atol D diff_err.

Lemma approx_default : approx (mid, vzero, false) (mid, rvzero, false).
Proof.
  assert (vR vzero = rvzero) as E by (unfold vR, vzero, rvzero; cbn; now rewrite RMicromega.Q2R_0).
  split; cbn; auto.
  - rewrite E. unfold vnear, rvzero; cbn. rewrite Rminus_0_r, Rabs_R0. auto.
  - unfold entries_le; cbn. repeat split; lia.
  - rewrite E. unfold vsmall, rvzero; cbn. rewrite Rabs_R0. auto.
  - repeat split; exists 0%Z; cbn; ring.
Qed.
Lemma approx_nth ops ops' i : Forall2 approx ops ops' -> approx (nth i ops (mid, vzero, false)) (nth i ops' (mid, rvzero, false)).
Proof.
  intros H. revert i. induction H as [|o o' l l' Ho _ IH]; intros [|i]; cbn; auto using approx_default.
Qed.
Lemma find_index_approx p q ops ops' : (forall o o', approx o o' -> p o = q o') -> Forall2 approx ops ops' ->
  find_index p ops = find_index q ops'.
Proof.
  intros Hpq H. induction H as [|o o' l l' Ho _ IH]; cbn; auto. rewrite (Hpq _ _ Ho), IH. reflexivity.
Qed.
Lemma forallb_approx ops ops' : Forall2 approx ops ops' -> forallb mop_tr ops = forallb snd ops'.
Proof. intros H. induction H as [|o o' l l' Ho _ IH]; cbn; auto. rewrite (ap_tr _ _ Ho), IH. reflexivity. Qed.
Lemma xsg_approx ops ops' : Forall2 approx ops ops' ->
  map fst (filter (fun x => negb (mop_tr (snd x))) (enumerate ops)) = map fst (filter (fun x => negb (snd (snd x))) (enumerate ops')).
Proof.
  unfold enumerate. intros H.
  assert (length ops' = length ops) as -> by (induction H; cbn; auto). generalize 0%nat.
  induction H as [|o o' l l' Ho _ IH]; intros s; cbn; auto. rewrite (ap_tr _ _ Ho).
  destruct (negb (mop_tr o)); cbn; rewrite IH; reflexivity.
Qed.
Lemma match_approx o1 o1' o2 o2' o o' : approx o1 o1' -> approx o2 o2' -> approx o o' ->
  (inject_Z (Zpos D) * atol_default < 1)%Q ->
  tr_match (mmul (mop_rot o1) (mop_rot o2)) (vadd (mvec (mop_rot o1) (mop_trans o2)) (mop_trans o1)) o =
  tr_match_fl A atol (mmul (fst (fst o1')) (fst (fst o2'))) (fadd A (fmv A (rofZ (fst (fst o1'))) (snd (fst o2'))) (snd (fst o1'))) o'.
Proof.
  intros [r1 t1 n1 e1 s1 h1] [r2 t2 n2 e2 s2 h2] [r t n e s h] HD.
  unfold tr_match, tr_match_fl. rewrite t, r, r1, r2. f_equal. apply Bool.eq_iff_eq_true.
  set (w := vadd (mvec (mop_rot o1) (mop_trans o2)) (mop_trans o1)).
  assert (has_denominator D (vsub w (mop_trans o))) as Hden.
  { apply has_denominator_sub; auto. apply has_denominator_add; auto using has_denominator_mvec. }
  rewrite (same_mod_lattice_exact D); auto.
  pose proof (entries_pos _ _ e1) as c0. destruct (rows_small _ _ e1) as (R1 & R2 & R3 & _).
  set (w' := fadd A _ _).
  assert (vnear (residual_err (IZR c) B d) w' (vR w) /\ vsmall ((3 * IZR c + 1) * B) (vR w)) as (Hw & Hb).
  { assert (vR w = rvmap2 Rplus (vR (mvec (mop_rot o1) (mop_trans o2))) (vR (mop_trans o1))) as ->.
    { unfold w, vadd, rvmap2, vR; cbn [v1 v2 v3 x1 x2 x3]. now rewrite !Q2R_plus. }
    rewrite mvec_R. cbv zeta. pose proof s1 as (S1 & S2 & S3). pose proof n1 as (N1 & N2 & N3).
    assert (forall a y y', vsmall (IZR c) a -> Rabs y <= B -> Rabs (y' - y) <= d ->
      Rabs (fl A (dot3 A a (snd (fst o2')) + y') - (rdot a (vR (mop_trans o2)) + y)) <= residual_err (IZR c) B d /\
      Rabs (rdot a (vR (mop_trans o2)) + y) <= (3 * IZR c + 1) * B) as K.
    { intros a y y' Ha Hy Hy'.
      assert (Rabs (rdot a (vR (mop_trans o2)) + y) <= (3 * IZR c + 1) * B) as Hs.
      { apply Rle_trans with (1 := Rabs_triang _ _).
        assert (Rabs (rdot a (vR (mop_trans o2))) <= 3 * IZR c * B) by (apply rdot_le; auto). lra. }
      split; auto. unfold residual_err. apply fl_near; auto.
      replace (_ - _) with ((dot3 A a (snd (fst o2')) - rdot a (vR (mop_trans o2))) + (y' - y)) by ring.
      apply Rle_trans with (1 := Rabs_triang _ _).
      assert (Rabs (dot3 A a (snd (fst o2')) - rdot a (vR (mop_trans o2))) <= dot_err (IZR c) B d) by (apply dot_near; auto).
      lra. }
    unfold vnear, vsmall, w', fadd, fmv, rvmap2; cbn [x1 x2 x3].
    destruct (K _ _ _ R1 S1 N1). destruct (K _ _ _ R2 S2 N2). destruct (K _ _ _ R3 S3 N3). auto 10. }
  destruct Hw as (W1 & W2 & W3). destruct Hb as (b1 & b2 & b3). destruct s as (s1' & s2' & s3'). destruct n as (n1' & n2' & n3').
  destruct (den_isint _ _ Hden) as (i1 & i2 & i3).
  rewrite vint_isint. unfold same_mod_lattice_fl, fclose0, rvall, fnear, fsub, rvmap2, rvmap; cbn [x1 x2 x3].
  assert (forall x x' y y', Rabs (x' - x) <= residual_err (IZR c) B d -> Rabs x <= (3 * IZR c + 1) * B -> Rabs y <= B -> Rabs (y' - y) <= d ->
    isint (IZR (Zpos D) * (x - y)) ->
    (isint (x - y) <-> Rle_bool (Rabs (fl A (fremainder A (fl A (x' - y')) - IZR (frint (fremainder A (fl A (x' - y'))))))) atol = true)) as K.
  { intros x x' y y' Hx Bx By Hy Hi.
    assert (Rabs (fl A (x' - y') - (x - y)) <= (residual_err (IZR c) B d + d) + u * ((3 * IZR c + 2) * B + (residual_err (IZR c) B d + d)) + eta) as He.
    { apply fl_near.
      - replace (_ - _) with ((x' - x) - (y' - y)) by ring. unfold Rminus at 1.
        apply Rle_trans with (1 := Rabs_triang _ _). rewrite Rabs_Ropp. lra.
      - unfold Rminus. apply Rle_trans with (1 := Rabs_triang _ _). rewrite Rabs_Ropp. lra. }
    destruct (remainder_near _ _ _ He) as [z Hz]. symmetry.
    rewrite (near_test atol D diff_err (x - y + IZR z)); auto using isint_add.
    rewrite Rmult_plus_distr_l, <- mult_IZR. apply isint_add. exact Hi. }
  assert (forall f g, vR (vsub f g) = rvmap2 Rminus (vR f) (vR g)) as E.
  { intros f g. unfold vsub, rvmap2, vR; cbn [v1 v2 v3 x1 x2 x3]. now rewrite !Q2R_minus. }
  rewrite E in i1, i2, i3 |- *. cbn [rvmap2 x1 x2 x3] in *.
  rewrite (K _ _ _ _ W1 b1 s1' n1' i1), (K _ _ _ _ W2 b2 s2' n2' i2), (K _ _ _ _ W3 b3 s3' n3' i3).
  rewrite !andb_true_iff, and_assoc. reflexivity.
Qed.
Lemma decompose_approx ops ops' : Forall2 approx ops ops' -> (inject_Z (Zpos D) * atol_default < 1)%Q ->
  decompose_fl A atol ops' = decompose_by_maximal_space_subgroup ops.
Proof.
  intros H HD. unfold decompose_fl, decompose_by_maximal_space_subgroup.
  rewrite (forallb_approx _ _ H). destruct (forallb snd ops'); auto.
  rewrite (find_index_approx mop_tr snd _ _ (fun o o' h => eq_sym (ap_tr _ _ h)) H).
  unfold fop in *. destruct (find_index snd ops') as [a0|]; auto. rewrite (xsg_approx _ _ H). cbv zeta.
  match goal with |- Ret (Some (_, ?a, _)) = Ret (Some (_, ?b, _)) => assert (a = b) as ->; [|reflexivity] end.
  apply flat_map_ext. intros i.
  pose proof (find_index_approx _ _ _ _ (fun o o' h => match_approx _ _ _ _ _ _ (approx_nth _ _ i H) (approx_nth _ _ a0 H) h HD) H) as E.
  unfold fop in E. rewrite <- E. reflexivity.
Qed.
End Ops.

(** transform_symmetry_and_kpoint *)
Lemma tr_small b m : msmall b m -> msmall b (rtr m).
Proof. unfold msmall, vsmall, rtr; cbn [x1 x2 x3 row1 row2 row3]. intuition. Qed.
Lemma tr_near d a b : mnear d a b -> mnear d (rtr a) (rtr b).
Proof. unfold mnear, vnear, rtr; cbn [x1 x2 x3 row1 row2 row3]. intuition. Qed.
(** Both factors approximate. *)
Definition dot2_err (p dp B d : R) : R := dot_err (p + dp) B d + 3 * dp * B.
Lemma near_small p dp v v' : vsmall p v -> vnear dp v' v -> vsmall (p + dp) v'.
Proof.
  intros (p1 & p2 & p3) (d1 & d2 & d3).
  assert (forall x x', Rabs x <= p -> Rabs (x' - x) <= dp -> Rabs x' <= p + dp) as K.
  { intros x x' Hx Hd. replace x' with (x + (x' - x)) by ring. apply Rle_trans with (1 := Rabs_triang _ _). lra. }
  split; [|split]; [apply (K (x1 v))|apply (K (x2 v))|apply (K (x3 v))]; auto.
Qed.
Lemma dot2_near p dp B d a a' b b' : 0 <= p -> 0 <= dp -> vsmall p a -> vnear dp a' a -> vsmall B b -> vnear d b' b ->
  Rabs (dot3 A a' b' - rdot a b) <= dot2_err p dp B d.
Proof.
  intros p0 dp0 Ha Hna Hb Hnb.
  replace (_ - _) with ((dot3 A a' b' - rdot a' b) + (rdot a' b - rdot a b)) by ring.
  apply Rle_trans with (1 := Rabs_triang _ _). unfold dot2_err. apply Rplus_le_compat.
  - apply dot_near; auto; [lra|]. eapply near_small; eauto.
  - replace (rdot a' b - rdot a b) with (rdot (RVec (x1 a' - x1 a) (x2 a' - x2 a) (x3 a' - x3 a)) b) by (unfold rdot; cbn; ring).
    apply rdot_le; auto.
Qed.
Lemma fmv_near p dp B d m m' v v' : 0 <= p -> 0 <= dp -> msmall p m -> mnear dp m' m -> vsmall B v -> vnear d v' v ->
  vnear (dot2_err p dp B d) (fmv A m' v') (RVec (rdot (row1 m) v) (rdot (row2 m) v) (rdot (row3 m) v)).
Proof.
  intros p0 dp0 (s1 & s2 & s3) (n1 & n2 & n3) Hv Hn. unfold vnear, fmv; cbn [x1 x2 x3].
  repeat split; apply dot2_near; auto.
Qed.
Definition rmm (a b : rmat) : rmat :=
  let row v := RVec (rdot (row1 (rtr b)) v) (rdot (row2 (rtr b)) v) (rdot (row3 (rtr b)) v) in
  RMat (row (row1 a)) (row (row2 a)) (row (row3 a)).
Lemma fmm_near p dp B d a a' b b' : 0 <= p -> 0 <= dp -> msmall p b -> mnear dp b' b -> msmall B a -> mnear d a' a ->
  mnear (dot2_err p dp B d) (fmm A a' b') (rmm a b).
Proof.
  intros p0 dp0 Hb Hnb (s1 & s2 & s3) (n1 & n2 & n3). apply tr_small in Hb. apply tr_near in Hnb.
  unfold mnear, fmm, rmm; cbn [row1 row2 row3]. split; [|split]; apply fmv_near; auto.
Qed.
Lemma rmm_small p B a b : 0 <= p -> msmall p b -> msmall B a -> msmall (3 * p * B) (rmm a b).
Proof.
  intros p0 Hb (s1 & s2 & s3). apply tr_small in Hb. destruct Hb as (t1 & t2 & t3).
  unfold msmall, rmm, vsmall; cbn [row1 row2 row3 x1 x2 x3]. repeat split; apply rdot_le; auto.
Qed.
Lemma qmul_R a b : mR (qmul a b) = rmm (mR a) (mR b).
Proof.
  unfold mR, qmul, rmm, rdot, rtr; cbn [row1 row2 row3 x1 x2 x3 q11 q12 q13 q21 q22 q23 q31 q32 q33].
  rewrite !Q2R_plus, !Q2R_mult. f_equal; f_equal; ring.
Qed.
Lemma qofz_R r : mR (qofz r) = rofZ r.
Proof. unfold mR, qofz, rofZ; cbn [q11 q12 q13 q21 q22 q23 q31 q32 q33]. now rewrite !Q2R_inject. Qed.
Lemma rofZ_small c r : entries_le c r -> msmall (IZR c) (rofZ r).
Proof. intros H. destruct (rows_small _ _ H) as (? & ? & ? & _). repeat split; auto; apply H0 || apply H1 || apply H2. Qed.

Section Transform.
Variables (P : qmat) (P' : rmat) (c : Z) (p dp I di : R).
Hypotheses (p0 : 0 <= p) (dp0 : 0 <= dp) (I0 : 0 <= I) (di0 : 0 <= di).
Hypotheses (sP : msmall p (mR P)) (nP : mnear dp P' (mR P)).
Hypotheses (sI : msmall I (mR (qinv P))) (nI : mnear di (inv3 A P') (mR (qinv P))).
Definition rot_err : R := dot2_err p dp (3 * IZR c * I) (dot2_err (IZR c) 0 I di).
Lemma zero_near m : mnear 0 m m.
Proof. unfold mnear, vnear. rewrite !Rminus_eq_0, Rabs_R0. lra. Qed.
Lemma frint_rint q x : qint q -> Rabs (x - Q2R q) < / 2 -> frint x = rint q.
Proof.
  intros [z Hz] Hx. rewrite (Qeq_eqR _ _ Hz), Q2R_inject in Hx.
  transitivity z; [apply Znearest_imp; auto|]. rewrite (rint_proper _ _ Hz), rint_Z. reflexivity.
Qed.
Lemma transform_rot r : entries_le c r -> conj_integral P r -> rot_err < / 2 ->
  fround (fmm A (fmm A (inv3 A P') (rofZ r)) P') = transform_rotation P r.
Proof.
  intros Hc Hi He. pose proof (entries_pos _ _ Hc) as c0. pose proof (rofZ_small _ _ Hc) as Hs.
  assert (mnear rot_err (fmm A (fmm A (inv3 A P') (rofZ r)) P') (mR (qmul (qmul (qinv P) (qofz r)) P))) as H.
  { rewrite !qmul_R, qofz_R. apply fmm_near; auto.
    - apply rmm_small; auto.
    - apply fmm_near; auto using zero_near. lra. }
  destruct H as ((h1 & h2 & h3) & (h4 & h5 & h6) & (h7 & h8 & h9)).
  destruct Hi as (i1 & i2 & i3 & i4 & i5 & i6 & i7 & i8 & i9).
  unfold fround, transform_rotation, qround.
  f_equal; (apply frint_rint; [assumption|]); (eapply Rle_lt_trans; [|apply He]); assumption.
Qed.
Lemma transform_rots rots : Forall (entries_le c) rots -> (forall r, In r rots -> conj_integral P r) -> rot_err < / 2 ->
  map (fun r => fround (fmm A (fmm A (inv3 A P') (rofZ r)) P')) rots = map (transform_rotation P) rots.
Proof.
  intros Hc Hi He. apply map_ext_in. intros r Hr. apply transform_rot; auto.
  rewrite Forall_forall in Hc. auto.
Qed.
Lemma qvec_R m v : vR (qvec m v) = let a := mR m in RVec (rdot (row1 a) (vR v)) (rdot (row2 a) (vR v)) (rdot (row3 a) (vR v)).
Proof. unfold vR, qvec, rdot, mR; cbn [x1 x2 x3 row1 row2 row3 v1 v2 v3]. now rewrite !Q2R_plus, !Q2R_mult. Qed.
Lemma qtvec_R m v : vR (qtvec m v) = let a := rtr (mR m) in RVec (rdot (row1 a) (vR v)) (rdot (row2 a) (vR v)) (rdot (row3 a) (vR v)).
Proof. unfold vR, qtvec, rdot, mR, rtr; cbn [x1 x2 x3 row1 row2 row3 v1 v2 v3]. now rewrite !Q2R_plus, !Q2R_mult. Qed.
Lemma transform_k B d k k' : vsmall B (vR k) -> vnear d k' (vR k) ->
  vnear (dot2_err p dp B d) (fmv A (rtr P') k') (vR (transform_kpoint P k)) /\ vsmall (3 * p * B) (vR (transform_kpoint P k)).
Proof.
  intros HB Hd. unfold transform_kpoint. rewrite qtvec_R. split.
  - apply fmv_near; auto using tr_small, tr_near.
  - destruct (tr_small _ _ sP) as (s1 & s2 & s3). unfold vsmall; cbn [x1 x2 x3]. repeat split; apply rdot_le; auto.
Qed.
Lemma transform_t B d t t' : vsmall B (vR t) -> vnear d t' (vR t) ->
  vnear (dot2_err I di B d) (fmv A (inv3 A P') t') (vR (transform_translation P t)).
Proof. intros HB Hd. unfold transform_translation. rewrite qvec_R. apply fmv_near; auto. Qed.
End Transform.
End Analysis.
