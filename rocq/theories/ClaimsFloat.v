(** Property theorem C60: the lattice comparisons of group.py:142-181, group.py:205-264,
    irreps.py:128-131 and transform.py:41-51 give the exact answer in floating point. *)
From Coq Require Import List ZArith QArith Qreals Reals Lra Lia.
From Flocq Require Import Core Relative.
From Verif Require Import Py Mat3 MatQ GroupModel GroupSpec GroupProofs2 TransformModel TransformSpec FloatModel FloatSpec FloatTheory FloatInst ClaimsGroup.
Import ListNotations.
Open Scope R_scope.

(** NumPy in binary64; the inner product is one of the three of FloatSpec. *)
Definition numpy64 (A : arith) : Prop :=
  fl A = b64 /\ (dot3 A = dot_left \/ dot3 A = dot_right \/ dot3 A = dot_fma).
Lemma numpy64_ok A : numpy64 A -> arith_ok b64_u b64_eta A.
Proof.
  destruct A as [f dt iv]; intros [h1 h2]; cbn [fl dot3] in *. rewrite h1. apply b64_arith_ok. exact h2.
Qed.

(** The default tolerance 1e-8, written as a decimal or rounded. *)
Definition about_1em8 (atol : R) : Prop := 99 / 10000000000 <= atol <= 101 / 10000000000.

Lemma inv_den D M : (Zpos D <= M)%Z -> / IZR M <= / IZR (Zpos D).
Proof. intros H. apply Rinv_le; [apply IZR_lt; reflexivity|apply IZR_le; auto]. Qed.
Ltac numbers := unfold margin, diff_err, residual_err, double_err, rot_err, dot2_err, dot_err, about_1em8, b64_u in *;
  cbv zeta; pose proof b64_eta_pos; pose proof b64_eta_le.

(** get_little_group: k has denominators up to 10^7 and coordinates up to 1000, the float k' is
    within 10^-12 of it, and the rotations have entries up to 100. *)
Theorem C60_little_group_binary64 : forall A rots trans k k' D atol tol,
  numpy64 A -> about_1em8 atol -> has_denominator D k -> (Zpos D <= 10000000)%Z ->
  vsmall 1000 (vR k) -> vnear (/ 1000000000000) k' (vR k) -> Forall (entries_le 100) rots ->
  (0 <= tol)%Q -> (inject_Z (Zpos D) * tol < 1)%Q ->
  get_little_group_fl A rots trans k' atol = get_little_group rots trans k tol.
Proof.
  intros A rots trans k k' D atol tol HA Ha HD HM HB Hn Hc t0 t1. pose proof (inv_den _ _ HM).
  apply (little_fl _ _ _ (numpy64_ok A HA) atol D 100 1000 (/ 1000000000000)); auto.
  numbers. repeat split; lra.
Qed.
Print Assumptions C60_little_group_binary64.

(** The test for 2k in the reciprocal lattice. *)
Theorem C60_two_k_binary64 : forall A k k' D atol,
  numpy64 A -> about_1em8 atol -> has_denominator D k -> (Zpos D <= 10000000)%Z ->
  vsmall 1000 (vR k) -> vnear (/ 1000000000000) k' (vR k) ->
  (two_k_integral_fl A atol k' = true <-> vint (vadd k k)).
Proof.
  intros A k k' D atol HA Ha HD HM HB Hn. pose proof (inv_den _ _ HM).
  apply (two_k_fl _ _ _ (numpy64_ok A HA) atol D 1000 (/ 1000000000000)); auto.
  numbers. repeat split; lra.
Qed.
Print Assumptions C60_two_k_binary64.

(** decompose_by_maximal_space_subgroup: the float operations have the rotations and time
    reversals of the exact ones, and translations within 10^-12. *)
Definition float_ops (D : positive) (ops : list mop) (ops' : list fop) : Prop :=
  Forall2 (fun o o' => fst (fst o') = mop_rot o /\ snd o' = mop_tr o /\
    vnear (/ 1000000000000) (snd (fst o')) (vR (mop_trans o)) /\
    entries_le 100 (mop_rot o) /\ vsmall 1000 (vR (mop_trans o)) /\ has_denominator D (mop_trans o)) ops ops'.
Theorem C60_magnetic_binary64 : forall A D atol ops ops',
  numpy64 A -> about_1em8 atol -> (Zpos D <= 10000000)%Z -> float_ops D ops ops' ->
  decompose_fl A atol ops' = decompose_by_maximal_space_subgroup ops.
Proof.
  intros A D atol ops ops' HA Ha HM H. pose proof (inv_den _ _ HM) as HI.
  apply (decompose_approx _ _ _ (numpy64_ok A HA) atol D 100 1000 (/ 1000000000000)); try lra; [lia| | |].
  - numbers. repeat split; lra.
  - induction H as [|o o' l l' (h1 & h2 & h3 & h4 & h5 & h6) _ IH]; constructor; auto. split; auto.
  - unfold atol_default, Qlt, Qmult, inject_Z; cbn [Qnum Qden]. lia.
Qed.
Print Assumptions C60_magnetic_binary64.

(** transform_symmetry_and_kpoint: with an inverse correct to ten digits the rounded rotations
    are the exact ones, and k and the translations are correct to eleven and eight digits. *)
Record float_basis (A : arith) (P : qmat) (P' : rmat) : Prop := {
  fb_small : msmall 2 (mR P); fb_near : mnear (/ 1000000000000000) P' (mR P);
  fb_inv_small : msmall 10 (mR (qinv P)); fb_inv : mnear (/ 10000000000) (inv3 A P') (mR (qinv P)) }.
Theorem C60_transform_binary64 : forall A P P' rots trans trans' k k',
  numpy64 A -> float_basis A P P' -> Forall (entries_le 100) rots -> (forall r, In r rots -> conj_integral P r) ->
  vsmall 100 (vR k) -> vnear (/ 10000000000000) k' (vR k) ->
  Forall2 (fun t t' => vsmall 10 (vR t) /\ vnear (/ 1000000000000) t' (vR t)) trans trans' ->
  let '(r, t, q) := transform_fl A P' rots trans' k' in
  let '(r0, t0, q0) := transform_symmetry_and_kpoint P rots trans k in
  r = r0 /\ Forall2 (fun x x' => vnear (/ 100000000) x' (vR x)) t0 t /\ vnear (/ 100000000000) q (vR q0).
Proof.
  intros A P P' rots trans trans' k k' HA [sP nP sI nI] Hc Hi Hk Hk' Ht. pose proof (numpy64_ok A HA) as OK.
  unfold transform_fl, transform_symmetry_and_kpoint. split; [|split].
  - apply (transform_rots _ _ _ OK P P' 100 2 (/ 1000000000000000) 10 (/ 10000000000)); auto; try lra.
    numbers. lra.
  - induction Ht as [|t t' l l' [Hb Hn] _ IH]; cbn [map]; constructor; auto.
    destruct (transform_t _ _ _ OK P P' 10 (/ 10000000000) ltac:(lra) ltac:(lra) sI nI 10 (/ 1000000000000) t t' Hb Hn) as (h1 & h2 & h3).
    assert (dot2_err b64_u b64_eta 10 (/ 10000000000) 10 (/ 1000000000000) <= / 100000000) by (numbers; lra).
    split; [|split]; eapply Rle_trans; eauto.
  - destruct (transform_k _ _ _ OK P P' 2 (/ 1000000000000000) ltac:(lra) ltac:(lra) sP nP 100 (/ 10000000000000) k k' Hk Hk') as [(h1 & h2 & h3) _].
    assert (dot2_err b64_u b64_eta 2 (/ 1000000000000000) 100 (/ 10000000000000) <= / 100000000000) by (numbers; lra).
    split; [|split]; eapply Rle_trans; eauto.
Qed.
Print Assumptions C60_transform_binary64.

(** The little group in the primitive cell, starting from a conventional cell. *)
Theorem C60_conventional_binary64 : forall A P P' rots trans trans' T k k' D atol tol,
  numpy64 A -> about_1em8 atol -> float_basis A P P' ->
  Forall (entries_le 30) rots -> Forall (entries_le 100) (map (transform_rotation P) rots) ->
  (forall r, In r rots -> conj_integral P r) ->
  has_denominator D (transform_kpoint P k) -> (Zpos D <= 10000000)%Z ->
  vsmall 100 (vR k) -> vnear (/ 10000000000000) k' (vR k) ->
  (0 <= tol)%Q -> (inject_Z (Zpos D) * tol < 1)%Q ->
  let '(r, _, q) := transform_fl A P' rots trans' k' in
  let '(r0, _, q0) := transform_symmetry_and_kpoint P rots trans k in
  get_little_group_fl A r T q atol = get_little_group r0 T q0 tol.
Proof.
  intros A P P' rots trans trans' T k k' D atol tol HA Ha [sP nP sI nI] Hc Hc' Hi HD HM Hk Hk' t0 t1.
  pose proof (numpy64_ok A HA) as OK. pose proof (inv_den _ _ HM) as HI.
  unfold transform_fl, transform_symmetry_and_kpoint.
  rewrite (transform_rots _ _ _ OK P P' 30 2 (/ 1000000000000000) 10 (/ 10000000000)); auto; try lra; [|numbers; lra].
  destruct (transform_k _ _ _ OK P P' 2 (/ 1000000000000000) ltac:(lra) ltac:(lra) sP nP 100 (/ 10000000000000) k k' Hk Hk') as [h1 h2].
  apply (little_fl _ _ _ OK atol D 100 _ _ _ _ _ _ _ ) with (2 := HD) (4 := h2) (5 := h1); auto.
  numbers. repeat split; lra.
Qed.
Print Assumptions C60_conventional_binary64.

(** Rounding a rational coordinate to binary64 is accurate enough. *)
Lemma b64_coordinate x B : Rabs x <= B -> Rabs (b64 x - x) <= b64_u * B + b64_eta.
Proof.
  intros H. apply Rle_trans with (1 := b64_error x). apply Rplus_le_compat_r, Rmult_le_compat_l; auto.
  unfold b64_u. lra.
Qed.
Theorem C60_rounded_input : forall v,
  (vsmall 1000 (vR v) -> vnear (/ 1000000000000) (rvmap b64 (vR v)) (vR v)) /\
  (vsmall 100 (vR v) -> vnear (/ 10000000000000) (rvmap b64 (vR v)) (vR v)).
Proof.
  intros v. split; intros (h1 & h2 & h3); unfold rvmap, vnear; cbn [x1 x2 x3];
  repeat split; (eapply Rle_trans; [apply b64_coordinate; eassumption|]); numbers; lra.
Qed.
Print Assumptions C60_rounded_input.

(** unique_primitive_symmetry (transform.py:86) reduces translations with np.remainder(t, 1).
    In exact arithmetic the result is below 1; in binary64 a tiny negative number gives 1. *)
Theorem C60_remainder_below_one_refuted : forall A, numpy64 A ->
  exists x, -1 < x < 0 /\ b64 x = x /\ fremainder A x = 1.
Proof.
  intros A [HA _]. exists (- bpow radix2 (-60)).
  assert (0 < bpow radix2 (-60) < 1) as H.
  { split; [apply bpow_gt_0|]. change 1 with (bpow radix2 0). apply bpow_lt. lia. }
  assert (Valid_exp (FLT_exp (-1074) 53)) as V by (apply FLT_exp_valid; reflexivity).
  assert (forall e, (-1074 <= e)%Z -> generic_format radix2 (FLT_exp (-1074) 53) (bpow radix2 e)) as F.
  { intros e He. apply generic_format_bpow. unfold FLT_exp. lia. }
  split; [lra|split].
  - apply round_generic; [apply valid_rnd_N|]. apply generic_format_opp, F. lia.
  - unfold fremainder. replace (Ztrunc (- bpow radix2 (-60))) with 0%Z.
    2:{ rewrite Ztrunc_opp. unfold Ztrunc. rewrite Rlt_bool_false by lra.
        rewrite (Zfloor_imp 0); [reflexivity|]. cbn [Z.add IZR]. lra. }
    rewrite Rlt_bool_true by (cbn [IZR]; lra). rewrite HA. unfold b64. apply Rle_antisym.
    + rewrite <- (round_generic radix2 (FLT_exp (-1074) 53) ZnearestE 1) at 2.
      * apply round_le; [exact V|apply valid_rnd_N|lra].
      * apply (F 0%Z). lia.
    + apply round_N_ge_midp; [exact V|apply (F 0%Z); lia|].
      change 1 with (bpow radix2 0). rewrite pred_bpow by exact V. unfold FLT_exp.
      change (Z.max (0 - 53) (-1074)) with (-53)%Z.
      assert (bpow radix2 (-60) < bpow radix2 (-53) / 2).
      { replace (bpow radix2 (-53)) with (2 * bpow radix2 (-54)).
        - assert (bpow radix2 (-60) < bpow radix2 (-54)) by (apply bpow_lt; lia). lra.
        - change (-53)%Z with (1 + -54)%Z. rewrite bpow_plus. reflexivity. }
      change (bpow radix2 0) with 1. lra.
Qed.
Print Assumptions C60_remainder_below_one_refuted.

(** Concrete cases.  A NumPy whose inverse is the exact one. *)
Definition ex_numpy (P : qmat) : arith := {| fl := b64; dot3 := dot_fma; inv3 := fun _ => mR (qinv P) |}.
Lemma ex_numpy64 P : numpy64 (ex_numpy P).
Proof. split; [reflexivity|right; right; reflexivity]. Qed.
Lemma ex_atol : about_1em8 (/ 100000000).
Proof. unfold about_1em8. lra. Qed.
Lemma Q2R_abs_le q (b : Z) : (Qabs.Qabs q <= inject_Z b)%Q -> Rabs (Q2R q) <= IZR b.
Proof.
  intros H. apply Qabs.Qabs_Qle_condition in H. destruct H as [h1 h2]. apply Qle_Rle in h1, h2.
  rewrite Q2R_opp, Q2R_inject in h1. rewrite Q2R_inject in h2. apply Rabs_le. auto.
Qed.
Ltac small := repeat split; apply Q2R_abs_le; vm_compute; discriminate.
Ltac den := repeat split; apply qintb_sound; reflexivity.
(** The group 4mm at the float nearest to k = (1/3, 0, 0). *)
Example C60_c4v : get_little_group_fl (ex_numpy qid) c4v_group (map (fun _ => vzero) c4v_group)
    (rvmap b64 (vR (Vec (1#3) 0 0))) (/ 100000000) =
  ([mid; mmul mx (mmul c4 c4)], [vzero; vzero], [0; 6]%nat).
Proof.
  assert (vsmall 1000 (vR (Vec (1#3) 0 0))) as S by small.
  rewrite (C60_little_group_binary64 _ _ _ (Vec (1#3) 0 0) _ 3 _ (1#100000000)); auto using ex_numpy64, ex_atol; try (cbn; lia).
  - den.
  - apply C60_rounded_input; auto.
  - unfold c4v_group. repeat constructor; vm_compute; discriminate.
  - discriminate.
  - reflexivity.
Qed.
(** The body-centred basis and the fourfold rotation, k = (1/3, 1/4, 0). *)
Example C60_prim_I :
  let k := Vec (1#3) (1#4) 0 in
  let '(r, _, q) := transform_fl (ex_numpy prim_I) (mR prim_I) [mid; Mat 0 (-1) 0 1 0 0 0 0 1] [] (rvmap b64 (vR k)) in
  get_little_group_fl (ex_numpy prim_I) r [vzero; vzero] q (/ 100000000) = ([mid], [vzero], [0]%nat).
Proof.
  assert (vsmall 100 (vR (Vec (1#3) (1#4) 0))) as S by small.
  pose proof (C60_conventional_binary64 (ex_numpy prim_I) prim_I (mR prim_I) [mid; Mat 0 (-1) 0 1 0 0 0 0 1] [] [] [vzero; vzero]
    (Vec (1#3) (1#4) 0) (rvmap b64 (vR (Vec (1#3) (1#4) 0))) 24 (/ 100000000) (1#100000000)) as H.
  unfold transform_fl, transform_symmetry_and_kpoint in *. cbv zeta. rewrite H; auto using ex_numpy64, ex_atol; try (cbn; lia).
  - split; try small.
    + unfold mnear, vnear. rewrite !Rminus_eq_0, Rabs_R0. lra.
    + unfold mnear, vnear; cbn [ex_numpy inv3]. rewrite !Rminus_eq_0, Rabs_R0. lra.
  - repeat constructor; vm_compute; discriminate.
  - repeat constructor; vm_compute; discriminate.
  - intros r [<-|[<-|[]]]; repeat split; apply qintb_sound; reflexivity.
  - den.
  - apply C60_rounded_input; auto.
  - discriminate.
  - reflexivity.
Qed.
(** A magnetic group with the anti-translation (0, 0, 1/2) and translations in float. *)
Example C60_magnetic :
  let ops := [(mid, vzero, false); (mid, Vec 0 0 (1#2), true)] in
  decompose_fl (ex_numpy qid) (/ 100000000) (map (fun o => (mop_rot o, rvmap b64 (vR (mop_trans o)), mop_tr o)) ops) =
  Ret (Some ([0], [1], 1))%nat.
Proof.
  intros ops. rewrite (C60_magnetic_binary64 _ 2 _ ops); auto using ex_numpy64, ex_atol; try lia.
  assert (vsmall 1000 (vR vzero)) by small. assert (vsmall 1000 (vR (Vec 0 0 (1#2)))) by small.
  constructor; [|constructor; [|constructor]]; (split; [reflexivity|split; [reflexivity|split; [apply C60_rounded_input; assumption|split; [|split; [assumption|den]]]]]);
  repeat split; vm_compute; discriminate.
Qed.
Print Assumptions C60_c4v.
