(** Property theorems C13-C16 (transform.py). *)
From Coq Require Import List Arith ZArith QArith Bool String Ascii Lia.
From Verif Require Import Py Mat3 MatQ GroupModel GroupSpec GroupProofs GroupProofs2 TransformModel TransformSpec TransformProofs.
Import ListNotations.

(* ---------- C13 ---------- *)
Theorem C13_change_of_basis : forall P rots trans k rots' trans' k',
  ~ (qdet P == 0)%Q -> List.length trans = List.length rots ->
  (forall r, In r rots -> conj_integral P r) ->
  transform_symmetry_and_kpoint P rots trans k = (rots', trans', k') ->
  List.length rots' = List.length rots /\ List.length trans' = List.length rots /\
  forall i, (i < List.length rots)%nat ->
    (* P R' = R P and P t' = t and k' = P^T k *)
    qmeq (qmul P (qofz (nth i rots' mid))) (qmul (qofz (nth i rots mid)) P) /\
    veq (qvec P (nth i trans' vzero)) (nth i trans vzero) /\
    veq k' (qtvec P k) /\
    (* pairing and factor-system phases are unchanged *)
    (vdot k' (nth i trans' vzero) == vdot k (nth i trans vzero))%Q /\
    forall j, (j < List.length rots)%nat ->
      (factor_phase rots' trans' k' i j == factor_phase rots trans k i j)%Q /\
      (* composition *)
      transform_rotation P (mmul (nth i rots mid) (nth j rots mid)) =
        mmul (nth i rots' mid) (nth j rots' mid) /\
      veq (transform_translation P (vadd (mvec (nth i rots mid) (nth j trans vzero)) (nth i trans vzero)))
          (vadd (mvec (nth i rots' mid) (nth j trans' vzero)) (nth i trans' vzero)).
Proof.
  intros P rots trans k rots' trans' k' HP Hl HI H. injection H as <- <- <-.
  rewrite !map_length. split; auto. split; auto.
  assert (forall i, (i < List.length rots)%nat -> nth i (map (transform_rotation P) rots) mid = transform_rotation P (nth i rots mid)) as Er.
  { intros i Hi. rewrite (nth_indep _ mid (transform_rotation P mid)) by (rewrite map_length; auto). apply map_nth. }
  assert (forall i, (i < List.length rots)%nat -> nth i (map (transform_translation P) trans) vzero = transform_translation P (nth i trans vzero)) as Et.
  { intros i Hi. rewrite (nth_indep _ vzero (transform_translation P vzero)) by (rewrite map_length; lia). apply map_nth. }
  intros i Hi. rewrite (Er i Hi), (Et i Hi).
  pose proof (HI _ (nth_In _ mid Hi)) as Ci. split; [|split; [|split; [|split]]].
  - rewrite (transform_rotation_q P _ Ci), !qmul_assoc, (qinv_r P HP), qmul_1l. reflexivity.
  - unfold transform_translation. rewrite <- qvec_mul, (qinv_r P HP), qvec_1. reflexivity.
  - reflexivity.
  - apply transform_pairing; auto.
  - intros j Hj. pose proof (HI _ (nth_In _ mid Hj)) as Cj. split; [|split].
    + unfold factor_phase. rewrite (Er i Hi), (Et j Hj), (transform_residual P HP _ _ Ci).
      apply transform_pairing; auto.
    + rewrite (Er j Hj). apply transform_rotation_mul; auto.
    + rewrite (Et j Hj). apply transform_compose; auto.
Qed.
Print Assumptions C13_change_of_basis.
Theorem C13_functorial : forall P R r t k,
  ~ (qdet P == 0)%Q -> ~ (qdet R == 0)%Q -> conj_integral P r ->
  transform_rotation R (transform_rotation P r) = transform_rotation (qmul P R) r /\
  veq (transform_translation R (transform_translation P t)) (transform_translation (qmul P R) t) /\
  veq (transform_kpoint R (transform_kpoint P k)) (transform_kpoint (qmul P R) k).
Proof.
  intros P R r t k HP HR Hr. split; [|split].
  - apply transform_twice; auto.
  - apply transform_translation_twice; auto.
  - apply transform_kpoint_twice.
Qed.
Print Assumptions C13_functorial.
Example C13_hypotheses_met : ~ (qdet prim_I == 0)%Q /\ conj_integral prim_I (Mat 0 (-1) 0 1 0 0 0 0 1) /\
  transform_rotation prim_I (Mat 0 (-1) 0 1 0 0 0 0 1) <> Mat 0 (-1) 0 1 0 0 0 0 1.
Proof.
  split; [intros H; discriminate H|]. split; [apply qintegralb_sound; vm_compute; reflexivity|].
  vm_compute. discriminate.
Qed.

(* ---------- C14 ---------- *)
Theorem C14_primitive_matrix : forall choice hall_symbol h P,
  get_primitive_transformation_matrix choice hall_symbol h = Ret P ->
  exists cs, cell_centring choice hall_symbol h cs /\ is_primitive_basis cs P.
Proof. exact primitive_matrix_ok. Qed.
Print Assumptions C14_primitive_matrix.
Theorem C14_primitive_matrix_total : forall choice hall_symbol h cs,
  cell_centring choice hall_symbol h cs ->
  exists P, get_primitive_transformation_matrix choice hall_symbol h = Ret P.
Proof. exact primitive_matrix_total. Qed.
Print Assumptions C14_primitive_matrix_total.
Example C14_example : (exists P, get_primitive_transformation_matrix "" "-I 4 2" 424 = Ret P /\ P = prim_I) /\
  (exists P, get_primitive_transformation_matrix "H" "R 3" 433 = Ret P) /\
  get_primitive_transformation_matrix "" "X 1" 3 = Raise ValueError /\
  get_primitive_transformation_matrix "" "P 1" 531 = Raise ValueError.
Proof. repeat split; cbn; eauto. Qed.

(* ---------- C15 ---------- *)
Theorem C15_crystal_system : forall h c, get_crystal_system h = Ret c <->
  match c with
  | Triclinic => 1 <= h <= 2 | Monoclinic => 3 <= h <= 107 | Orthorhombic => 108 <= h <= 348
  | Tetragonal => 349 <= h <= 429 | Trigonal => 430 <= h <= 461 | Hexagonal => 462 <= h <= 488
  | Cubic => 489 <= h <= 530 end%Z.
Proof. exact crystal_system_iff. Qed.
Print Assumptions C15_crystal_system.
Theorem C15_crystal_system_total : forall h,
  ((1 <= h <= 530)%Z -> exists c, get_crystal_system h = Ret c) /\
  (get_crystal_system h = Raise ValueError <-> (h < 1 \/ 530 < h)%Z).
Proof. intros h. split; [apply crystal_total|apply crystal_system_raises]. Qed.
Print Assumptions C15_crystal_system_total.
Example C15_example : get_crystal_system 525 = Ret Cubic /\ get_crystal_system 0 = Raise ValueError.
Proof. split; reflexivity. Qed.

(* ---------- C16 ---------- *)
Theorem C16_unique_symmetry : forall rots trans R T M,
  List.length trans = List.length rots ->
  unique_primitive_symmetry rots trans = (R, T, M) ->
  R = map (fun i => nth i rots mid) (first_occurrences rots) /\
  T = map (fun i => vmap rem1 (nth i trans vzero)) (first_occurrences rots) /\
  List.length M = List.length rots /\
  NoDup R /\ (forall r, In r R <-> In r rots).
Proof.
  intros rots trans R T M Hl H. destruct (unique_spec rots trans R T M Hl H) as (?&?&?&?&?&?). auto 10.
Qed.
Print Assumptions C16_unique_symmetry.
(** reduced translations lie in [0,1) and are congruent to the given ones *)
Theorem C16_reduced_translation : forall q, (0 <= rem1 q < 1)%Q /\ qint (rem1 q - q).
Proof.
  intros q. unfold rem1. pose proof (Qround.Qfloor_le q). pose proof (Qround.Qlt_floor q) as H1.
  rewrite inject_Z_plus in H1. change (inject_Z 1) with 1%Q in H1. split; [split; Lqa.lra|].
  exists (- Qround.Qfloor q)%Z. rewrite inject_Z_opp. ring.
Qed.
Print Assumptions C16_reduced_translation.
Theorem C16_mapping : forall rots trans R T M,
  List.length trans = List.length rots ->
  unique_primitive_symmetry rots trans = (R, T, M) ->
  first_occurrences_first rots ->
  forall i, (i < List.length rots)%nat ->
    (nth i M 0 < List.length R)%nat /\ nth (nth i M 0%nat) R mid = nth i rots mid.
Proof. exact unique_mapping_blocks. Qed.
Print Assumptions C16_mapping.
(** In another listing order the mapping is wrong (operations listed pairwise with their
    centred copies). *)
Theorem C16_mapping_refuted : exists rots trans R T M i,
  List.length trans = List.length rots /\ unique_primitive_symmetry rots trans = (R, T, M) /\
  (i < List.length rots)%nat /\ nth (nth i M 0%nat) R mid <> nth i rots mid.
Proof.
  exists [mid; mid; mneg mid; mneg mid],
    [vzero; Vec (1#2) (1#2) (1#2); vzero; Vec (1#2) (1#2) (1#2)].
  eexists _, _, _, 2%nat. split; [reflexivity|]. split; [vm_compute; reflexivity|].
  split; [cbn; lia|]. vm_compute. discriminate.
Qed.
Print Assumptions C16_mapping_refuted.
Example C16_hypothesis_met :
  first_occurrences_first [mid; mneg mid; mid; mneg mid].
Proof. exists 2%nat. reflexivity. Qed.
