(** Concrete space groups used in the examples and refutations. *)
From Coq Require Import Lia Bool List ZArith QArith String Permutation.
From Verif Require Import Py Mat3 MatQ GroupModel GroupSpec GroupProofs GroupProofs2 SpaceGroupProofs PointGroupModel PointGroupData TransformModel TransformSpec CentringModel CentringProofs.
Import ListNotations.
Local Open Scope Z_scope.
Local Open Scope string_scope.
(** I2_12_12_1 in its primitive cell with the origin moved to (1/8,1/8,1/8). *)
Definition i2_rots : list mat := [mid; Mat 0 1 (-1) 1 0 (-1) 0 0 (-1); Mat 0 (-1) 1 0 (-1) 0 1 (-1) 0; Mat (-1) 0 0 (-1) 0 1 (-1) 1 0].
Definition i2_trans : list vec := [vzero; Vec (1#4) (3#4) 0; Vec (3#4) 0 (1#4); Vec 0 (1#4) (3#4)].
Definition i2_k : vec := Vec (1#4) (1#4) (1#4).
Lemma i2_space_group : lists_space_group i2_rots i2_trans /\ (forall r, In r i2_rots -> fixes_kpoint i2_k r).
Proof.
  split; [apply space_group_check_sound; vm_compute; reflexivity|].
  intros r [<-|[<-|[<-|[<-|[]]]]]; apply vintb_sound; reflexivity.
Qed.
(** P2_12_12_1, identity listed last, at the zone boundary point (1/2,0,0). *)
Definition p2_rots : list mat :=
  [Mat 1 0 0 0 (-1) 0 0 0 (-1); Mat (-1) 0 0 0 1 0 0 0 (-1); Mat (-1) 0 0 0 (-1) 0 0 0 1; mid].
Definition p2_trans : list vec := [Vec (1#2) (1#2) 0; Vec 0 (1#2) (1#2); Vec (1#2) 0 (1#2); vzero].
Definition p2_k : vec := Vec (1#2) 0 0.
Lemma p2_space_group : lists_space_group p2_rots p2_trans /\ (forall r, In r p2_rots -> fixes_kpoint p2_k r) /\
  has_denominator 2 p2_k.
Proof.
  split; [apply space_group_check_sound; vm_compute; reflexivity|]. split.
  - intros r [<-|[<-|[<-|[<-|[]]]]]; apply vintb_sound; reflexivity.
  - repeat split; apply qintb_sound; reflexivity.
Qed.
Lemma p2_setting : qintegral qid /\ ~ (qdet qid == 0)%Q /\
  (forall r, In r p2_rots -> qintegral (qmul (qmul (qinv qid) (qofz r)) qid)) /\
  exists settings std, dict_get pg_dataset "222" = Ret settings /\ In std settings /\
     Permutation std (map (conj_round qid) p2_rots).
Proof.
  split; [repeat split; apply qintb_sound; reflexivity|]. split; [intros H; discriminate H|]. split.
  { assert (forallb (fun r => let m := qmul (qmul (qinv qid) (qofz r)) qid in
      qintb (q11 m) && qintb (q12 m) && qintb (q13 m) && (qintb (q21 m) && qintb (q22 m) && qintb (q23 m)) &&
      (qintb (q31 m) && qintb (q32 m) && qintb (q33 m))) p2_rots = true) as K by (vm_compute; reflexivity).
    rewrite forallb_forall in K. intros r Hr. specialize (K r Hr). cbv zeta in K. rewrite !andb_true_iff in K.
    repeat split; apply qintb_sound; tauto. }
  eexists. eexists. split; [reflexivity|]. split; [left; reflexivity|].
  match goal with |- Permutation ?a _ => assert (map (conj_round qid) p2_rots = rev a) as -> by (vm_compute; reflexivity) end.
  apply Permutation_rev.
Qed.
(** P3. *)
Definition p3_rots : list mat := [mid; Mat 0 (-1) 0 1 (-1) 0 0 0 1; Mat (-1) 1 0 (-1) 0 0 0 0 1].
Definition p3_trans : list vec := [vzero; vzero; vzero].
Lemma p3_setting : ~ (qdet qid == 0)%Q /\
  (forall r, In r p3_rots -> qintegral (qmul (qmul (qinv qid) (qofz r)) qid)) /\
  exists settings std, dict_get pg_dataset "3" = Ret settings /\ In std settings /\
     Permutation std (map (conj_round qid) p3_rots).
Proof.
  split; [intros H; discriminate H|]. split.
  { assert (forallb (fun r => let m := qmul (qmul (qinv qid) (qofz r)) qid in
      qintb (q11 m) && qintb (q12 m) && qintb (q13 m) && (qintb (q21 m) && qintb (q22 m) && qintb (q23 m)) &&
      (qintb (q31 m) && qintb (q32 m) && qintb (q33 m))) p3_rots = true) as K by (vm_compute; reflexivity).
    rewrite forallb_forall in K. intros r Hr. specialize (K r Hr). cbv zeta in K. rewrite !andb_true_iff in K.
    repeat split; apply qintb_sound; tauto. }
  eexists. eexists. split; [reflexivity|]. split; [left; reflexivity|].
  match goal with |- Permutation ?a _ => assert (map (conj_round qid) p3_rots = a) as -> by (vm_compute; reflexivity) end.
  apply Permutation_refl.
Qed.
(** I2 in the conventional cell, each operation followed by its centred copy. *)
Definition i2c_rots : list mat := [mid; mid; Mat (-1) 0 0 0 1 0 0 0 (-1); Mat (-1) 0 0 0 1 0 0 0 (-1)].
Definition i2c_trans : list vec := [vzero; Vec (1#2) (1#2) (1#2); vzero; Vec (1#2) (1#2) (1#2)].
Definition i_basis : qmat := QMat (-1#2) (1#2) (1#2) (1#2) (-1#2) (1#2) (1#2) (1#2) (-1#2).
(** The same in centring blocks. *)
Definition i2b_rots : list mat := [mid; Mat (-1) 0 0 0 1 0 0 0 (-1); mid; Mat (-1) 0 0 0 1 0 0 0 (-1)].
Definition i2b_trans : list vec := [vzero; vzero; Vec (1#2) (1#2) (1#2); Vec (1#2) (1#2) (1#2)].
Definition centred_check (rots : list mat) (trans : list vec) : bool :=
  Nat.eqb (List.length trans) (List.length rots) && existsb (meqb mid) rots &&
  forallb (fun a => forallb (fun b => existsb (meqb (mmul a b)) rots) rots &&
    existsb (fun b => meqb (mmul a b) mid && meqb (mmul b a) mid) rots) rots &&
  forallb (fun i => forallb (fun j => forallb (fun m =>
    negb (meqb (nth m rots mid) (mmul (nth i rots mid) (nth j rots mid))) ||
    vintb (vsub (vadd (mvec (nth i rots mid) (nth j trans vzero)) (nth i trans vzero)) (nth m trans vzero)))
    (seq 0 (List.length rots))) (seq 0 (List.length rots))) (seq 0 (List.length rots)).
Lemma centred_check_sound rots trans : centred_check rots trans = true ->
  List.length trans = List.length rots /\ In mid rots /\
  (forall a b, In a rots -> In b rots -> In (mmul a b) rots) /\
  (forall a, In a rots -> exists b, In b rots /\ mmul a b = mid /\ mmul b a = mid) /\
  (forall i j m, (i < List.length rots)%nat -> (j < List.length rots)%nat -> (m < List.length rots)%nat ->
    nth m rots mid = mmul (nth i rots mid) (nth j rots mid) ->
    vint (vsub (vadd (mvec (nth i rots mid) (nth j trans vzero)) (nth i trans vzero)) (nth m trans vzero))).
Proof.
  unfold centred_check. rewrite !andb_true_iff, Nat.eqb_eq. intros (((H1 & H2) & H3) & H4).
  assert (forall a l, existsb (meqb a) l = true -> In a l) as K.
  { intros a l H. apply existsb_exists in H. destruct H as (x & Hx & E). apply meqb_eq in E. subst; auto. }
  rewrite forallb_forall in H3. split; auto. split; [auto|]. split; [|split].
  - intros a b Ha Hb. specialize (H3 a Ha). rewrite andb_true_iff, forallb_forall in H3. apply K, H3. auto.
  - intros a Ha. specialize (H3 a Ha). rewrite andb_true_iff, existsb_exists in H3. destruct H3 as (_ & b & Hb & E).
    rewrite andb_true_iff, !meqb_eq in E. exists b. tauto.
  - intros i j m Hi Hj Hm E. rewrite forallb_forall in H4.
    specialize (H4 i ltac:(apply in_seq; lia)). rewrite forallb_forall in H4.
    specialize (H4 j ltac:(apply in_seq; lia)). rewrite forallb_forall in H4.
    specialize (H4 m ltac:(apply in_seq; lia)). rewrite E, meqb_refl in H4. apply vintb_sound. exact H4.
Qed.
Definition i2c_prim_rots := map (transform_rotation i_basis) i2c_rots.
Definition i2c_prim_trans := map (transform_translation i_basis) i2c_trans.
Lemma i2c_basis : get_primitive_transformation_matrix "" "I 2y" 11 = Ret i_basis.
Proof. vm_compute. reflexivity. Qed.
Lemma i2c_centred : centred_check i2c_prim_rots i2c_prim_trans = true.
Proof. vm_compute. reflexivity. Qed.
Lemma i2c_little : exists UR UT, unique_primitive_symmetry i2c_prim_rots i2c_prim_trans = (UR, UT, [0; 0; 2; 1]%nat) /\
  forall atol, (0 <= atol)%Q -> snd (get_little_group UR UT (transform_kpoint i_basis vzero) atol) = [0; 1]%nat.
Proof.
  eexists. eexists. split; [vm_compute; reflexivity|]. intros atol H.
  match goal with |- snd (get_little_group ?a ?b ?c _) = _ => destruct (get_little_group a b c atol) as [[lr lt] lm] eqn:E end.
  apply little_group_spec in E; [|reflexivity]. destruct E as (Hs & Hm & _). cbn [snd].
  assert (forall q, (q == 0)%Q -> near_int atol q) as K.
  { intros q Hq. exists 0. rewrite Hq. exact H. }
  apply sorted_unique; auto.
  - repeat constructor.
  - intros i. rewrite Hm, keeps_kpoint_iff. cbn [List.length]. split.
    + intros [Hi _]. cbn. lia.
    + intros [<-|[<-|[]]]; (split; [lia|]); (split; [|split]); apply K; vm_compute; reflexivity.
Qed.
Lemma i2b_hypotheses : let pr := map (transform_rotation i_basis) i2b_rots in let pt := map (transform_translation i_basis) i2b_trans in
  centred_check pr pt = true /\ first_occurrences_first pr /\ has_denominator 2 (transform_kpoint i_basis (Vec 1 1 1)).
Proof.
  split; [vm_compute; reflexivity|]. split; [exists 2%nat; vm_compute; reflexivity|].
  repeat split; apply qintb_sound; vm_compute; reflexivity.
Qed.
