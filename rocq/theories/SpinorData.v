(** Concrete data for the spinor examples. *)
From Coq Require Import Lia Bool List ZArith QArith String Permutation.
From Verif Require Import Py Mat3 MatQ GroupModel GroupSpec GroupProofs GroupProofs2 SpaceGroupProofs TransformModel TransformSpec
  TransformProofs CentringModel CentringProofs SmallExamples.
Import ListNotations.
Local Open Scope Z_scope.
Lemma i2b_little : exists UR UT, unique_primitive_symmetry (map (transform_rotation i_basis) i2b_rots)
    (map (transform_translation i_basis) i2b_trans) = (UR, UT, [0; 1; 0; 1]%nat) /\ List.length UR = 2%nat /\
  forall atol, (0 <= atol)%Q -> let '(lr, lt, lm) := get_little_group UR UT (transform_kpoint i_basis vzero) atol in
    List.length lr = 2%nat /\ lm = [0; 1]%nat.
Proof.
  eexists. eexists. split; [vm_compute; reflexivity|]. split; [reflexivity|]. intros atol H.
  match goal with |- context [get_little_group ?a ?b ?c _] => destruct (get_little_group a b c atol) as [[lr lt] lm] eqn:E end.
  apply little_group_spec in E; [|reflexivity]. destruct E as (Hs & Hm & Hr & _).
  assert (forall q, (q == 0)%Q -> near_int atol q) as K.
  { intros q Hq. exists 0. rewrite Hq. exact H. }
  assert (lm = [0; 1]%nat) as ->.
  { apply sorted_unique; auto.
    - repeat constructor.
    - intros i. rewrite Hm, keeps_kpoint_iff. cbn [List.length]. split.
      + intros [Hi _]. cbn. lia.
      + intros [<-|[<-|[]]]; (split; [lia|]); (split; [|split]); apply K; vm_compute; reflexivity. }
  subst lr. split; reflexivity.
Qed.
Lemma i2b_select pt T : map fst (select_little pt T [0; 1; 0; 1]%nat [0; 1]%nat) = [0; 1; 2; 3]%nat.
Proof. reflexivity. Qed.
Lemma i2b_integral : forall r, In r i2b_rots -> conj_integral i_basis r.
Proof.
  assert (forallb (fun r => qintegralb (qmul (qmul (qinv i_basis) (qofz r)) i_basis)) i2b_rots = true) as K by (vm_compute; reflexivity).
  rewrite forallb_forall in K. intros r Hr. apply qintegralb_sound, K, Hr.
Qed.
(** The three-fold rotation on hexagonal axes and its group. *)
Definition three : mat := Mat 0 (-1) 0 1 (-1) 0 0 0 1.
