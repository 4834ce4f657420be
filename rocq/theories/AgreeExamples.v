(** I2_12_12_1 in its primitive cell belongs to the tabulated point group 222. *)
From Coq Require Import Lia Bool List ZArith QArith String Permutation.
From Verif Require Import Py Mat3 MatQ GroupModel GroupSpec GroupProofs GroupProofs2 SpaceGroupProofs PointGroupModel PointGroupData TransformModel TransformSpec CentringModel CentringProofs SmallExamples.
Import ListNotations.
Local Open Scope string_scope.
Definition i2_P : qmat := QMat 0 1 1 1 0 1 1 1 0.
Lemma i2_setting : ~ (qdet i2_P == 0)%Q /\
  (forall r, In r i2_rots -> qintegral (qmul (qmul (qinv i2_P) (qofz r)) i2_P)) /\
  exists settings std, dict_get pg_dataset "222" = Ret settings /\ In std settings /\
     Permutation std (map (conj_round i2_P) i2_rots).
Proof.
  split; [intros H; vm_compute in H; discriminate H|]. split.
  { assert (forallb (fun r => let m := qmul (qmul (qinv i2_P) (qofz r)) i2_P in
      qintb (q11 m) && qintb (q12 m) && qintb (q13 m) && (qintb (q21 m) && qintb (q22 m) && qintb (q23 m)) &&
      (qintb (q31 m) && qintb (q32 m) && qintb (q33 m))) i2_rots = true) as K by (vm_compute; reflexivity).
    rewrite forallb_forall in K. intros r Hr. specialize (K r Hr). cbv zeta in K. rewrite !andb_true_iff in K.
    repeat split; apply qintb_sound; tauto. }
  eexists. eexists. split; [reflexivity|]. split; [left; reflexivity|].
  match goal with |- Permutation ?a _ => assert (map (conj_round i2_P) i2_rots = a) as -> by (vm_compute; reflexivity) end.
  apply Permutation_refl.
Qed.
