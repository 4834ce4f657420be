(** Proofs about the reduction of magnetic operations to the primitive cell. *)
From Coq Require Import Lia Bool List ZArith QArith.
From Verif Require Import Py Mat3 MatQ GroupModel GroupSpec GroupProofs TransformModel TransformSpec TransformProofs SpaceGroupProofs CorepModel CorepSpec.
Import ListNotations.

Lemma combine_fun A B (l : list A) (f : list B) a x y :
  NoDup l -> In (a, x) (combine l f) -> In (a, y) (combine l f) -> x = y.
Proof.
  revert f. induction l as [|b l IH]; intros [|c f] ND; cbn; try tauto.
  inversion ND as [|? ? Hn ND']; subst. intros [E1|H1] [E2|H2].
  - congruence.
  - injection E1 as -> ->. apply in_combine_l in H2. tauto.
  - injection E2 as -> ->. apply in_combine_l in H1. tauto.
  - eapply IH; eauto.
Qed.
Lemma nodup_first rots : NoDup rots -> first_occurrences rots = seq 0 (length rots).
Proof.
  induction rots as [|r l IH] using rev_ind; intros ND; [reflexivity|].
  rewrite first_occurrences_snoc. assert (NoDup l) as NDl.
  { apply NoDup_rev in ND. rewrite rev_app_distr in ND. cbn in ND. inversion ND; subst.
    rewrite <- (rev_involutive l). apply NoDup_rev. auto. }
  rewrite IH by auto. destruct (in_rot_dec r l) as [Hi|Hi].
  - exfalso. apply NoDup_remove_2 with (l := l) (l' := []) in ND. rewrite app_nil_r in ND. auto.
  - rewrite app_length, Nat.add_1_r, seq_S. reflexivity.
Qed.
Lemma map_nth_seq A (d : A) (l : list A) : map (fun i => nth i l d) (seq 0 (length l)) = l.
Proof.
  induction l as [|x l IH] using rev_ind; [reflexivity|].
  rewrite app_length, Nat.add_1_r, seq_S, map_app. cbn. rewrite nth_middle.
  f_equal. rewrite <- IH at 2. apply map_ext_in. intros i Hi. apply in_seq in Hi. apply app_nth1. lia.
Qed.
Lemma distinct_unique rots trans flags : length trans = length rots -> length flags = length rots -> NoDup rots ->
  magnetic_unique_symmetry rots trans flags = (rots, map (vmap rem1) trans, flags, seq 0 (length rots)).
Proof.
  intros Ht Hf ND. unfold magnetic_unique_symmetry.
  destruct (unique_primitive_symmetry rots trans) as [[R T] M] eqn:E.
  destruct (unique_spec rots trans R T M Ht E) as (HR & HT & HM & _ & _ & Hm).
  rewrite nodup_first in HR, HT by auto. rewrite map_nth_seq in HR. subst R.
  assert (M = seq 0 (length rots)) as ->.
  { apply nth_ext with (d := 0%nat) (d' := 0%nat); [rewrite seq_length; auto|].
    intros i Hi. rewrite HM in Hi. rewrite seq_nth by auto. cbn. destruct (Hm i Hi) as [[_ H]|(H & _)]; auto.
    exfalso. apply H. rewrite nodup_first by auto. apply in_seq. lia. }
  repeat f_equal.
  - rewrite HT, <- Ht, <- (map_map (fun i => nth i trans vzero) (vmap rem1)), map_nth_seq. reflexivity.
  - rewrite <- Hf. apply map_nth_seq.
Qed.
(** Grey groups: each rotation without, and later with time reversal. *)
Lemma grey_unique rots trans trans' :
  length trans = length rots -> length trans' = length rots -> NoDup rots ->
  let n := length rots in
  exists M, magnetic_unique_symmetry (rots ++ rots) (trans ++ trans') (repeat false n ++ repeat true n) =
    (rots, map (vmap rem1) trans, repeat false (n + n), M).
Proof.
  intros Ht Ht' ND n. unfold magnetic_unique_symmetry.
  destruct (unique_primitive_symmetry (rots ++ rots) (trans ++ trans')) as [[R T] M] eqn:E.
  exists M.
  assert (length (trans ++ trans') = length (rots ++ rots)) as Hl by (rewrite !app_length; lia).
  destruct (unique_spec _ _ R T M Hl E) as (HR & HT & HM & _ & _ & Hm).
  assert (forall l, incl l rots -> first_occurrences (rots ++ l) = seq 0 (length rots)) as F.
  { induction l as [|r l IH] using rev_ind; intros Hi.
    - rewrite app_nil_r. apply nodup_first; auto.
    - rewrite app_assoc, first_occurrences_snoc, IH by (intros x Hx; apply Hi, in_or_app; auto).
      destruct (in_rot_dec r (rots ++ l)) as [_|Hc]; [apply app_nil_r|].
      exfalso. apply Hc, in_or_app. left. apply Hi, in_or_app. right; left; auto. }
  specialize (F rots (incl_refl _)). rewrite F in HR, HT.
  assert (R = rots) as ->.
  { transitivity (map (fun i => nth i rots mid) (seq 0 (length rots))); [|apply map_nth_seq]. rewrite HR. apply map_ext_in. intros i Hi. apply in_seq in Hi. apply app_nth1. lia. }
  repeat f_equal.
  - transitivity (map (vmap rem1) (map (fun i => nth i trans vzero) (seq 0 (length trans)))); [|rewrite map_nth_seq; reflexivity].
    rewrite HT, map_map, Ht. apply map_ext_in. intros i Hi. apply in_seq in Hi.
    f_equal. apply app_nth1. lia.
  - apply nth_ext with (d := nth 0 (repeat false n ++ repeat true n) false) (d' := false).
    { rewrite map_length, repeat_length, HM, app_length. reflexivity. }
    intros i Hi. rewrite map_length, HM in Hi. rewrite (map_nth (fun i => nth i (repeat false n ++ repeat true n) false)), nth_repeat.
    assert (nth i M 0 < n)%nat as L.
    { destruct (Hm i Hi) as [[H1 ->]|(_ & H & _)]; auto. rewrite F in H1. apply in_seq in H1. unfold n; lia. }
    rewrite app_nth1 by (rewrite repeat_length; auto). apply nth_repeat.
Qed.

(** The k-point and an anti-unitary operation. *)
Lemma anti_fixes k r : fixes_kpoint k r -> (vint (vadd (mtvec r k) k) <-> vint (vadd k k)).
Proof.
  intros [H1 [H2 H3]].
  assert (forall a b, qint (a - b) -> (qint (a + b) <-> qint (b + b)))%Q as K.
  { intros a b Hab. split; intros H.
    - apply qint_eq with ((a + b) - (a - b))%Q; [ring|]. apply qint_minus; auto.
    - apply qint_eq with ((b + b) + (a - b))%Q; [ring|]. apply qint_plus; auto. }
  unfold vint, vadd, vsub in *. destruct (mtvec r k) as [a b c], k as [x y z]. cbn in *.
  rewrite (K _ _ H1), (K _ _ H2), (K _ _ H3). reflexivity.
Qed.
Lemma lost_fixes k r : vint (vadd (mtvec r k) k) -> ~ vint (vadd k k) -> ~ fixes_kpoint k r.
Proof. intros H N F. apply N, (anti_fixes k r); auto. Qed.
Lemma both_fix k r : vint (vadd k k) -> (fixes_kpoint k r <-> vint (vadd (mtvec r k) k)).
Proof.
  intros [H1 [H2 H3]].
  assert (forall a b, qint (b + b) -> (qint (a - b) <-> qint (a + b)))%Q as K.
  { intros a b Hab. split; intros H.
    - apply qint_eq with ((b + b) + (a - b))%Q; [ring|]. apply qint_plus; auto.
    - apply qint_eq with ((a + b) - (b + b))%Q; [ring|]. apply qint_minus; auto. }
  unfold fixes_kpoint, vint, vadd, vsub in *. destruct (mtvec r k) as [a b c], k as [x y z]. cbn in *.
  rewrite (K _ _ H1), (K _ _ H2), (K _ _ H3). reflexivity.
Qed.
Lemma not_third : ~ qint ((1 # 3) + (1 # 3)).
Proof. intros [z E]. unfold Qeq in E. cbn in E. lia. Qed.
Lemma anti_examples : let two := Mat (-1) 0 0 0 1 0 0 0 (-1) in let inv := Mat (-1) 0 0 0 (-1) 0 0 0 (-1) in
  let k := Vec (inject_Z 0) (1 # 3) (inject_Z 0) in let k' := Vec (1 # 3) (1 # 5) (2 # 5) in
  ssrbool.and5 (has_denominator 3 k) (fixes_kpoint k two) (~ vint (vadd k k)) (has_denominator 15 k')
      (mag_fixes_kpoint k' (inv, true) /\ ~ vint (vadd k' k')).
Proof.
  intros two inv k k'. split.
  - repeat split; apply GroupProofs2.qintb_sound; reflexivity.
  - apply GroupProofs2.vintb_sound; reflexivity.
  - intros [_ [H _]]. exact (not_third H).
  - repeat split; apply GroupProofs2.qintb_sound; reflexivity.
  - split; [apply GroupProofs2.vintb_sound; reflexivity|]. intros [H _]. exact (not_third H).
Qed.
