(** The loops of _adjust_phase_for_centering_translations and the unique operations of a
    centred space group. *)
From Coq Require Import List Arith ZArith QArith Bool Lia Lqa Sorting.
From Verif Require Import Py Mat3 MatQ GroupModel GroupSpec GroupProofs GroupProofs2 SpaceGroupProofs TransformModel TransformSpec
  TransformProofs CentringModel.
Import ListNotations.
Local Open Scope nat_scope.

Lemma enumerate_snoc {A} (l : list A) a : enumerate (l ++ [a]) = enumerate l ++ [(length l, a)].
Proof.
  unfold enumerate. rewrite app_length. cbn [length]. rewrite Nat.add_1_r, seq_S. cbn [Nat.add].
  assert (forall s (b : list nat), length s = length b -> combine (b ++ [length l]) (s ++ [a]) = combine b s ++ [(length l, a)]) as H.
  { induction s as [|x s IH]; intros [|y b] E; cbn in *; try discriminate; auto. f_equal. apply IH. lia. }
  apply H. rewrite seq_length. reflexivity.
Qed.
Lemma remapping_snoc l a x : remapping (l ++ [a]) x = if Nat.eqb x a then Some (length l) else remapping l x.
Proof. unfold remapping. rewrite enumerate_snoc, fold_left_app. reflexivity. Qed.
Lemma remapping_spec lm x l : NoDup lm -> (remapping lm x = Some l <-> nth_error lm l = Some x).
Proof.
  revert x l. induction lm as [|a lm IH] using rev_ind; intros x l Hn.
  - cbn. split; [discriminate|]. destruct l; discriminate.
  - assert (NoDup lm /\ ~ In a lm) as [Hn' Ha].
    { apply NoDup_remove in Hn. rewrite app_nil_r in Hn. exact Hn. }
    rewrite remapping_snoc. destruct (Nat.eqb_spec x a) as [->|Hx].
    + split.
      * intros H. injection H as <-. rewrite nth_error_app2, Nat.sub_diag by lia. reflexivity.
      * intros H. destruct (Nat.lt_ge_cases l (length lm)) as [Hl|Hl].
        { rewrite nth_error_app1 in H by lia. apply nth_error_In in H. contradiction. }
        f_equal. assert (l < length (lm ++ [a])) as Hb by (apply nth_error_Some; congruence).
        rewrite app_length in Hb. cbn in Hb. lia.
    + rewrite (IH x l Hn'). destruct (Nat.lt_ge_cases l (length lm)) as [Hl|Hl].
      { rewrite nth_error_app1 by lia. tauto. }
      rewrite nth_error_app2 by lia. rewrite (proj2 (nth_error_None lm l)) by lia.
      destruct (l - length lm) as [|m]; cbn; [|destruct m]; split; intros H; try discriminate; congruence.
Qed.

(** What select_little selects. *)
Lemma select_In pt ut M lm i l v : In (i, (l, v)) (select_little pt ut M lm) <->
  exists m, nth_error M i = Some m /\ remapping lm m = Some l /\ v = vsub (nth i pt vzero) (nth m ut vzero).
Proof.
  unfold select_little. rewrite in_flat_map. split.
  - intros ([i' m] & Hi & H). cbn [fst snd] in H. destruct (remapping lm m) as [l'|] eqn:E; [|destruct H].
    destruct H as [H|[]]. injection H as -> -> <-. apply in_enumerate in Hi. eauto.
  - intros (m & Hm & Hl & ->). exists (i, m). split; [apply in_enumerate; auto|]. cbn [fst snd]. rewrite Hl. left. reflexivity.
Qed.
Lemma flat_map_sorted {A B} (f : nat * A -> list (nat * B)) (l : list A) :
  (forall p x, In x (f p) -> fst x = fst p) -> (forall p, length (f p) <= 1) ->
  StronglySorted Nat.lt (map fst (flat_map f (enumerate l))).
Proof.
  intros H1 H2. unfold enumerate. generalize 0 as s. generalize (length l) as n.
  intros n s. revert l n. 
  assert (forall l n s, StronglySorted Nat.lt (map fst (flat_map f (combine (seq s n) l))) /\
    Forall (fun x => s <= x) (map fst (flat_map f (combine (seq s n) l)))) as K.
  { induction l as [|a l IH]; intros [|n] s'; cbn; try (split; constructor).
    destruct (IH n (S s')) as [IH1 IH2]. rewrite map_app.
    pose proof (H1 (s', a)) as Hf. pose proof (H2 (s', a)) as Hl. destruct (f (s', a)) as [|x [|y f']]; cbn in Hl; [| |lia].
    - cbn. split; auto. eapply Forall_impl; [|exact IH2]. cbn. lia.
    - assert (fst x = s') as Ex by (apply (Hf x); left; reflexivity). cbn. rewrite Ex. split; constructor; auto.
      eapply Forall_impl; [|exact IH2]. cbn. lia. }
  intros l' n'. apply K.
Qed.
Lemma select_sorted pt ut M lm : StronglySorted Nat.lt (map fst (select_little pt ut M lm)).
Proof.
  unfold select_little. apply flat_map_sorted; intros [i m].
  - intros x. cbn. destruct (remapping lm m); cbn; [|tauto]. intros [<-|[]]. reflexivity.
  - cbn. destruct (remapping lm m); cbn; lia.
Qed.

Lemma rem1_int q : qint (rem1 q - q).
Proof. unfold rem1. exists (- Qround.Qfloor q)%Z. rewrite inject_Z_opp. ring. Qed.
Lemma vrem1_int v : vint (vsub v (vmap rem1 v)).
Proof.
  destruct v as [a b c]. unfold vint, vsub, vmap. cbn. repeat split.
  all: match goal with |- qint (?q - _) => apply (qint_eq (- (rem1 q - q)))%Q; [ring|apply qint_opp, rem1_int] end.
Qed.
Section Unique.
Variables (rots : list mat) (trans : list vec).
Hypothesis Hlen : length trans = length rots.
Hypothesis Hid : In mid rots.
Hypothesis Hmul : forall a b, In a rots -> In b rots -> In (mmul a b) rots.
Hypothesis Hinv : forall a, In a rots -> exists b, In b rots /\ mmul a b = mid /\ mmul b a = mid.
Hypothesis Hclosed : forall i j m, i < length rots -> j < length rots -> m < length rots ->
    nth m rots mid = mmul (nth i rots mid) (nth j rots mid) ->
    vint (vsub (vadd (mvec (nth i rots mid) (nth j trans vzero)) (nth i trans vzero)) (nth m trans vzero)).
Variables (R : list mat) (T : list vec) (M : list nat).
Hypothesis HU : unique_primitive_symmetry rots trans = (R, T, M).

Lemma identity_int i : i < length rots -> nth i rots mid = mid -> vint (nth i trans vzero).
Proof.
  intros Hi Ei. eapply vint_eq; [|apply (Hclosed i i i); auto; rewrite Ei, mmul_1l; reflexivity].
  rewrite Ei. destruct (nth i trans vzero). unfold veq, vsub, vadd, mvec; cbn. repeat split; ring.
Qed.
(** Operations with the same rotation differ by an integer translation. *)
Lemma same_rotation_int i j : i < length rots -> j < length rots -> nth i rots mid = nth j rots mid ->
  vint (vsub (nth i trans vzero) (nth j trans vzero)).
Proof.
  intros Hi Hj E. destruct (In_nth_lt _ _ mid Hid) as (e & He & Ee).
  pose proof (identity_int e He Ee) as H1.
  pose proof (Hclosed i e j Hi He Hj) as H2. rewrite Ee, mmul_1r in H2. specialize (H2 (eq_sym E)).
  eapply vint_eq; [|apply vint_sub; [exact H2|apply (vint_mvec (nth i rots mid)); exact H1]].
  unfold veq, vsub, vadd; cbn. repeat split; ring.
Qed.
Lemma unique_nth x : x < length R ->
  exists i, i < length rots /\ nth i rots mid = nth x R mid /\ nth x T vzero = vmap rem1 (nth i trans vzero).
Proof.
  destruct (unique_spec rots trans R T M Hlen HU) as (HR & HT & _). intros Hx.
  rewrite HR, map_length in Hx. exists (nth x (first_occurrences rots) 0). split.
  - apply first_occurrences_lt. apply nth_In. auto.
  - rewrite HR, nth_map_nth by auto. split; [reflexivity|].
    rewrite HT, (nth_indep _ vzero (vmap rem1 (nth 0 trans vzero))) by (rewrite map_length; auto).
    rewrite (map_nth (fun i => vmap rem1 (nth i trans vzero))). reflexivity.
Qed.
Lemma unique_shift i x : i < length rots -> x < length R -> nth x R mid = nth i rots mid ->
  vint (vsub (nth i trans vzero) (nth x T vzero)).
Proof.
  intros Hi Hx E. destruct (unique_nth x Hx) as (j & Hj & Ej & ->).
  eapply vint_eq; [|apply vint_add; [apply (same_rotation_int i j); auto; congruence|apply (vrem1_int (nth j trans vzero))]].
  unfold veq, vsub, vadd; cbn. repeat split; ring.
Qed.
Lemma unique_space_group : lists_space_group R T.
Proof.
  destruct (unique_spec rots trans R T M Hlen HU) as (HR & HT & _ & Hn & Hin & _).
  constructor.
  - rewrite HR, HT, !map_length. reflexivity.
  - constructor; auto.
    + apply Hin; auto.
    + intros a b Ha Hb. apply Hin. apply Hmul; apply Hin; auto.
    + intros a Ha. apply Hin in Ha. destruct (Hinv a Ha) as (b & Hb & ? & ?). exists b. rewrite Hin. auto.
  - intros x y z Hx Hy Hz E.
    destruct (unique_nth x Hx) as (i & Hi & Ei & _). destruct (unique_nth y Hy) as (j & Hj & Ej & _).
    destruct (unique_nth z Hz) as (m & Hm & Em & _).
    pose proof (unique_shift i x Hi Hx (eq_sym Ei)) as S1. pose proof (unique_shift j y Hj Hy (eq_sym Ej)) as S2.
    pose proof (unique_shift m z Hm Hz (eq_sym Em)) as S3.
    rewrite <- Ei, <- Ej, <- Em in E. pose proof (Hclosed i j m Hi Hj Hm E) as S. rewrite <- Ei.
    eapply vint_eq; [|apply vint_add; [|exact S3]; apply vint_sub; [|exact S1]; apply vint_sub; [exact S|
      apply (vint_mvec (nth i rots mid)); exact S2]].
    unfold veq, vsub, vadd, mvec; cbn. repeat split; ring.
Qed.
Lemma unique_identity x : x < length R -> nth x R mid = mid -> veq (nth x T vzero) vzero.
Proof.
  intros Hx E. destruct (unique_nth x Hx) as (i & Hi & Ei & ->). rewrite E in Ei.
  pose proof (identity_int i Hi Ei) as (H1 & H2 & H3).
  assert (forall q, qint q -> (rem1 q == 0)%Q) as K.
  { intros q [z Hz]. unfold rem1. rewrite Hz at 1. rewrite (Qround.Qfloor_comp q (inject_Z z) Hz), Qround.Qfloor_Z. ring. }
  destruct (nth i trans vzero) as [a b c]. unfold veq, vmap, vzero; cbn in *. auto.
Qed.
End Unique.

Lemma sorted_unique (l l' : list nat) : StronglySorted Nat.lt l -> StronglySorted Nat.lt l' ->
  (forall i, In i l <-> In i l') -> l = l'.
Proof.
  intros H. revert l'. induction H as [|a l H IH HF]; intros l' H' E.
  - destruct l' as [|b l']; auto. destruct (proj2 (E b) (or_introl eq_refl)).
  - destruct H' as [|b l' H' HF']; [destruct (proj1 (E a) (or_introl eq_refl))|].
    rewrite Forall_forall in HF, HF'.
    assert (a = b) as ->.
    { destruct (proj1 (E a) (or_introl eq_refl)) as [|Ha]; auto. destruct (proj2 (E b) (or_introl eq_refl)) as [|Hb]; auto.
      specialize (HF _ Hb). specialize (HF' _ Ha). lia. }
    f_equal. apply IH; auto. intros i. specialize (E i). cbn in E. split; intros Hi.
    + destruct (proj1 E (or_intror Hi)) as [->|]; auto. specialize (HF _ Hi). lia.
    + destruct (proj2 E (or_intror Hi)) as [->|]; auto. specialize (HF' _ Hi). lia.
Qed.

Lemma unique_representative rots trans R T M : List.length trans = List.length rots ->
  unique_primitive_symmetry rots trans = (R, T, M) -> forall j, (j < List.length R)%nat ->
  exists x, (x < List.length rots)%nat /\ nth x rots mid = nth j R mid /\ vint (vsub (nth x trans vzero) (nth j T vzero)).
Proof.
  intros len HU j Hj. destruct (unique_spec rots trans R T M len HU) as (HR & HT & _).
  assert (j < List.length (first_occurrences rots))%nat as Hj' by (rewrite HR, map_length in Hj; exact Hj).
  exists (nth j (first_occurrences rots) 0%nat). split; [|split].
  - apply first_occurrences_lt, nth_In, Hj'.
  - rewrite HR. rewrite (nth_indep (map _ _) mid (nth 0 rots mid)) by (rewrite map_length; exact Hj').
    rewrite (map_nth (fun i => nth i rots mid)). reflexivity.
  - rewrite HT. rewrite (nth_indep (map _ _) vzero (vmap rem1 (nth 0 trans vzero))) by (rewrite map_length; exact Hj').
    rewrite (map_nth (fun i => vmap rem1 (nth i trans vzero))). apply vrem1_int.
Qed.
Lemma nth_map_in {A B} (f : A -> B) l i d d' : (i < List.length l)%nat -> nth i (map f l) d' = f (nth i l d).
Proof.
  intros H. rewrite (nth_indep _ d' (f d)) by (rewrite map_length; exact H). apply map_nth.
Qed.
