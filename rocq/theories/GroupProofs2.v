(** Further facts about group tables: Lagrange for cyclic subgroups, rows and columns,
    the cocycle checker. *)
From Coq Require Import List Arith ZArith QArith Bool Lia Permutation.
From Verif Require Import Py Mat3 GroupModel GroupSpec GroupProofs SpaceGroupProofs.
Import ListNotations.

Section Lagrange.
Variables (n : nat) (m : nat -> nat -> nat) (e : nat).
Hypothesis G : group_law n m e.

Lemma row_perm i : i < n -> Permutation (map (m i) (seq 0 n)) (seq 0 n).
Proof.
  intros Hi. apply NoDup_Permutation_bis.
  - apply NoDup_map_inj_in; [|apply seq_NoDup]. intros a b Ha Hb E.
    apply in_seq in Ha, Hb. eapply gl_cancel_l; eauto; lia.
  - rewrite map_length. lia.
  - intros x Hx. apply in_map_iff in Hx. destruct Hx as (y & <- & Hy). apply in_seq in Hy. apply in_seq.
    pose proof (gl_closed _ _ _ G i y Hi ltac:(lia)). lia.
Qed.
Lemma col_perm j : j < n -> Permutation (map (fun i => m i j) (seq 0 n)) (seq 0 n).
Proof.
  intros Hi. apply NoDup_Permutation_bis.
  - apply NoDup_map_inj_in; [|apply seq_NoDup]. intros a b Ha Hb E.
    apply in_seq in Ha, Hb. eapply (gl_cancel_r n m e G j); eauto; lia.
  - rewrite map_length. lia.
  - intros x Hx. apply in_map_iff in Hx. destruct Hx as (y & <- & Hy). apply in_seq in Hy. apply in_seq.
    pose proof (gl_closed _ _ _ G y j ltac:(lia) ltac:(lia)). lia.
Qed.

Variables (a d : nat).
Hypothesis Ha : a < n.
Hypothesis Hd : is_element_order m e a d.

Lemma pow_lt k : mpow m e a k < n.
Proof. eapply mpow_lt; eauto. Qed.
Lemma pow_add i j : mpow m e a (i + j) = m (mpow m e a i) (mpow m e a j).
Proof. eapply mpow_add; eauto. Qed.

Lemma mpow_inj i j : i < d -> j < d -> mpow m e a i = mpow m e a j -> i = j.
Proof.
  destruct Hd as (_ & _ & Hmin).
  assert (forall i k, k < d -> i < k -> mpow m e a i = mpow m e a k -> False) as K.
  { intros i' k Hk Hik E. replace k with (i' + (k - i')) in E by lia.
    rewrite pow_add in E. 
    assert (mpow m e a i' < n) as L1 by (apply pow_lt).
    assert (mpow m e a (k - i') < n) as L2 by (apply pow_lt).
    apply (Hmin (k - i')); try lia.
    rewrite <- (gl_1r _ _ _ G (mpow m e a i') L1) in E at 1.
    symmetry. apply (gl_cancel_l n m e G (mpow m e a i') e (mpow m e a (k - i'))); auto. exact (gl_e _ _ _ G). }
  intros Hi Hj E. destruct (Nat.lt_trichotomy i j) as [H|[H|H]]; auto; exfalso; eauto.
Qed.

Lemma mpow_period k : mpow m e a (k + d) = mpow m e a k.
Proof.
  destruct Hd as (_ & Hde & _). rewrite pow_add, Hde. apply G. apply pow_lt.
Qed.

Lemma mpow_reduce k : exists r, r < d /\ mpow m e a k = mpow m e a r.
Proof.
  assert (1 <= d) as H1 by apply Hd.
  induction k as [k IH] using lt_wf_ind. destruct (lt_dec k d) as [H|H]; [eauto|].
  destruct (IH (k - d) ltac:(lia)) as (r & Hr & E). exists r. split; auto. rewrite <- E.
  replace k with ((k - d) + d) at 1 by lia. apply mpow_period.
Qed.

Lemma orbit_divides (S : list nat) : NoDup S -> (forall x, In x S -> x < n) ->
  (forall x, In x S -> In (m x a) S) -> Nat.divide d (length S).
Proof.
  assert (1 <= d) as H1 by apply Hd.
  remember (length S) as N eqn:EN. revert S EN.
  induction N as [N IH] using lt_wf_ind. intros S EN HN HS Hc.
  destruct S as [|x S0] eqn:ES; [cbn in EN; subst; apply Nat.divide_0_r|]. rewrite <- ES in *.
  assert (In x S) as Hx by (rewrite ES; left; auto).
  set (orb := map (fun k => m x (mpow m e a k)) (seq 0 d)).
  assert (forall k, In (m x (mpow m e a k)) S) as Hpow.
  { induction k; cbn; [rewrite (gl_1r _ _ _ G) by auto; auto|].
    rewrite (gl_assoc _ _ _ G) by (auto using pow_lt). apply Hc; auto. }
  assert (NoDup orb) as Hno.
  { apply NoDup_map_inj_in; [|apply seq_NoDup]. intros i j Hi Hj E. apply in_seq in Hi, Hj.
    apply mpow_inj; try lia. eapply (gl_cancel_l n m e G); [|eauto using pow_lt|eauto using pow_lt|exact E]. auto. }
  set (T := filter (fun y => if in_dec Nat.eq_dec y orb then false else true) S).
  assert (forall y, In y T <-> In y S /\ ~ In y orb) as HT.
  { intros y. unfold T. rewrite filter_In. destruct (in_dec Nat.eq_dec y orb); intuition congruence. }
  assert (Permutation S (orb ++ T)) as HP.
  { apply NoDup_Permutation; auto.
    - assert (NoDup T) as HNT by (apply NoDup_filter; auto).
      clear - Hno HNT HT. revert Hno. 
      assert (forall y, In y orb -> ~ In y T) as Hdis by (intros y H1 H2; apply HT in H2; tauto).
      revert Hdis. generalize orb at 1 2 3. intros l Hdis. induction 1 as [|b l Hb Hl IHl]; auto. cbn. constructor.
      + rewrite in_app_iff. intros [?|?]; auto. apply (Hdis b); cbn; auto.
      + apply IHl. intros; apply Hdis; cbn; auto.
    - intros y. rewrite in_app_iff, HT. destruct (in_dec Nat.eq_dec y orb) as [Hy|Hy]; [|tauto].
      split; auto. intros _. unfold orb in Hy. apply in_map_iff in Hy. destruct Hy as (k & <- & _). apply Hpow. }
  apply Permutation_length in HP. rewrite app_length in HP. unfold orb in HP at 1.
  rewrite map_length, seq_length in HP.
  rewrite EN, HP. apply Nat.divide_add_r; [apply Nat.divide_refl|].
  apply (IH (length T) ltac:(lia) T); auto.
  - apply NoDup_filter; auto.
  - intros y Hy. apply HT in Hy. apply HS; tauto.
  - intros y Hy. apply HT in Hy. destruct Hy as [Hy1 Hy2]. apply HT. split; [apply Hc; auto|].
    intros Hin. apply Hy2. unfold orb in *. apply in_map_iff in Hin. destruct Hin as (k & E & Hk).
    apply in_seq in Hk.
    (* y a = x a^k, so y = x a^(k-1) *)
    destruct (mpow_reduce (k + (d - 1))) as (r & Hr & Er).
    apply in_map_iff. exists r. split; [|apply in_seq; lia].
    assert (m x (mpow m e a r) < n) as Lx by (apply (gl_closed _ _ _ G); auto using pow_lt).
    apply (gl_cancel_r n m e G a); auto.
    rewrite <- (gl_assoc _ _ _ G) by auto using pow_lt.
    change (m (mpow m e a r) a) with (mpow m e a (Datatypes.S r)).
    rewrite <- E. f_equal. cbn. rewrite <- Er. change (m (mpow m e a (k + (d - 1))) a) with (mpow m e a (Datatypes.S (k + (d-1)))).
    replace (Datatypes.S (k + (d - 1))) with (k + d) by lia. apply mpow_period.
Qed.

Lemma element_order_divides : Nat.divide d n.
Proof.
  rewrite <- (seq_length n 0). apply orbit_divides.
  - apply seq_NoDup.
  - intros x Hx. apply in_seq in Hx. lia.
  - intros x Hx. apply in_seq in Hx. apply in_seq. pose proof (gl_closed _ _ _ G x a ltac:(lia) Ha). lia.
Qed.
End Lagrange.

(** The cocycle checker. *)
Lemma check_cocycle_iff {F} (mulF : F -> F -> F) closeF rots fs :
  (forall x y, closeF x y = true <-> x = y) -> rots <> [] -> (forall r, In r rots -> mdet r <> 0%Z) ->
  (exists b, check_cocycle_condition mulF closeF rots fs = Ret b) /\
  (check_cocycle_condition mulF closeF rots fs = Ret true <->
   lists_group rots /\
   forall i j k ij jk, i < length rots -> j < length rots -> k < length rots ->
     ij < length rots -> jk < length rots ->
     nth ij rots mid = mmul (nth i rots mid) (nth j rots mid) ->
     nth jk rots mid = mmul (nth j rots mid) (nth k rots mid) ->
     mulF (fs i jk) (fs j k) = mulF (fs ij k) (fs i j)).
Proof.
  intros Hc Hne Hdet. pose proof (is_matrix_group_iff rots Hne Hdet) as HG.
  unfold check_cocycle_condition. destruct (is_matrix_group rots).
  2:{ split; [eauto|]. split; [discriminate|]. intros [H _]. apply HG in H. discriminate. }
  assert (lists_group rots) as G by tauto. clear HG.
  set (step := cocycle_test mulF closeF rots fs). cbv zeta.
  set (L := list_prod (seq 0 (length rots)) (list_prod (seq 0 (length rots)) (seq 0 (length rots)))).
  assert (forall a b, In a rots -> In b rots -> exists ix, index_or_raise (meqb (mmul a b)) rots = Ret ix /\
     ix < length rots /\ nth ix rots mid = mmul a b) as Hidx.
  { intros a b A B. unfold index_or_raise. destruct (find_index (meqb (mmul a b)) rots) as [ix|] eqn:E.
    - exists ix. split; auto. split; [eapply find_index_lt; eauto|].
      apply find_index_Some in E. destruct E as [(c & E1 & E2) _]. apply meqb_eq in E2. subst.
      apply nth_error_nth; auto.
    - exfalso. pose proof (proj1 (find_index_None _ _) E (mmul a b) (lg_mul _ G a b A B)) as H. rewrite meqb_refl in H. discriminate. }
  assert (forall i j k, i < length rots -> j < length rots -> k < length rots ->
    exists ij jk, ij < length rots /\ jk < length rots /\
     nth ij rots mid = mmul (nth i rots mid) (nth j rots mid) /\
     nth jk rots mid = mmul (nth j rots mid) (nth k rots mid) /\
     step (i, (j, k)) = Ret (closeF (mulF (fs i jk) (fs j k)) (mulF (fs ij k) (fs i j)))) as Hstep.
  { intros i j k Hi Hj Hk.
    destruct (Hidx (nth i rots mid) (nth j rots mid)) as (ij & E1 & L1 & N1); try apply nth_In; auto.
    destruct (Hidx (nth j rots mid) (nth k rots mid)) as (jk & E2 & L2 & N2); try apply nth_In; auto.
    exists ij, jk. repeat (split; auto). unfold step, cocycle_test. rewrite E2. cbn [bind]. rewrite E1. reflexivity. }
  assert (forall l, (forall x, In x l -> In x L) ->
    (exists b, allM step l = Ret b) /\ (allM step l = Ret true <-> forall x, In x l -> step x = Ret true)) as HL.
  { induction l as [|x l IH]; intros Hl; cbn [allM].
    - split; [eauto|]. split; [intros _ x []|auto].
    - destruct (IH (fun y H => Hl y (or_intror H))) as [[b Hb] Hiff]. 
      destruct x as [i [j k]]. pose proof (Hl _ (or_introl eq_refl)) as Hx.
      unfold L in Hx. rewrite !in_prod_iff, !in_seq in Hx.
      destruct (Hstep i j k ltac:(lia) ltac:(lia) ltac:(lia)) as (ij & jk & _ & _ & _ & _ & E).
      set (bb := closeF _ _) in E. rewrite E. cbn [bind]. destruct bb.
      + split; [eauto|]. rewrite Hiff. split; [intros H y [<-|Hy]; auto|intros H y Hy; apply H; right; auto].
      + split; [eauto|]. split; [discriminate|]. intros H. specialize (H _ (or_introl eq_refl)). congruence. }
  destruct (HL L (fun x H => H)) as [Hex Hiff]. split; [exact Hex|]. rewrite Hiff. split.
  - intros H. split; auto. intros i j k ij jk Hi Hj Hk Hij Hjk N1 N2.
    destruct (Hstep i j k Hi Hj Hk) as (ij' & jk' & L1 & L2 & M1 & M2 & E).
    assert (ij' = ij) as -> by (apply (NoDup_nth rots mid); auto; [apply G|congruence]).
    assert (jk' = jk) as -> by (apply (NoDup_nth rots mid); auto; [apply G|congruence]).
    rewrite H in E by (unfold L; rewrite !in_prod_iff, !in_seq; lia).
    injection E as E. apply Hc; auto.
  - intros [_ H] [i [j k]] Hx. unfold L in Hx. rewrite !in_prod_iff, !in_seq in Hx.
    destruct (Hstep i j k ltac:(lia) ltac:(lia) ltac:(lia)) as (ij' & jk' & L1 & L2 & M1 & M2 & E).
    rewrite E. f_equal. apply Hc. apply H; auto; lia.
Qed.

(** Decision procedure used for the concrete examples. *)
Definition qintb (q : Q) : bool := Z.eqb ((Qnum q) mod (Zpos (Qden q))) 0.
Definition vintb (v : vec) : bool := qintb (v1 v) && qintb (v2 v) && qintb (v3 v).
Lemma qintb_sound q : qintb q = true -> qint q.
Proof.
  unfold qintb. intros H. apply Z.eqb_eq in H. apply Z_div_exact_full_2 in H; [|discriminate].
  exists (Qnum q / Zpos (Qden q))%Z. unfold Qeq, inject_Z; cbn. rewrite Z.mul_1_r. rewrite H at 1. ring.
Qed.
Lemma vintb_sound v : vintb v = true -> vint v.
Proof.
  unfold vintb. intros H. apply andb_true_iff in H as [H H3]. apply andb_true_iff in H as [H1 H2].
  repeat split; apply qintb_sound; auto.
Qed.

Definition group_check (rots : list mat) : bool :=
  negb (Nat.eqb (length rots) 0) && forallb (fun r => negb (Z.eqb (mdet r) 0)) rots && is_matrix_group rots.
Lemma group_check_sound rots : group_check rots = true -> lists_group rots.
Proof.
  unfold group_check. rewrite !andb_true_iff, negb_true_iff, Nat.eqb_neq, forallb_forall.
  intros ((H1 & H2) & H3). apply is_matrix_group_iff; auto.
  - destruct rots; [cbn in H1; lia|discriminate].
  - intros r Hr. apply H2 in Hr. apply negb_true_iff in Hr. apply Z.eqb_neq; auto.
Qed.

Definition space_group_check (rots : list mat) (trans : list vec) : bool :=
  Nat.eqb (length trans) (length rots) && group_check rots &&
  forallb (fun i => forallb (fun j => forallb (fun k =>
    negb (meqb (nth k rots mid) (mmul (nth i rots mid) (nth j rots mid))) ||
    vintb (vsub (vadd (mvec (nth i rots mid) (nth j trans vzero)) (nth i trans vzero)) (nth k trans vzero)))
    (seq 0 (length rots))) (seq 0 (length rots))) (seq 0 (length rots)).
Lemma space_group_check_sound rots trans : space_group_check rots trans = true -> lists_space_group rots trans.
Proof.
  unfold space_group_check. rewrite !andb_true_iff, Nat.eqb_eq. intros ((H1 & H2) & H3). constructor; auto.
  - apply group_check_sound; auto.
  - intros i j k Hi Hj Hk E. rewrite forallb_forall in H3. specialize (H3 i ltac:(apply in_seq; lia)).
    rewrite forallb_forall in H3. specialize (H3 j ltac:(apply in_seq; lia)).
    rewrite forallb_forall in H3. specialize (H3 k ltac:(apply in_seq; lia)).
    rewrite E, meqb_refl in H3. cbn in H3. apply vintb_sound; auto.
Qed.
