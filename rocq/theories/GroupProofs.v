(** Proofs about the model of group.py. *)
From Coq Require Import List Arith ZArith QArith Qround Qabs Bool Lia Lqa FinFun Sorted.
From Verif Require Import Py Mat3 GroupModel GroupSpec.
Import ListNotations.

Lemma op_eqb_eq a b : op_eqb a b = true <-> a = b.
Proof.
  destruct a as [a x], b as [b y]; unfold op_eqb; simpl.
  rewrite andb_true_iff, meqb_eq, Bool.eqb_true_iff. split; [intros [-> ->]|intros [= -> ->]]; auto.
Qed.

Lemma index_or_raise_Ret {A} (p : A -> bool) l n :
  index_or_raise p l = Ret n <-> find_index p l = Some n.
Proof. unfold index_or_raise. destruct (find_index p l); split; intros H; congruence. Qed.

(** ** Cayley table *)

Lemma cayley_spec ops t :
  get_cayley_table_ops ops = Ret t ->
  length t = length ops /\
  (forall i, i < length ops -> length (nth i t []) = length ops) /\
  (forall i j oi oj, nth_error ops i = Some oi -> nth_error ops j = Some oj ->
     tget t i j < length ops /\
     nth_error ops (tget t i j) = Some (op_mul oi oj) /\
     (forall m, m < tget t i j -> nth_error ops m <> Some (op_mul oi oj))).
Proof.
  intros H. apply mapM_Ret in H.
  pose proof (Forall2_len _ _ _ H) as Hl. split; [auto|].
  assert (forall i oi, nth_error ops i = Some oi -> exists row,
     nth_error t i = Some row /\
     Forall2 (fun oj k => index_or_raise (op_eqb (op_mul oi oj)) ops = Ret k) ops row) as Hrow.
  { intros i oi Hi. destruct (Forall2_nth_error _ _ _ H _ _ Hi) as (row & Hr & Hm).
    apply mapM_Ret in Hm. eauto. }
  split.
  - intros i Hi. destruct (nth_error ops i) as [oi|] eqn:E.
    2:{ apply nth_error_None in E; lia. }
    destruct (Hrow _ _ E) as (row & Hr & HF). rewrite (nth_error_nth _ _ _ Hr).
    symmetry; eapply Forall2_len; eauto.
  - intros i j oi oj Hi Hj. destruct (Hrow _ _ Hi) as (row & Hr & HF).
    destruct (Forall2_nth_error _ _ _ HF _ _ Hj) as (k & Hk & Hidx).
    assert (tget t i j = k) as ->.
    { unfold tget. rewrite (nth_error_nth _ _ _ Hr). apply nth_error_nth; auto. }
    apply index_or_raise_Ret in Hidx. split; [eapply find_index_lt; eauto|].
    apply find_index_Some in Hidx. destruct Hidx as [(a & Ha & Hpa) Hf].
    apply op_eqb_eq in Hpa. subst a. split; auto.
    intros m Hm Hc. specialize (Hf m _ Hm Hc).
    assert (op_eqb (op_mul oi oj) (op_mul oi oj) = true) by (apply op_eqb_eq; auto). congruence.
Qed.

Lemma cayley_raises ops e :
  get_cayley_table_ops ops = Raise e <->
  e = ValueError /\ exists a b, In a ops /\ In b ops /\ ~ In (op_mul a b) ops.
Proof.
  split.
  - intros H. apply mapM_Raise_ex in H. destruct H as (a & Ha & H).
    apply mapM_Raise_ex in H. destruct H as (b & Hb & H).
    unfold index_or_raise in H. destruct (find_index (op_eqb (op_mul a b)) ops) eqn:E; [discriminate|].
    injection H as <-. split; auto. exists a, b. repeat split; auto.
    intros Hin. rewrite find_index_None in E. specialize (E _ Hin).
    assert (op_eqb (op_mul a b) (op_mul a b) = true) by (apply op_eqb_eq; auto). congruence.
  - intros [-> (a & b & Ha & Hb & Hn)].
    destruct (get_cayley_table_ops ops) as [t|e] eqn:E.
    + exfalso. destruct (cayley_spec _ _ E) as (_ & _ & H).
      apply In_nth_error in Ha, Hb. destruct Ha as [i Hi], Hb as [j Hj].
      destruct (H _ _ _ _ Hi Hj) as (_ & Hk & _). apply nth_error_In in Hk. auto.
    + apply mapM_Raise_ex in E. destruct E as (c & _ & H).
      apply mapM_Raise_ex in H. destruct H as (d & _ & H).
      unfold index_or_raise in H. destruct (find_index _ _); congruence.
Qed.

Lemma cayley_total ops :
  (forall a b, In a ops -> In b ops -> In (op_mul a b) ops) ->
  exists t, get_cayley_table_ops ops = Ret t.
Proof.
  intros H. destruct (get_cayley_table_ops ops) as [t|e] eqn:E; [eauto|].
  apply cayley_raises in E. destruct E as [_ (a & b & Ha & Hb & Hn)]. exfalso; auto.
Qed.

Lemma nth_error_lt {A} (l : list A) i : i < length l -> exists a, nth_error l i = Some a.
Proof. intros H. destruct (nth_error l i) eqn:E; eauto. apply nth_error_None in E; lia. Qed.

Lemma nodup_nth_error {A} (l : list A) i j a :
  NoDup l -> nth_error l i = Some a -> nth_error l j = Some a -> i = j.
Proof.
  intros Hn Hi Hj. rewrite NoDup_nth_error in Hn. apply Hn; [apply nth_error_Some|]; congruence.
Qed.

Lemma nodup_inj {A} (l : list A) i j a b :
  NoDup l -> nth_error l i = Some a -> nth_error l j = Some b -> a = b -> i = j.
Proof. intros Hn Hi Hj <-. eapply nodup_nth_error; eauto. Qed.

Lemma op_mul_assoc a b c : op_mul a (op_mul b c) = op_mul (op_mul a b) c.
Proof. unfold op_mul; simpl. rewrite mmul_assoc, xorb_assoc. reflexivity. Qed.
Lemma op_mul_1l a : op_mul op_id a = a.
Proof. unfold op_mul; destruct a; simpl. rewrite mmul_1l. destruct b; auto. Qed.
Lemma op_mul_1r a : op_mul a op_id = a.
Proof. unfold op_mul; destruct a; simpl. rewrite mmul_1r, xorb_false_r. auto. Qed.

(** The table of a (magnetic) group is a group law whose identity is the position of
    the identity operation. *)
Lemma cayley_group_law ops t e :
  lists_magnetic_group ops -> get_cayley_table_ops ops = Ret t ->
  nth_error ops e = Some op_id ->
  group_law (length ops) (tget t) e.
Proof.
  intros [Hn Hid Hm Hi] Ht He.
  destruct (cayley_spec _ _ Ht) as (Hl & Hr & Hs).
  assert (forall i j, i < length ops -> j < length ops -> exists oi oj,
    nth_error ops i = Some oi /\ nth_error ops j = Some oj /\ tget t i j < length ops /\
    nth_error ops (tget t i j) = Some (op_mul oi oj)) as K.
  { intros i j Hi' Hj. destruct (nth_error_lt _ _ Hi') as [oi Ei], (nth_error_lt _ _ Hj) as [oj Ej].
    exists oi, oj. destruct (Hs _ _ _ _ Ei Ej) as (?&?&_). auto. }
  constructor.
  - intros i j Hi' Hj. destruct (K i j Hi' Hj) as (?&?&_&_&?&_); auto.
  - intros i j k Hi' Hj Hk.
    destruct (K i j Hi' Hj) as (oi&oj&Ei&Ej&Hij&Eij).
    destruct (K j k Hj Hk) as (oj'&ok&Ej'&Ek&Hjk&Ejk).
    destruct (K i (tget t j k) Hi' Hjk) as (?&?&E1&E2&?&E3).
    destruct (K (tget t i j) k Hij Hk) as (?&?&E4&E5&?&E6).
    apply (nodup_inj ops _ _ _ _ Hn E3 E6).
    assert (x1 = op_mul oi oj) by congruence. assert (x0 = op_mul oj ok) by congruence.
    assert (x = oi) by congruence. assert (x2 = ok) by congruence. subst.
    apply op_mul_assoc.
  - apply nth_error_Some. congruence.
  - intros i Hi'. assert (e < length ops) as Hel by (apply nth_error_Some; congruence).
    destruct (K e i Hel Hi') as (?&?&E1&E2&?&E3).
    apply (nodup_inj ops _ _ _ _ Hn E3 E2).
    assert (x = op_id) by congruence. subst. apply op_mul_1l.
  - intros i Hi'. assert (e < length ops) as Hel by (apply nth_error_Some; congruence).
    destruct (K i e Hi' Hel) as (?&?&E1&E2&?&E3).
    apply (nodup_inj ops _ _ _ _ Hn E3 E1).
    assert (x0 = op_id) by congruence. subst. apply op_mul_1r.
  - intros i Hi'. destruct (nth_error_lt _ _ Hi') as [oi Ei].
    destruct (Hi oi (nth_error_In _ _ Ei)) as (b & Hb & H1 & H2).
    apply In_nth_error in Hb. destruct Hb as [j Ej].
    assert (j < length ops) as Hj by (apply nth_error_Some; congruence).
    exists j. split; auto. 
    destruct (K i j Hi' Hj) as (?&?&E1&E2&?&E3). destruct (K j i Hj Hi') as (?&?&E4&E5&?&E6).
    split.
    + apply (nodup_inj ops _ _ _ _ Hn E3 He).
      assert (x = oi) by congruence. assert (x0 = b) by congruence. subst. exact H1.
    + apply (nodup_inj ops _ _ _ _ Hn E6 He).
      assert (x2 = oi) by congruence. assert (x1 = b) by congruence. subst. exact H2.
Qed.

Lemma lists_group_mag l : lists_group l -> lists_magnetic_group (ops_of_rotations l).
Proof.
  intros [Hn Hid Hm Hi]. unfold ops_of_rotations. constructor.
  - apply Injective_map_NoDup; auto. intros a b [= ->]; auto.
  - apply in_map_iff. exists mid; auto.
  - intros a b Ha Hb. apply in_map_iff in Ha, Hb.
    destruct Ha as (x & <- & Hx), Hb as (y & <- & Hy).
    apply in_map_iff. exists (mmul x y). split; auto.
  - intros a Ha. apply in_map_iff in Ha. destruct Ha as (x & <- & Hx).
    destruct (Hi x Hx) as (y & Hy & H1 & H2). exists (y, false). split.
    + apply in_map_iff. eauto.
    + unfold mag_mul; simpl. rewrite H1, H2. auto.
Qed.

Lemma nth_error_ops l i : nth_error (ops_of_rotations l) i =
  option_map (fun r => (r, false)) (nth_error l i).
Proof. unfold ops_of_rotations. apply nth_error_map. Qed.

Lemma cayley_rot_spec rots t :
  get_cayley_table rots = Ret t ->
  length t = length rots /\
  (forall i, i < length rots -> length (nth i t []) = length rots) /\
  (forall i j, i < length rots -> j < length rots -> tget t i j < length rots /\
     nth (tget t i j) rots mid = mmul (nth i rots mid) (nth j rots mid) /\
     forall m, m < tget t i j -> nth m rots mid <> mmul (nth i rots mid) (nth j rots mid)).
Proof.
  intros H. apply cayley_spec in H. unfold ops_of_rotations in H. rewrite map_length in H.
  destruct H as (H1 & H2 & H3). repeat split; auto; try intros i j Hi Hj.
  - intros. destruct (nth_error_lt _ _ H) as [oi Ei], (nth_error_lt _ _ H0) as [oj Ej].
    destruct (H3 i j (oi,false) (oj,false)) as (K&_&_); auto.
    all: change (map _ rots) with (ops_of_rotations rots); rewrite nth_error_ops, ?Ei, ?Ej; auto.
  - destruct (nth_error_lt _ _ H) as [oi Ei], (nth_error_lt _ _ H0) as [oj Ej].
    destruct (H3 i j (oi,false) (oj,false)) as (K1&K2&K3).
    1,2: change (map _ rots) with (ops_of_rotations rots); rewrite nth_error_ops, ?Ei, ?Ej; auto.
    change (map _ rots) with (ops_of_rotations rots) in K2. rewrite nth_error_ops in K2.
    destruct (nth_error rots (tget t i j)) as [x|] eqn:Ex; [|discriminate].
    simpl in K2. injection K2 as ->.
    rewrite (nth_error_nth _ _ _ Ei), (nth_error_nth _ _ _ Ej), (nth_error_nth _ _ _ Ex). auto.
  - intros m Hm Hc. destruct (nth_error_lt _ _ H) as [oi Ei], (nth_error_lt _ _ H0) as [oj Ej].
    destruct (H3 i j (oi,false) (oj,false)) as (K1&K2&K3).
    1,2: change (map _ rots) with (ops_of_rotations rots); rewrite nth_error_ops, ?Ei, ?Ej; auto.
    apply (K3 m Hm). change (map _ rots) with (ops_of_rotations rots). rewrite nth_error_ops.
    destruct (nth_error_lt rots m ltac:(lia)) as [om Em]. rewrite Em. simpl.
    rewrite (nth_error_nth _ _ _ Ei), (nth_error_nth _ _ _ Ej), (nth_error_nth _ _ _ Em) in Hc.
    subst om. reflexivity.
Qed.

Lemma cayley_rot_total rots :
  (forall a b, In a rots -> In b rots -> In (mmul a b) rots) ->
  exists t, get_cayley_table rots = Ret t.
Proof.
  intros H. apply cayley_total. intros a b Ha Hb. unfold ops_of_rotations in *.
  apply in_map_iff in Ha, Hb. destruct Ha as (x & <- & Hx), Hb as (y & <- & Hy).
  apply in_map_iff. exists (mmul x y). split; auto.
Qed.

Lemma In_nth_lt {A} (l : list A) a d : In a l -> exists i, i < length l /\ nth i l d = a.
Proof. intros H. apply (In_nth _ _ d) in H. destruct H as (i & Hi & <-). eauto. Qed.

Lemma cayley_rot_group_law rots t e :
  lists_group rots -> get_cayley_table rots = Ret t -> e < length rots -> nth e rots mid = mid ->
  group_law (length rots) (tget t) e.
Proof.
  intros Hg Ht He Hm. pose proof (lists_group_mag _ Hg) as Hg'.
  replace (length rots) with (length (ops_of_rotations rots)) by (unfold ops_of_rotations; apply map_length).
  apply cayley_group_law; auto. rewrite nth_error_ops.
  destruct (nth_error_lt _ _ He) as [x Ex]. rewrite Ex. rewrite (nth_error_nth _ _ _ Ex) in Hm.
  subst. reflexivity.
Qed.

(** ** Facts about group laws on indices *)
Section GL.
Variables (n : nat) (m : nat -> nat -> nat) (e : nat).
Hypothesis G : group_law n m e.

Lemma gl_cancel_l a b c : a < n -> b < n -> c < n -> m a b = m a c -> b = c.
Proof.
  intros Ha Hb Hc H. destruct G as [Gc Ga Ge G1 G2 Gi]. destruct (Gi a Ha) as (a' & Ha' & H1 & H2).
  rewrite <- (G1 b), <- (G1 c), <- H2 by auto. rewrite <- !Ga by auto. congruence.
Qed.

Lemma gl_cancel_r a b c : a < n -> b < n -> c < n -> m b a = m c a -> b = c.
Proof.
  intros Ha Hb Hc H. destruct G as [Gc Ga Ge G1 G2 Gi]. destruct (Gi a Ha) as (a' & Ha' & H1 & H2).
  rewrite <- (G2 b), <- (G2 c), <- H1 by auto. rewrite !Ga by auto. congruence.
Qed.

Lemma gl_e_unique i : i < n -> m i i = i -> i = e.
Proof.
  intros Hi H. apply (gl_cancel_l i); auto. apply G. rewrite H. symmetry; apply G; auto.
Qed.

Lemma gl_inv_unique i j j' : i < n -> j < n -> j' < n -> m i j = e -> m i j' = e -> j = j'.
Proof. intros. apply (gl_cancel_l i); auto. congruence. Qed.

Lemma mpow_lt a k : a < n -> mpow m e a k < n.
Proof. intros Ha. induction k; simpl; apply G; auto. Qed.

Lemma mpow_add a i j : a < n -> mpow m e a (i + j) = m (mpow m e a i) (mpow m e a j).
Proof.
  intros Ha. induction j.
  - rewrite Nat.add_0_r. simpl. symmetry. apply G. apply mpow_lt; auto.
  - rewrite Nat.add_succ_r. simpl. rewrite IHj. symmetry. apply G; auto using mpow_lt.
Qed.

Lemma mpow_1 a : a < n -> mpow m e a 1 = a.
Proof. intros; simpl. apply G; auto. Qed.

Lemma mpow_comm a i : a < n -> m a (mpow m e a i) = m (mpow m e a i) a.
Proof.
  intros Ha. change (m (mpow m e a i) a) with (mpow m e a (S i)).
  replace (S i) with (1 + i) by lia. rewrite mpow_add, mpow_1; auto.
Qed.

(** Pigeonhole: some power between 1 and n is the identity. *)
Lemma mpow_returns a : a < n -> exists d, 1 <= d <= n /\ mpow m e a d = e.
Proof.
  intros Ha.
  assert (exists i j, i < j /\ j <= n /\ mpow m e a i = mpow m e a j) as (i & j & Hij & Hj & E).
  { set (P := fun i j => Nat.ltb i j && Nat.eqb (mpow m e a i) (mpow m e a j)).
    destruct (existsb (fun i => existsb (P i) (seq 0 (S n))) (seq 0 (S n))) eqn:F.
    - apply existsb_exists in F. destruct F as (i & Hi & F).
      apply existsb_exists in F. destruct F as (j & Hj & F). unfold P in F.
      apply andb_true_iff in F. rewrite Nat.ltb_lt, Nat.eqb_eq in F.
      rewrite in_seq in Hi, Hj. exists i, j. intuition lia.
    - exfalso.
      assert (forall i j, i < j -> j <= n -> mpow m e a i <> mpow m e a j) as HF.
      { intros i j Hij Hj E.
        assert (existsb (fun i => existsb (P i) (seq 0 (S n))) (seq 0 (S n)) = true) as F'; [|congruence].
        apply existsb_exists. exists i. split; [apply in_seq; lia|].
        apply existsb_exists. exists j. split; [apply in_seq; lia|].
        unfold P. apply andb_true_iff. rewrite Nat.ltb_lt, Nat.eqb_eq. auto. }
      assert (forall k s, s + k <= S n -> NoDup (map (mpow m e a) (seq s k))) as HN.
      { induction k; intros s Hs; simpl; constructor.
        - intros Hin. apply in_map_iff in Hin. destruct Hin as (j & Ej & Hj). apply in_seq in Hj.
          apply (HF s j); try lia; auto.
        - apply IHk; lia. }
      assert (incl (map (mpow m e a) (seq 0 (S n))) (seq 0 n)) as Hi.
      { intros x Hx. apply in_map_iff in Hx. destruct Hx as (k & <- & _).
        apply in_seq. pose proof (mpow_lt a k Ha). lia. }
      pose proof (NoDup_incl_length (HN (S n) 0 ltac:(lia)) Hi) as Hl.
      rewrite map_length, !seq_length in Hl. lia. }
  exists (j - i). split; [lia|].
    replace j with (i + (j - i)) in E by lia. rewrite mpow_add in E by auto.
    symmetry. apply (gl_cancel_l (mpow m e a i)); auto using mpow_lt. apply G.
    rewrite <- E. apply G. apply mpow_lt; auto.
Qed.

End GL.

(** ** identity, inverse, order on tables *)

Lemma list_nat_eqb_eq a b : list_nat_eqb a b = true <-> a = b.
Proof.
  revert b; induction a; destruct b; simpl; split; intros H; try discriminate; auto.
  - apply andb_true_iff in H. destruct H as [H1 H2]. apply Nat.eqb_eq in H1. apply IHa in H2. congruence.
  - injection H as -> ->. rewrite Nat.eqb_refl. apply IHa; auto.
Qed.

Definition wf_table (n : nat) (t : table) : Prop :=
  length t = n /\ forall i, i < n -> length (nth i t []) = n.

Lemma row_eq_range n t i : wf_table n t -> i < n ->
  (nth i t [] = seq 0 n <-> forall j, j < n -> tget t i j = j).
Proof.
  intros [Hl Hr] Hi. unfold tget. split.
  - intros -> j Hj. rewrite seq_nth; auto.
  - intros H. apply nth_ext with (d := 0) (d' := 0).
    + rewrite seq_length; auto.
    + intros j Hj. rewrite Hr in Hj by auto. rewrite seq_nth by auto. apply H; auto.
Qed.

Lemma identity_index_correct n t e :
  wf_table n t -> group_law n (tget t) e -> get_identity_index t = Ret e.
Proof.
  intros W G. unfold get_identity_index. apply index_or_raise_Ret. apply find_index_Some.
  destruct W as [Hl Hr]. rewrite Hl. split.
  - exists (nth e t []). split.
    + apply nth_error_nth'. rewrite Hl. apply G.
    + apply list_nat_eqb_eq. apply row_eq_range; [split; auto|apply G|]. intros; apply G; auto.
  - intros i row Hi Hrow. destruct (list_nat_eqb row (seq 0 n)) eqn:E; auto. exfalso.
    apply list_nat_eqb_eq in E. pose proof (nth_error_nth _ _ [] Hrow) as Hn.
    assert (i < n) as Hin by (pose proof (gl_e _ _ _ G); lia).
    assert (i = e); [|lia]. apply (gl_e_unique n (tget t) e G); auto.
    apply (row_eq_range n t i); [split; auto|auto|congruence|auto].
Qed.

Lemma nth_error_row n t i j : wf_table n t -> i < n -> j < n ->
  nth_error (nth i t []) j = Some (tget t i j).
Proof. intros [Hl Hr] Hi Hj. unfold tget. apply nth_error_nth'. rewrite Hr; auto. Qed.

Lemma inverse_index_correct n t e idx :
  wf_table n t -> group_law n (tget t) e -> idx < n ->
  exists i, get_inverse_index t idx = Ret i /\ i < n /\ tget t idx i = e /\ tget t i idx = e.
Proof.
  intros W G Hidx. unfold get_inverse_index. rewrite (identity_index_correct n t e W G). simpl.
  destruct (gl_inv _ _ _ G idx Hidx) as (j & Hj & H1 & H2).
  exists j. split; [|auto]. apply index_or_raise_Ret, find_index_Some. split.
  - exists e. split; [|apply Nat.eqb_refl]. rewrite <- H1. eapply nth_error_row; eauto.
  - intros k b Hk Hb. rewrite (nth_error_row n) in Hb by (auto; lia). injection Hb as <-.
    apply Nat.eqb_neq. intros Hc. assert (k = j); [|lia].
    eapply (gl_inv_unique n (tget t) e G idx); eauto; lia.
Qed.

Lemma order_loop_spec t idx e n (W : wf_table n t) (G : group_law n (tget t) e) (Hidx : idx < n) :
  forall fuel k, 1 <= k ->
  (forall d', 1 <= d' -> d' < k -> mpow (tget t) e idx d' <> e) ->
  (forall r, order_loop fuel t idx e (mpow (tget t) e idx k) k = Some r ->
     is_element_order (tget t) e idx r) /\
  (forall d, k <= d -> d <= k + fuel -> mpow (tget t) e idx d = e ->
     order_loop fuel t idx e (mpow (tget t) e idx k) k <> None).
Proof.
  induction fuel as [|f IH]; intros k Hk Hmin; simpl.
  - destruct (Nat.eqb_spec (mpow (tget t) e idx k) e) as [E|E].
    + split; [intros r [= <-]; split; auto|]. intros; discriminate.
    + split; [discriminate|]. intros d H1 H2 H3. replace d with k in H3 by lia. contradiction.
  - destruct (Nat.eqb_spec (mpow (tget t) e idx k) e) as [E|E].
    + split; [intros r [= <-]; split; auto|]. intros; discriminate.
    + change (tget t (mpow (tget t) e idx k) idx) with (mpow (tget t) e idx (S k)).
      destruct (IH (S k) ltac:(lia)) as [IH1 IH2].
      { intros d' H1 H2. destruct (Nat.eq_dec d' k) as [->|]; auto. apply Hmin; lia. }
      split; auto. intros d H1 H2 H3. apply (IH2 d); auto; try lia.
      destruct (Nat.eq_dec d k) as [->|]; [contradiction|lia].
Qed.

Lemma get_order_terminates n t e idx :
  wf_table n t -> group_law n (tget t) e -> idx < n ->
  exists d, get_order_fuel n t idx = Ret (Some d) /\ is_element_order (tget t) e idx d /\ d <= n.
Proof.
  intros W G Hidx. unfold get_order_fuel. rewrite (identity_index_correct n t e W G). simpl.
  destruct (order_loop_spec t idx e n W G Hidx n 1 ltac:(lia) ltac:(lia)) as [H1 H2].
  rewrite (mpow_1 n (tget t) e G) in * by auto.
  destruct (mpow_returns n (tget t) e G idx Hidx) as (d & Hd & E).
  destruct (order_loop n t idx e idx 1) as [r|] eqn:El.
  - exists r. split; auto. split; [apply H1; auto|].
    destruct (H1 r eq_refl) as (_ & _ & Hmin). destruct (le_lt_dec r d); [lia|].
    exfalso. apply (Hmin d); auto; lia.
  - exfalso. apply (H2 d); auto; lia.
Qed.

Lemma order_loop_mono fuel fuel' t idx id tmp ret r :
  fuel <= fuel' -> order_loop fuel t idx id tmp ret = Some r ->
  order_loop fuel' t idx id tmp ret = Some r.
Proof.
  revert fuel' tmp ret; induction fuel as [|f IH]; intros fuel' tmp ret Hle; simpl.
  - destruct (Nat.eqb tmp id) eqn:E; [|discriminate]. intros H. destruct fuel'; simpl; rewrite E; auto.
  - destruct fuel' as [|f']; [lia|]. simpl. destruct (Nat.eqb tmp id); auto.
    intros H. apply IH; auto; lia.
Qed.

Lemma get_order_correct n t e idx :
  wf_table n t -> group_law n (tget t) e -> idx < n ->
  is_element_order (tget t) e idx (get_order t idx) /\ get_order t idx <= n.
Proof.
  intros W G Hidx. unfold get_order. destruct W as [Hl Hr] eqn:EW.
  destruct (get_order_terminates n t e idx W G Hidx) as (d & H & Ho & Hd).
  rewrite Hl, H. auto.
Qed.

Lemma cayley_wf rots t : get_cayley_table rots = Ret t -> wf_table (length rots) t.
Proof. intros H. destruct (cayley_rot_spec _ _ H) as (?&?&_). split; auto. Qed.

(** ** is_matrix_group *)

Lemma row_is_range_iff n row : row_is_range n row = true <->
  (forall x, In x row -> x < n) /\ (forall k, k < n -> In k row).
Proof.
  unfold row_is_range. rewrite andb_true_iff, !forallb_forall. split.
  - intros [H1 H2]. split.
    + intros x Hx. apply Nat.ltb_lt; auto.
    + intros k Hk. specialize (H2 k). rewrite in_seq in H2. specialize (H2 ltac:(lia)).
      apply existsb_exists in H2. destruct H2 as (x & Hx & E). apply Nat.eqb_eq in E. congruence.
  - intros [H1 H2]. split.
    + intros x Hx. apply Nat.ltb_lt; auto.
    + intros k Hk. apply in_seq in Hk. apply existsb_exists. exists k. split; [apply H2; lia|apply Nat.eqb_refl].
Qed.

Lemma is_matrix_group_iff rots :
  rots <> [] -> (forall r, In r rots -> mdet r <> 0%Z) ->
  (is_matrix_group rots = true <-> lists_group rots).
Proof.
  intros Hne Hdet. unfold is_matrix_group. split.
  - destruct (get_cayley_table rots) as [t|] eqn:Ht; [|discriminate]. intros H.
    destruct (cayley_rot_spec _ _ Ht) as (Hl & Hr & Hs).
    rewrite forallb_forall in H.
    assert (forall i k, i < length rots -> k < length rots -> exists j, j < length rots /\ tget t i j = k) as Hsurj.
    { intros i k Hi Hk. assert (In (nth i t []) t) as Hin by (apply nth_In; lia).
      apply H in Hin. apply row_is_range_iff in Hin. destruct Hin as [_ Hin].
      specialize (Hin k Hk). apply (In_nth _ _ 0) in Hin. destruct Hin as (j & Hj & E).
      rewrite Hr in Hj by auto. exists j. split; auto. }
    assert (forall i, i < length rots -> mdet (nth i rots mid) <> 0%Z) as Hd'.
    { intros; apply Hdet, nth_In; auto. }
    assert (In mid rots) as Hid.
    { destruct rots as [|r0 rs] eqn:E; [congruence|]. rewrite <- E in *.
      assert (0 < length rots) as H0 by (rewrite E; simpl; lia).
      destruct (Hsurj 0 0 H0 H0) as (j & Hj & Ej).
      destruct (Hs 0 j H0 Hj) as (_ & Hm & _). rewrite Ej in Hm.
      assert (nth j rots mid = mid) as <-; [|apply nth_In; auto].
      apply (mmul_cancel_l (nth 0 rots mid)); auto. rewrite mmul_1r; auto. }
    constructor; auto.
    + rewrite NoDup_nth with (d := mid). intros i j Hi Hj E.
      destruct (lt_eq_lt_dec i j) as [[Hlt|]|Hlt]; auto; exfalso.
      * destruct (Hsurj i j Hi Hj) as (c & Hc & Ec). destruct (Hs i c Hi Hc) as (_ & Hm & Hf).
        apply (Hf i); [lia|]. rewrite <- Hm, Ec. auto.
      * destruct (Hsurj i i Hi Hi) as (c & Hc & Ec). destruct (Hs i c Hi Hc) as (_ & Hm & Hf).
        apply (Hf j); [lia|]. rewrite <- Hm, Ec. auto.
    + intros a b Ha Hb. apply (In_nth_lt _ _ mid) in Ha, Hb.
      destruct Ha as (i & Hi & <-), Hb as (j & Hj & <-).
      destruct (Hs i j Hi Hj) as (Hk & Hm & _). rewrite <- Hm. apply nth_In; auto.
    + intros a Ha. apply (In_nth_lt _ _ mid) in Ha. destruct Ha as (i & Hi & <-).
      apply (In_nth_lt _ _ mid) in Hid. destruct Hid as (e & He & Ee).
      destruct (Hsurj i e Hi He) as (j & Hj & Ej). destruct (Hs i j Hi Hj) as (_ & Hm & _).
      exists (nth j rots mid). split; [apply nth_In; auto|].
      rewrite Ej, Ee in Hm. split; auto. apply mmul_inv_comm; auto.
  - intros Hg. destruct (cayley_rot_total rots (lg_mul _ Hg)) as [t Ht]. rewrite Ht.
    destruct (cayley_rot_spec _ _ Ht) as (Hl & Hr & Hs).
    apply forallb_forall. intros row Hrow. apply (In_nth_lt _ _ []) in Hrow.
    destruct Hrow as (i & Hi & <-). rewrite Hl in Hi. apply row_is_range_iff. split.
    + intros x Hx. apply (In_nth_lt _ _ 0) in Hx. destruct Hx as (j & Hj & <-).
      rewrite Hr in Hj by auto. apply (Hs i j); auto.
    + intros k Hk. destruct Hg as [Hn Hid Hm Hinv].
      destruct (Hinv (nth i rots mid)) as (b & Hb & H1 & H2); [apply nth_In; auto|].
      assert (In (mmul b (nth k rots mid)) rots) as Hin by (apply Hm; auto; apply nth_In; auto).
      apply (In_nth_lt _ _ mid) in Hin. destruct Hin as (j & Hj & Ej).
      destruct (Hs i j Hi Hj) as (Hlt & E & _).
      assert (tget t i j = k) as <-.
      { rewrite NoDup_nth with (d := mid) in Hn. apply Hn; auto.
        rewrite E, Ej, mmul_assoc, H1, mmul_1l. reflexivity. }
      unfold tget. apply nth_In. rewrite Hr; auto.
Qed.

(** ** little group *)

Lemma Qle_bool_false a b : Qle_bool a b = false <-> (b < a)%Q.
Proof.
  split; intros H.
  - apply Qnot_le_lt. intros Hc. apply Qle_bool_iff in Hc. congruence.
  - destruct (Qle_bool a b) eqn:E; auto. apply Qle_bool_iff in E. exfalso. apply (Qlt_not_le _ _ H E).
Qed.

(** Within [atol] of some integer vector. *)
Definition near_int (atol q : Q) : Prop := exists z, (Qabs (q - inject_Z z) <= atol)%Q.

Lemma close0_near atol q : close0 atol (q - inject_Z (rint q)) = true <-> near_int atol q.
Proof.
  unfold close0. rewrite Qle_bool_iff. split.
  - intros H. exists (rint q); auto.
  - intros [z H]. eapply Qle_trans; [apply rint_nearest|]. exact H.
Qed.

Lemma keeps_kpoint_iff atol k r :
  keeps_kpoint atol k r = true <->
  near_int atol (v1 (residual r k)) /\ near_int atol (v2 (residual r k)) /\ near_int atol (v3 (residual r k)).
Proof.
  unfold keeps_kpoint, vall, frac_near, vmap. cbn [v1 v2 v3].
  rewrite !andb_true_iff, !close0_near. tauto.
Qed.

Lemma filter_map_fst_sorted {A} (p : nat * A -> bool) (l : list A) s :
  let L := filter p (combine (seq s (length l)) l) in
  StronglySorted lt (map fst L) /\ (forall x, In x L -> s <= fst x).
Proof.
  revert s; induction l as [|a l IH]; intros s; simpl.
  - split; [constructor|tauto].
  - destruct (IH (S s)) as [H1 H2]. destruct (p (s, a)); simpl.
    + split.
      * constructor; auto. apply Forall_forall. intros x Hx. apply in_map_iff in Hx.
        destruct Hx as (y & <- & Hy). apply H2 in Hy. lia.
      * intros x [<-|Hx]; simpl; [lia|]. apply H2 in Hx. lia.
    + split; auto. intros x Hx. apply H2 in Hx. lia.
Qed.

Lemma in_enumerate {A} (l : list A) i a : In (i, a) (enumerate l) <-> nth_error l i = Some a.
Proof.
  split.
  - intros H. apply In_nth_error in H. destruct H as [j Hj]. rewrite nth_error_enumerate in Hj.
    destruct (nth_error l j) eqn:E; [|discriminate]. simpl in Hj. congruence.
  - intros H. eapply nth_error_In with (n := i). rewrite nth_error_enumerate, H. reflexivity.
Qed.

Lemma nth_error_combine {A B} (l : list A) (l' : list B) i :
  nth_error (combine l l') i =
  match nth_error l i, nth_error l' i with Some a, Some b => Some (a, b) | _, _ => None end.
Proof.
  revert l' i; induction l; intros [|b l'] [|i]; simpl; auto.
  - destruct (nth_error l i); auto.
Qed.

Lemma little_group_spec rots trans k atol lr lt lm :
  length trans = length rots ->
  get_little_group rots trans k atol = (lr, lt, lm) ->
  StronglySorted Nat.lt lm /\
  (forall i, In i lm <-> i < length rots /\ keeps_kpoint atol k (nth i rots mid) = true) /\
  lr = map (fun i => nth i rots mid) lm /\ lt = map (fun i => nth i trans vzero) lm.
Proof.
  intros Hlen H. unfold get_little_group in H. injection H as <- <- <-.
  unfold little_entries. set (L := filter _ _).
  assert (forall x, In x L -> nth_error rots (fst x) = Some (fst (snd x)) /\
     nth_error trans (fst x) = Some (snd (snd x)) /\ keeps_kpoint atol k (fst (snd x)) = true) as HL.
  { intros [i [r t]] Hx. apply filter_In in Hx. destruct Hx as [Hx Hk]. simpl in *.
    apply in_enumerate in Hx. rewrite nth_error_combine in Hx.
    destruct (nth_error rots i), (nth_error trans i); try discriminate.
    injection Hx as -> ->. auto. }
  split; [apply (filter_map_fst_sorted _ (combine rots trans) 0)|]. split; [|split].
  - intros i. split.
    + intros Hi. apply in_map_iff in Hi. destruct Hi as (x & <- & Hx).
      destruct (HL x Hx) as (H1 & H2 & H3). split.
      * apply nth_error_Some; congruence.
      * rewrite (nth_error_nth _ _ _ H1); auto.
    + intros [Hi Hk]. destruct (nth_error_lt _ _ Hi) as [r Er].
      destruct (nth_error_lt trans i ltac:(lia)) as [t Et].
      apply in_map_iff. exists (i, (r, t)). split; auto. apply filter_In. split.
      * apply in_enumerate. rewrite nth_error_combine, Er, Et. auto.
      * simpl. rewrite (nth_error_nth _ _ _ Er) in Hk; auto.
  - rewrite map_map. apply map_ext_in. intros x Hx. destruct (HL x Hx) as (H1 & _).
    symmetry. apply nth_error_nth; auto.
  - rewrite map_map. apply map_ext_in. intros x Hx. destruct (HL x Hx) as (_ & H1 & _).
    symmetry. apply nth_error_nth; auto.
Qed.

(** The exact stabiliser for k with denominator D and small tolerance. *)
Lemma near_int_exact D atol q :
  qint (inject_Z (Zpos D) * q) -> (0 <= atol)%Q -> (inject_Z (Zpos D) * atol < 1)%Q ->
  (near_int atol q <-> qint q).
Proof.
  intros [w Hw] Ha Hlt. split.
  - intros [z Hz]. exists z.
    assert (Qabs (inject_Z (Zpos D) * (q - inject_Z z)) < 1)%Q as H1.
    { rewrite Qabs_Qmult.
      assert (Qabs (inject_Z (Zpos D)) == inject_Z (Zpos D))%Q as -> by reflexivity.
      eapply Qle_lt_trans; [|exact Hlt].
      rewrite !(Qmult_comm (inject_Z _)). apply Qmult_le_compat_r; auto. discriminate. }
    assert (inject_Z (Zpos D) * (q - inject_Z z) == inject_Z (w - Zpos D * z))%Q as H2.
    { unfold Z.sub. rewrite inject_Z_plus, inject_Z_opp, inject_Z_mult, <- Hw. ring. }
    rewrite H2 in H1.
    assert (Qabs (inject_Z (w - Zpos D * z)) == inject_Z (Z.abs (w - Zpos D * z)))%Q as H3 by reflexivity.
    rewrite H3 in H1. change 1%Q with (inject_Z 1) in H1. rewrite <- Zlt_Qlt in H1.
    assert (w - Zpos D * z = 0)%Z as H4 by lia. rewrite H4 in H2.
    assert (~ (inject_Z (Zpos D) == 0)%Q) as HD by (intros Hc; discriminate Hc).
    apply Qmult_integral in H2. destruct H2 as [H2|H2]; [contradiction|].
    lra.
  - intros [z Hz]. exists z. rewrite Hz. unfold Qminus. rewrite Qplus_opp_r. exact Ha.
Qed.

Lemma keeps_kpoint_exact D atol k r :
  has_denominator D k -> (0 <= atol)%Q -> (inject_Z (Zpos D) * atol < 1)%Q ->
  (keeps_kpoint atol k r = true <-> fixes_kpoint k r).
Proof.
  intros (H1 & H2 & H3) Ha Hlt. rewrite keeps_kpoint_iff. unfold fixes_kpoint, vint, residual.
  set (d := inject_Z (Zpos D)) in *.
  assert (forall a b c x, qint (d * x) ->
    qint (d * (inject_Z a * v1 k + inject_Z b * v2 k + inject_Z c * v3 k - x))) as K.
  { intros a b c x Hx.
    apply (qint_eq (inject_Z a * (d * v1 k) + inject_Z b * (d * v2 k) + inject_Z c * (d * v3 k) - d * x)%Q);
      [ring|]. apply qint_minus; auto. repeat apply qint_plus; apply qint_mult; auto using qint_Z. }
  rewrite !(near_int_exact D); auto; try (apply K; auto).
  tauto.
Qed.

(** Stabiliser is a subgroup. *)
Lemma fixes_1 k : fixes_kpoint k mid.
Proof.
  unfold fixes_kpoint. rewrite mtvec_1. apply (vint_eq vzero).
  - unfold vsub, vzero, veq; simpl; repeat split; ring.
  - apply vint_0.
Qed.

Lemma fixes_mul k a b : fixes_kpoint k a -> fixes_kpoint k b -> fixes_kpoint k (mmul a b).
Proof.
  unfold fixes_kpoint. intros Ha Hb. rewrite mtvec_mul.
  apply (vint_eq (vadd (mtvec b (vsub (mtvec a k) k)) (vsub (mtvec b k) k))).
  - rewrite mtvec_sub. unfold vadd, vsub, veq; simpl; repeat split; ring.
  - apply vint_add; auto. apply vint_mtvec; auto.
Qed.

Lemma fixes_inv k a b : mmul a b = mid -> fixes_kpoint k a -> fixes_kpoint k b.
Proof.
  unfold fixes_kpoint. intros E Ha.
  apply (vint_eq (mtvec b (vsub k (mtvec a k)))).
  - rewrite mtvec_sub, <- mtvec_mul, E, mtvec_1. reflexivity.
  - apply vint_mtvec. apply (vint_eq (vsub vzero (vsub (mtvec a k) k))).
    + unfold vsub, vzero, veq; simpl; repeat split; ring.
    + apply vint_sub; auto using vint_0.
Qed.

Lemma fixes_shift k g a : vint g -> (fixes_kpoint (vadd k g) a <-> fixes_kpoint k a).
Proof.
  intros Hg. unfold fixes_kpoint.
  assert (vint (vsub (mtvec a g) g)) as H by (apply vint_sub; auto; apply vint_mtvec; auto).
  split; intros K.
  - apply (vint_eq (vsub (vsub (mtvec a (vadd k g)) (vadd k g)) (vsub (mtvec a g) g))).
    + rewrite mtvec_add. unfold vadd, vsub, veq; simpl; repeat split; ring.
    + apply vint_sub; auto.
  - apply (vint_eq (vadd (vsub (mtvec a k) k) (vsub (mtvec a g) g))).
    + rewrite mtvec_add. unfold vadd, vsub, veq; simpl; repeat split; ring.
    + apply vint_add; auto.
Qed.

Lemma near_int_shift atol q z : near_int atol (q + inject_Z z) <-> near_int atol q.
Proof.
  split; intros [w Hw].
  - exists (w - z)%Z. unfold Z.sub. rewrite inject_Z_plus, inject_Z_opp.
    setoid_replace (q - (inject_Z w + - inject_Z z))%Q with (q + inject_Z z - inject_Z w)%Q by ring. auto.
  - exists (w + z)%Z. rewrite inject_Z_plus.
    setoid_replace (q + inject_Z z - (inject_Z w + inject_Z z))%Q with (q - inject_Z w)%Q by ring. auto.
Qed.

Lemma near_int_proper atol q q' : (q == q')%Q -> near_int atol q <-> near_int atol q'.
Proof. intros H; split; intros [z Hz]; exists z; [rewrite <- H|rewrite H]; auto. Qed.

(** For every tolerance the test only depends on k modulo integers. *)
Lemma keeps_kpoint_shift atol k g r : vint g ->
  keeps_kpoint atol (vadd k g) r = keeps_kpoint atol k r.
Proof.
  intros Hg. apply Bool.eq_iff_eq_true. rewrite !keeps_kpoint_iff.
  assert (vint (vsub (mtvec r g) g)) as H by (apply vint_sub; auto; apply vint_mtvec; auto).
  destruct H as ([z1 H1] & [z2 H2] & [z3 H3]).
  assert (veq (residual r (vadd k g)) (vadd (residual r k) (vsub (mtvec r g) g))) as (E1 & E2 & E3).
  { unfold residual. rewrite mtvec_add. unfold vadd, vsub, veq; simpl; repeat split; ring. }
  rewrite (near_int_proper _ _ _ E1), (near_int_proper _ _ _ E2), (near_int_proper _ _ _ E3).
  assert (v1 (vadd (residual r k) (vsub (mtvec r g) g)) == v1 (residual r k) + inject_Z z1)%Q as F1
    by (cbn [v1 vadd]; rewrite H1; reflexivity).
  assert (v2 (vadd (residual r k) (vsub (mtvec r g) g)) == v2 (residual r k) + inject_Z z2)%Q as F2
    by (cbn [v2 vadd]; rewrite H2; reflexivity).
  assert (v3 (vadd (residual r k) (vsub (mtvec r g) g)) == v3 (residual r k) + inject_Z z3)%Q as F3
    by (cbn [v3 vadd]; rewrite H3; reflexivity).
  rewrite (near_int_proper _ _ _ F1), (near_int_proper _ _ _ F2), (near_int_proper _ _ _ F3).
  rewrite !near_int_shift. tauto.
Qed.
