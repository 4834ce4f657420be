(** Checking and transporting normal series. *)
From Coq Require Import List Arith ZArith Znumtheory Bool Lia Permutation.
From Verif Require Import Py Mat3 GroupModel GroupSpec GroupProofs SpaceGroupProofs GroupProofs2 ChainSpec.
Import ListNotations.

Definition memb (x : nat) (l : list nat) : bool := existsb (Nat.eqb x) l.
Lemma memb_In x l : memb x l = true <-> In x l.
Proof.
  unfold memb. rewrite existsb_exists. split.
  - intros (y & Hy & E). apply Nat.eqb_eq in E. subst; auto.
  - intros H. exists x. split; auto. apply Nat.eqb_refl.
Qed.
Fixpoint nodupb (l : list nat) : bool :=
  match l with [] => true | x :: l' => negb (memb x l') && nodupb l' end.
Lemma nodupb_sound l : nodupb l = true -> NoDup l.
Proof.
  induction l as [|x l IH]; cbn; [constructor|]. rewrite andb_true_iff, negb_true_iff. intros [H1 H2].
  constructor; auto. rewrite <- memb_In. congruence.
Qed.

Section Check.
Variables (n : nat) (mul : nat -> nat -> nat) (e : nat).

Fixpoint order_search (r cur k fuel : nat) : nat :=
  if Nat.eqb cur e then k else match fuel with O => 0 | S f => order_search r (mul cur r) (S k) f end.
Definition order_of (r : nat) : nat := order_search r (mul e r) 1 n.

Lemma order_search_sound r k fuel : 1 <= k -> (forall d, 1 <= d -> d < k -> mpow mul e r d <> e) ->
  forall p, order_search r (mpow mul e r k) k fuel = p -> 1 <= p -> is_element_order mul e r p.
Proof.
  revert k; induction fuel as [|f IH]; intros k Hk Hmin p; cbn [order_search];
  destruct (Nat.eqb_spec (mpow mul e r k) e) as [E|E].
  - intros <- _. repeat split; auto.
  - intros <-. lia.
  - intros <- _. repeat split; auto.
  - intros Hp H1. apply (IH (S k)); auto; try lia.
    intros d Hd1 Hd2. destruct (Nat.eq_dec d k) as [->|]; auto. apply Hmin; lia.
Qed.
Lemma order_of_sound r p : order_of r = p -> 1 <= p -> is_element_order mul e r p.
Proof. unfold order_of. intros H. change (mul e r) with (mpow mul e r 1) in H. eapply order_search_sound; eauto. intros; lia. Qed.

Definition extend (r p : nat) (H : list nat) : list nat :=
  flat_map (fun m => map (mul (mpow mul e r m)) H) (seq 0 p).

Definition subgroupb (H : list nat) : bool :=
  nodupb H && forallb (fun x => x <? n) H && memb e H && forallb (fun x => forallb (fun y => memb (mul x y) H) H) H.
Lemma subgroupb_sound H : subgroupb H = true -> subgroup n mul e H.
Proof.
  unfold subgroupb. rewrite !andb_true_iff, !forallb_forall. intros (((H1 & H2) & H3) & H4). constructor.
  - apply nodupb_sound; auto.
  - intros x Hx. apply Nat.ltb_lt; auto.
  - apply memb_In; auto.
  - intros x y Hx Hy. specialize (H4 x Hx). rewrite forallb_forall in H4. apply memb_In; auto.
Qed.

Definition primeb (p : nat) : bool := (p =? 2) || (p =? 3).
Lemma primeb_sound p : primeb p = true -> prime (Z.of_nat p).
Proof.
  unfold primeb. rewrite orb_true_iff, !Nat.eqb_eq. intros [->| ->]; [apply prime_2|apply prime_3].
Qed.

Fixpoint chain_check (H rs : list nat) : bool :=
  match rs with
  | [] => forallb (fun x => memb x H) (seq 0 n)
  | r :: rs' =>
      let p := order_of r in
      let K := extend r p H in
      (2 <=? p) && (primeb p || match H with [x] => x =? e | _ => false end) && subgroupb K && memb r K &&
      forallb (fun g => forallb (fun s => existsb (fun s' => mul g s =? mul s' g) H) H) K &&
      chain_check K rs'
  end.

Lemma chain_check_sound rs : forall H, subgroup n mul e H -> chain_check H rs = true ->
  exists F, normal_series n mul e H rs F /\ (forall x, x < n <-> In x F).
Proof.
  induction rs as [|r rs IH]; intros H SH; cbn [chain_check].
  - rewrite forallb_forall. intros HF. exists H. split; [constructor|]. intros x. split.
    + intros Hx. apply memb_In. apply HF. apply in_seq. lia.
    + apply (su_lt _ _ _ _ SH).
  - remember (order_of r) as p eqn:Ep. symmetry in Ep. remember (extend r p H) as K eqn:EK.
    rewrite !andb_true_iff. intros (((((H1 & H2) & H3) & H4) & H5) & H6).
    apply Nat.leb_le in H1. apply subgroupb_sound in H3. apply memb_In in H4.
    destruct (IH K H3 H6) as (F & HF & Hx). exists F. split; auto. apply ns_step with (K := K); auto.
    constructor; auto.
    + intros g s Hg Hs. rewrite forallb_forall in H5. specialize (H5 g Hg). rewrite forallb_forall in H5.
      specialize (H5 s Hs). apply existsb_exists in H5. destruct H5 as (s' & Hs' & E). exists s'. split; auto.
      apply Nat.eqb_eq; auto.
    + exists p. split; [apply order_of_sound; auto; lia|]. split; auto. split; [|split].
      * apply orb_true_iff in H2. destruct H2 as [H2|H2]; [left; apply primeb_sound; auto|right].
        destruct H as [|x [|]]; try discriminate. apply Nat.eqb_eq in H2. subst; auto.
      * subst K. unfold extend. assert (forall s, length (flat_map (fun m => map (mul (mpow mul e r m)) H) (seq s p)) = p * length H) as L.
        { clear. induction p as [|p IH]; intros s; cbn; auto. rewrite app_length, map_length, IH. lia. }
        apply L.
      * intros x. subst K. unfold extend. rewrite in_flat_map. split.
        -- intros (m & Hm & Hin). apply in_seq in Hm. apply in_map_iff in Hin. destruct Hin as (s & <- & Hs).
           exists m, s. split; [lia|auto].
        -- intros (m & s & Hm & Hs & ->). exists m. split; [apply in_seq; lia|]. apply in_map; auto.
Qed.
End Check.

(** ** Transport along an injective homomorphism of index groups *)
Section Transport.
Variables (n : nat) (mul : nat -> nat -> nat) (e : nat) (mul' : nat -> nat -> nat) (e' : nat) (f : nat -> nat) (n' : nat).
Hypothesis Hf : forall x, x < n -> f x < n'.
Hypothesis Hinj : forall x y, x < n -> y < n -> f x = f y -> x = y.
Hypothesis Hmul : forall x y, x < n -> y < n -> f (mul x y) = mul' (f x) (f y).
Hypothesis He : f e = e'.
Hypothesis Hen : e < n.
Hypothesis Hcl : forall x y, x < n -> y < n -> mul x y < n.

Lemma mpow_cl r m : r < n -> mpow mul e r m < n.
Proof. intros Hr. induction m; cbn; auto. Qed.
Lemma mpow_transport r m : r < n -> mpow mul' e' (f r) m = f (mpow mul e r m).
Proof. intros Hr. induction m; cbn; [auto|]. rewrite IHm, Hmul; auto. apply mpow_cl; auto. Qed.
Lemma order_transport r p : r < n -> is_element_order mul e r p -> is_element_order mul' e' (f r) p.
Proof.
  intros Hr (H1 & H2 & H3). repeat split; auto.
  - rewrite mpow_transport, H2; auto.
  - intros d D1 D2. rewrite mpow_transport by auto. rewrite <- He. intros E. apply (H3 d D1 D2).
    apply Hinj; auto. apply mpow_cl; auto.
Qed.
Lemma subgroup_transport H : subgroup n mul e H -> subgroup n' mul' e' (map f H).
Proof.
  intros S. constructor.
  - apply NoDup_map_inj_in; [|apply S]. intros a b A B. apply Hinj; eapply su_lt; eauto.
  - intros x Hx. apply in_map_iff in Hx. destruct Hx as (y & <- & Hy). apply Hf. eapply su_lt; eauto.
  - rewrite <- He. apply in_map. apply S.
  - intros x y Hx Hy. apply in_map_iff in Hx, Hy. destruct Hx as (a & <- & A), Hy as (b & <- & B).
    rewrite <- Hmul by (eapply su_lt; eauto). apply in_map. apply (su_mul _ _ _ _ S); auto.
Qed.
Lemma extension_transport H r K : cyclic_extension n mul e H r K ->
  cyclic_extension n' mul' e' (map f H) (f r) (map f K).
Proof.
  intros C. assert (r < n) as Hr by exact (su_lt _ _ _ _ (ce_sup _ _ _ _ _ _ C) r (ce_in _ _ _ _ _ _ C)).
  assert (forall x, In x H -> x < n) as LH by (exact (su_lt _ _ _ _ (ce_sub _ _ _ _ _ _ C))).
  assert (forall x, In x K -> x < n) as LK by (exact (su_lt _ _ _ _ (ce_sup _ _ _ _ _ _ C))).
  constructor.
  - apply subgroup_transport, (ce_sub _ _ _ _ _ _ C).
  - apply subgroup_transport, (ce_sup _ _ _ _ _ _ C).
  - apply in_map, (ce_in _ _ _ _ _ _ C).
  - intros g s Hg Hs. apply in_map_iff in Hg, Hs. destruct Hg as (a & <- & A), Hs as (b & <- & B).
    destruct (ce_normal _ _ _ _ _ _ C a b A B) as (s' & Hs' & E). exists (f s'). split; [apply in_map; auto|].
    rewrite <- !Hmul by auto. congruence.
  - destruct (ce_order _ _ _ _ _ _ C) as (p & O & P2 & Pp & L & X). exists p.
    split; [apply order_transport; auto|]. split; auto. split; [|split].
    + destruct Pp as [Pp|Pp]; auto. right. rewrite Pp. cbn. rewrite He; auto.
    + rewrite !map_length; auto.
    + intros x. rewrite in_map_iff. split.
      * intros (y & <- & Hy). apply X in Hy. destruct Hy as (m & s & Hm & Hs & ->).
        exists m, (f s). split; auto. split; [apply in_map; auto|]. rewrite mpow_transport, Hmul; auto using mpow_cl.
      * intros (m & s & Hm & Hs & ->). apply in_map_iff in Hs. destruct Hs as (s0 & <- & Hs).
        exists (mul (mpow mul e r m) s0). rewrite mpow_transport, Hmul; auto using mpow_cl. split; auto.
        apply X. eauto.
Qed.
Lemma series_transport H rs F : normal_series n mul e H rs F ->
  normal_series n' mul' e' (map f H) (map f rs) (map f F).
Proof.
  induction 1; cbn; [constructor|]. econstructor; eauto. apply extension_transport; auto.
Qed.
End Transport.
