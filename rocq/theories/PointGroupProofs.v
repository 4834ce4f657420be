(** The tabulated point groups: exhaustive checks of the finite tables, and the
    transport of their chains to the caller's basis and order. *)
From Coq Require Import List Arith ZArith Znumtheory QArith Bool String Lia Permutation.
From Verif Require Import Py Mat3 MatQ GroupModel GroupSpec GroupProofs SpaceGroupProofs GroupProofs2
  PointGroupData PointGroupModel PointGroupSpec ChainSpec ChainProofs.
Import ListNotations.
Local Open Scope list_scope.
Local Open Scope nat_scope.

Definition table_or_nil (l : list mat) : table := match get_cayley_table l with Ret t => t | Raise _ => [] end.

(** Product of tabulated operations on indices, independent of the Cayley table code. *)
Definition idx_mul (l : list mat) (i j : nat) : nat :=
  match find_index (meqb (mmul (nth i l mid) (nth j l mid))) l with Some k => k | None => 0%nat end.

Definition counts_ok (sym : string) (l : list mat) : bool :=
  match dict_get point_groups sym with
  | Ret c => list_nat_eqb (map (fun t => type_count t l) rotation_types) c
             && Nat.eqb (List.length l) (fold_right Nat.add 0%nat c)
  | Raise _ => false
  end.

Definition setting_ok (sym : string) (idx : nat) (l : list mat) : bool :=
  group_check l && meqb (nth 0 l (mneg mid)) mid &&
  forallb (fun r => Z.eqb (mdet r) 1 || Z.eqb (mdet r) (-1)) l && counts_ok sym l.

Definition chain_ok (sym : string) (idx : nat) (l : list mat) : bool :=
  match get_generators sym idx with
  | Some (Ret gens) =>
      let t := table_or_nil l in
      forallb (fun g => Nat.ltb g (List.length l)) gens &&
      chain_check (List.length l) (tget t) 0 [0%nat] (rev gens)
  | _ => false
  end.

Definition all_settings : list (string * nat * list mat) :=
  flat_map (fun ent => map (fun il => (fst ent, fst il, snd il)) (enumerate (snd ent))) pg_dataset.

Lemma all_settings_ok : forallb (fun x => let '(s, i, l) := x in setting_ok s i l) all_settings = true.
Proof. vm_cast_no_check (eq_refl true). Qed.
Lemma all_chains_ok : forallb (fun x => let '(s, i, l) := x in chain_ok s i l) all_settings = true.
Proof. vm_cast_no_check (eq_refl true). Qed.
Lemma symbols_ok : map fst pg_dataset = map fst point_groups /\ map fst pg_solvable_chain = map fst point_groups.
Proof. split; reflexivity. Qed.

Lemma dict_get_In {A} (d : list (string * A)) k v : dict_get d k = Ret v -> In (k, v) d.
Proof.
  induction d as [|[k' v'] d IH]; cbn; [discriminate|]. destruct (String.eqb_spec k' k) as [->|].
  - intros [= ->]. auto.
  - auto.
Qed.

Lemma in_all_settings sym settings idx l :
  dict_get pg_dataset sym = Ret settings -> nth_error settings idx = Some l -> In (sym, idx, l) all_settings.
Proof.
  intros H1 H2. apply dict_get_In in H1. unfold all_settings. apply in_flat_map. exists (sym, settings). split; auto.
  apply in_map_iff. exists (idx, l). split; auto. apply in_enumerate; auto.
Qed.

Lemma setting_facts sym settings idx l :
  dict_get pg_dataset sym = Ret settings -> nth_error settings idx = Some l ->
  lists_group l /\ nth_error l 0 = Some mid /\ (forall r, In r l -> mdet r = 1 \/ mdet r = -1)%Z /\
  exists c, dict_get point_groups sym = Ret c /\ map (fun t => type_count t l) rotation_types = c /\
    List.length l = fold_right Nat.add 0%nat c.
Proof.
  intros H1 H2. pose proof (in_all_settings _ _ _ _ H1 H2) as Hin.
  pose proof (proj1 (forallb_forall _ _) all_settings_ok _ Hin) as K. cbn beta iota in K.
  unfold setting_ok in K. rewrite !andb_true_iff in K. destruct K as (((K1 & K2) & K3) & K4).
  split; [apply group_check_sound; auto|]. split; [|split].
  - apply meqb_eq in K2. destruct l as [|a l]; [discriminate K1|]. cbn in K2. subst. reflexivity.
  - intros r Hr. rewrite forallb_forall in K3. specialize (K3 r Hr). apply orb_true_iff in K3.
    rewrite !Z.eqb_eq in K3. auto.
  - unfold counts_ok in K4. destruct (dict_get point_groups sym) as [c|]; [|discriminate].
    apply andb_true_iff in K4. destruct K4 as [K4 K5]. apply list_nat_eqb_eq in K4. apply Nat.eqb_eq in K5.
    exists c. auto.
Qed.

Lemma chain_facts sym settings idx l :
  dict_get pg_dataset sym = Ret settings -> nth_error settings idx = Some l ->
  exists gens t, get_generators sym idx = Some (Ret gens) /\ get_cayley_table l = Ret t /\
    (forall g, In g gens -> (g < List.length l)%nat) /\
    chain_of_group (List.length l) (tget t) 0 gens.
Proof.
  intros H1 H2. pose proof (in_all_settings _ _ _ _ H1 H2) as Hin.
  pose proof (proj1 (forallb_forall _ _) all_chains_ok _ Hin) as K. cbn beta iota in K.
  destruct (setting_facts _ _ _ _ H1 H2) as (G & E0 & _).
  unfold chain_ok in K. destruct (get_generators sym idx) as [[gens|]|]; try discriminate.
  apply andb_true_iff in K. destruct K as [K1 K2].
  destruct (cayley_rot_total l (lg_mul _ G)) as [t Ht]. unfold table_or_nil in K2. rewrite Ht in K2.
  exists gens, t. split; auto. split; auto. split.
  - intros g Hg. rewrite forallb_forall in K1. apply Nat.ltb_lt; auto.
  - assert (0 < List.length l)%nat as Hl by (destruct l; [discriminate|cbn; lia]).
    assert (nth 0 l mid = mid) as En by (apply nth_error_nth; auto).
    pose proof (cayley_rot_group_law l t 0 G Ht Hl En) as L.
    apply chain_check_sound in K2; auto. constructor.
    + repeat constructor. intros [].
    + intros x [<-|[]]; auto.
    + left; auto.
    + intros x y [<-|[]] [<-|[]]. left. symmetry. apply (gl_1l _ _ _ L); auto.
Qed.

(** * The caller's group *)
Lemma match_setting_spec matched std mapping : match_setting matched std = Some mapping <->
  Forall2 (fun r j => find_index (meqb r) matched = Some j) std mapping.
Proof.
  revert mapping; induction std as [|r std IH]; intros mapping; cbn.
  - split; [intros [= <-]; constructor|inversion 1; auto].
  - destruct (find_index (meqb r) matched) as [j|] eqn:E.
    + destruct (match_setting matched std) as [l|].
      * split; [intros [= <-]; constructor; auto; apply IH; auto|]. inversion 1; subst.
        assert (Some l = Some l') as H5 by (apply IH; auto). congruence.
      * split; [discriminate|]. inversion 1; subst. assert (None = Some l') as H5 by (apply IH; auto). discriminate.
    + split; [discriminate|]. inversion 1; subst. congruence.
Qed.
Lemma match_setting_total matched std : (forall r, In r std -> In r matched) -> exists m, match_setting matched std = Some m.
Proof.
  induction std as [|r std IH]; intros H; cbn; eauto.
  destruct (find_index (meqb r) matched) as [j|] eqn:E.
  - destruct (IH (fun x Hx => H x (or_intror Hx))) as [m ->]. eauto.
  - exfalso. pose proof (proj1 (find_index_None _ _) E r (H r (or_introl eq_refl))) as K.
    rewrite meqb_refl in K. discriminate.
Qed.

Lemma mapM_list_get (l : list nat) gs : (forall g, In g gs -> (g < List.length l)%nat) ->
  mapM (fun g => list_get l g) gs = Ret (map (fun g => nth g l 0%nat) gs).
Proof.
  induction gs as [|g gs IH]; intros H; cbn; auto.
  unfold list_get at 1. destruct (nth_error_lt l g (H g (or_introl eq_refl))) as [x Hx]. rewrite Hx. cbn [bind].
  rewrite IH by (intros; apply H; right; auto). cbn. rewrite (nth_error_nth _ _ _ Hx). reflexivity.
Qed.

Section Caller.
Variables (sym : string) (P : qmat) (rots : list mat) (settings : list (list mat)).
Hypothesis HP : ~ (qdet P == 0)%Q.
Hypothesis HG : lists_group rots.
Hypothesis HI : forall r, In r rots -> qintegral (qmul (qmul (qinv P) (qofz r)) P).
Hypothesis Hset : dict_get pg_dataset sym = Ret settings.
(** some tabulated setting lists the transformed operations, in any order *)
Hypothesis Hmatch : exists std, In std settings /\ Permutation std (map (conj_round P) rots).

Lemma conj_round_inj a b : In a rots -> In b rots -> conj_round P a = conj_round P b -> a = b.
Proof.
  intros A B E. apply qofz_inj.
  assert (forall r, In r rots -> qmeq (qofz r) (qmul (qmul P (qofz (conj_round P r))) (qinv P))) as K.
  { intros r Hr. unfold conj_round. rewrite (qofz_qround _ (HI r Hr)).
    rewrite !qmul_assoc, (qinv_r P HP), qmul_1l, <- qmul_assoc, (qinv_r P HP), qmul_1r. reflexivity. }
  rewrite (K a A), (K b B), E. reflexivity.
Qed.
Lemma conj_round_mul a b : In a rots -> In b rots -> conj_round P (mmul a b) = mmul (conj_round P a) (conj_round P b).
Proof.
  intros A B. apply qofz_inj.
  assert (forall r, In r rots -> qmeq (qofz (conj_round P r)) (qmul (qmul (qinv P) (qofz r)) P)) as K
    by (intros r Hr; apply qofz_qround, HI; auto).
  apply qmeq_trans with (1 := K _ (lg_mul _ HG a b A B)).
  apply qmeq_sym. apply qmeq_trans with (1 := qofz_mul _ _).
  rewrite (K a A), (K b B), qofz_mul.
  rewrite <- !qmul_assoc, (qmul_assoc P (qinv P)), (qinv_r P HP), qmul_1l. reflexivity.
Qed.
Lemma conj_round_1 : conj_round P mid = mid.
Proof.
  unfold conj_round. rewrite <- (qround_qofz mid) at 2. apply qround_proper.
  rewrite qofz_1, qmul_1r. apply qinv_l; auto.
Qed.

Let matched := map (conj_round P) rots.

Lemma matched_nodup : NoDup matched.
Proof. apply NoDup_map_inj_in; [apply conj_round_inj|apply HG]. Qed.

Lemma settings_same_length std std' : In std settings -> In std' settings -> List.length std = List.length std'.
Proof.
  intros H H'. apply In_nth_error in H, H'. destruct H as [i Hi], H' as [j Hj].
  destruct (setting_facts _ _ _ _ Hset Hi) as (_ & _ & _ & c & Hc & _ & L).
  destruct (setting_facts _ _ _ _ Hset Hj) as (_ & _ & _ & c' & Hc' & _ & L'). congruence.
Qed.

Lemma setting_transport idx std mapping : nth_error settings idx = Some std -> match_setting matched std = Some mapping ->
  exists gens t e, get_generators sym idx = Some (Ret gens) /\ get_cayley_table rots = Ret t /\
    (e < List.length rots)%nat /\ nth e rots mid = mid /\
    mapM (fun g => list_get mapping g) gens = Ret (map (fun g => nth g mapping 0%nat) gens) /\
    (forall g, In g (map (fun g => nth g mapping 0%nat) gens) -> (g < List.length rots)%nat) /\
    chain_of_group (List.length rots) (tget t) e (map (fun g => nth g mapping 0%nat) gens).
Proof.
  intros Hidx Hm. apply match_setting_spec in Hm.
  destruct (chain_facts _ _ _ _ Hset Hidx) as (gens & ts & Hg & Hts & Hlt & F & HF & HFx).
  destruct (setting_facts _ _ _ _ Hset Hidx) as (Gs & E0 & _).
  destruct (cayley_rot_total rots (lg_mul _ HG)) as [t Ht].
  destruct (In_nth_lt _ _ mid (lg_id _ HG)) as (e & He & Ee).
  pose proof (Forall2_len _ _ _ Hm) as Hlen.
  assert (List.length std = List.length rots) as Hn.
  { destruct Hmatch as (std0 & Hs0 & Hp). apply Permutation_length in Hp. rewrite map_length in Hp.
    rewrite <- Hp. apply settings_same_length; auto. eapply nth_error_In; eauto. }
  set (f := fun i => nth i mapping 0%nat).
  assert (forall i, (i < List.length std)%nat -> (f i < List.length rots)%nat /\
            conj_round P (nth (f i) rots mid) = nth i std mid) as Hf.
  { intros i Hi. destruct (nth_error_lt _ _ Hi) as [r Hr].
    destruct (Forall2_nth_error _ _ _ Hm _ _ Hr) as (j & Hj & Ej).
    unfold f. rewrite (nth_error_nth _ _ _ Hj), (nth_error_nth _ _ _ Hr).
    pose proof (find_index_lt _ _ _ Ej) as L. unfold matched in L. rewrite map_length in L. split; auto.
    apply find_index_Some in Ej. destruct Ej as [(a & Ha & Em) _]. apply meqb_eq in Em. subst a.
    unfold matched in Ha. rewrite nth_error_map in Ha. destruct (nth_error rots j) as [x|] eqn:Ex; [|discriminate].
    rewrite (nth_error_nth _ _ _ Ex). cbn in Ha. congruence. }
  destruct (cayley_rot_spec _ _ Ht) as (_ & _ & T3). destruct (cayley_rot_spec _ _ Hts) as (_ & _ & S3).
  assert (0 < List.length std)%nat as Hpos by (destruct std; [discriminate|cbn; lia]).
  assert (forall x y, (x < List.length std)%nat -> (y < List.length std)%nat -> (tget ts x y < List.length std)%nat) as Hcl
    by (intros x y Hx Hy; apply (S3 x y Hx Hy)).
  assert (forall x y, (x < List.length std)%nat -> (y < List.length std)%nat -> f (tget ts x y) = tget t (f x) (f y)) as Hmul.
  { intros x y Hx Hy. destruct (Hf x Hx) as [Lx Ex]. destruct (Hf y Hy) as [Ly Ey].
    destruct (Hf _ (Hcl x y Hx Hy)) as [Lxy Exy]. destruct (T3 _ _ Lx Ly) as (Lt & Et & _).
    destruct (S3 x y Hx Hy) as (_ & Es & _).
    apply (NoDup_nth rots mid); auto; [apply HG|]. rewrite Et.
    apply conj_round_inj; [apply nth_In; auto|apply HG; apply nth_In; auto|].
    rewrite conj_round_mul by (apply nth_In; auto). rewrite Exy, Es, Ex, Ey. reflexivity. }
  assert (f 0%nat = e) as Hfe.
  { destruct (Hf 0%nat Hpos) as [L0 E0']. apply (NoDup_nth rots mid); auto; [apply HG|]. rewrite Ee.
    apply conj_round_inj; [apply nth_In; auto|apply HG|]. rewrite E0', conj_round_1. apply nth_error_nth; auto. }
  assert (forall x y, (x < List.length std)%nat -> (y < List.length std)%nat -> f x = f y -> x = y) as Hinj.
  { intros x y Hx Hy E. destruct (Hf x Hx) as [_ Ex]. destruct (Hf y Hy) as [_ Ey].
    apply (NoDup_nth std mid); auto; [apply Gs|]. rewrite <- Ex, <- Ey, E. reflexivity. }
  exists gens, t, e. split; auto. split; auto. split; auto. split; auto. split; [|split].
  - apply mapM_list_get. intros g Hgi. rewrite <- Hlen. auto.
  - intros g Hgi. apply in_map_iff in Hgi. destruct Hgi as (x & <- & Hx). apply Hf. auto.
  - exists (map f F). split.
    + rewrite <- map_rev. change [e] with (map f [0%nat]) || (replace [e] with (map f [0%nat]) by (cbn; rewrite Hfe; auto)).
      apply (series_transport (List.length std) (tget ts) 0%nat (tget t) e f (List.length rots)); auto.
      intros x Hx. apply Hf; auto.
    + intros x. split.
      * intros Hx. assert (In (conj_round P (nth x rots mid)) std) as Hin.
        { (* std lists all of matched: same length, no duplicates, included *)
          assert (incl std matched) as Hi.
          { intros r Hr. destruct (In_nth_lt _ _ mid Hr) as (i & Li & <-). destruct (Hf i Li) as [L1 <-].
            apply in_map. apply nth_In; auto. }
          apply (@NoDup_length_incl _ std matched (lg_nodup _ Gs)); auto.
          - unfold matched. rewrite map_length. lia.
          - apply in_map. apply nth_In; auto. }
        destruct (In_nth_lt _ _ mid Hin) as (i & Li & Ei). destruct (Hf i Li) as [L1 E1].
        assert (f i = x) as <-.
        { apply (NoDup_nth rots mid); auto; [apply HG|]. apply conj_round_inj; try (apply nth_In; auto). congruence. }
        apply in_map. apply HFx; auto.
      * intros Hx. apply in_map_iff in Hx. destruct Hx as (y & <- & Hy). apply Hf. apply HFx; auto.
Qed.

Lemma match_loop_finds rest idx : skipn idx settings = rest ->
  (exists std, In std rest /\ Permutation std matched) ->
  exists i std mapping, nth_error settings i = Some std /\ match_setting matched std = Some mapping /\
    match_loop sym matched idx rest =
      match get_generators sym i with
      | None => None | Some (Raise ex) => Some (Raise ex)
      | Some (Ret gens) => Some (mapM (fun g => list_get mapping g) gens) end.
Proof.
  revert idx; induction rest as [|std rest IH]; intros idx Hs (s0 & Hin & Hp); [destruct Hin|].
  assert (nth_error settings idx = Some std) as Hn.
  { clear -Hs. revert idx Hs. induction settings; intros [|i] H; cbn in *; try discriminate; [congruence|]. auto. }
  assert (skipn (S idx) settings = rest) as Hs'.
  { clear -Hs. revert idx Hs. induction settings; intros [|i] H; cbn in *; try discriminate; [congruence|].
    destruct l; cbn; auto. destruct i; discriminate. }
  cbn [match_loop]. destruct (match_setting matched std) as [mapping|] eqn:E.
  - exists idx, std, mapping. auto.
  - apply IH; auto. destruct Hin as [->|Hin]; [|eauto]. exfalso.
    destruct (match_setting_total matched s0) as [m Hm]; [|congruence].
    intros r Hr. eapply Permutation_in; eauto.
Qed.

Theorem chain_generators_correct :
  exists gens t e, get_pointgroup_chain_generators sym P rots = Some (Ret gens) /\
    get_cayley_table rots = Ret t /\ (e < List.length rots)%nat /\ nth e rots mid = mid /\
    (forall g, In g gens -> (g < List.length rots)%nat) /\
    chain_of_group (List.length rots) (tget t) e gens.
Proof.
  unfold get_pointgroup_chain_generators. rewrite Hset. fold matched.
  destruct (match_loop_finds settings 0 eq_refl Hmatch) as (i & std & mapping & Hi & Hm & ->).
  destruct (setting_transport i std mapping Hi Hm) as (gens & t & e & -> & Ht & He & Ee & -> & Hlt & Hc).
  eexists _, t, e. eauto 10.
Qed.
End Caller.

(** Nothing matches: an empty list is returned without an exception. *)
Lemma match_loop_none sym matched settings : forall idx,
  (forall std, In std settings -> match_setting matched std = None) ->
  match_loop sym matched idx settings = Some (Ret []).
Proof.
  induction settings as [|s l IH]; intros idx H; cbn; auto. rewrite (H s (or_introl eq_refl)).
  apply IH. intros; apply H; right; auto.
Qed.
