(** Little groups of space groups, their factor system, and magnetic coset decomposition. *)
From Coq Require Import List Arith ZArith QArith Qround Qabs Bool Lia Lqa Sorting Permutation.
From Verif Require Import Py Mat3 GroupModel GroupSpec GroupProofs.
Import ListNotations.

(** * The little group of a space group is a space group fixing k *)
Lemma sorted_NoDup l : StronglySorted Nat.lt l -> NoDup l.
Proof.
  induction 1 as [|a l H IH HF]; constructor; auto. rewrite Forall_forall in HF.
  intros Hc. specialize (HF _ Hc). lia.
Qed.

Lemma nth_map_nth {A} (l : list A) (m : list nat) d i :
  i < length m -> nth i (map (fun j => nth j l d) m) d = nth (nth i m 0) l d.
Proof.
  intros H. rewrite (nth_indep _ d (nth 0 l d)) by (rewrite map_length; auto).
  rewrite (map_nth (fun j => nth j l d)). reflexivity.
Qed.

Lemma NoDup_map_inj_in {A B} (f : A -> B) l :
  (forall a b, In a l -> In b l -> f a = f b -> a = b) -> NoDup l -> NoDup (map f l).
Proof.
  intros Hf H. induction H as [|a l Ha H IH]; cbn; constructor.
  - intros Hc. apply in_map_iff in Hc. destruct Hc as (b & E & Hb).
    assert (b = a) by (apply Hf; cbn; auto). subst; auto.
  - apply IH. intros; apply Hf; cbn; auto.
Qed.

Lemma little_is_space_group rots trans k atol D lr lt lm :
  lists_space_group rots trans -> has_denominator D k -> (0 <= atol)%Q ->
  (inject_Z (Zpos D) * atol < 1)%Q ->
  get_little_group rots trans k atol = (lr, lt, lm) ->
  lists_space_group lr lt /\ (forall r, In r lr <-> In r rots /\ fixes_kpoint k r).
Proof.
  intros SG HD Ha HDa H.
  destruct (little_group_spec _ _ _ _ _ _ _ (sg_len _ _ SG) H) as (Hs & Hm & -> & ->).
  pose proof (sg_rots _ _ SG) as G.
  assert (forall r, In r (map (fun i => nth i rots mid) lm) <-> In r rots /\ fixes_kpoint k r) as Hin.
  { intros r. rewrite in_map_iff. split.
    - intros (i & <- & Hi). apply Hm in Hi. destruct Hi as [Hi Hk].
      split; [apply nth_In; auto|]. apply (keeps_kpoint_exact D atol) in Hk; auto.
    - intros [Hr Hk]. destruct (In_nth_lt _ _ mid Hr) as (i & Hi & E). exists i. split; auto.
      apply Hm. split; auto. rewrite E. apply (keeps_kpoint_exact D); auto. }
  split; [|exact Hin]. constructor.
  - rewrite !map_length. reflexivity.
  - constructor.
    + apply NoDup_map_inj_in; [|apply sorted_NoDup; auto].
      intros i j Hi Hj E. apply Hm in Hi, Hj.
      apply (NoDup_nth rots mid); auto; try tauto. apply G.
    + apply Hin. split; [apply G|apply fixes_1].
    + intros a b A B. apply Hin in A, B. apply Hin. split; [apply G; tauto|apply fixes_mul; tauto].
    + intros a A. apply Hin in A. destruct (lg_inv _ G a ltac:(tauto)) as (b & Hb & E1 & E2).
      exists b. split; auto. apply Hin. split; auto. eapply fixes_inv; eauto. tauto.
  - intros i j l Hi Hj Hl. rewrite map_length in Hi, Hj, Hl. rewrite !nth_map_nth by auto.
    apply (sg_closed _ _ SG); apply Hm; apply nth_In; auto.
Qed.

(** * The factor system is a cocycle *)
Section Phase.
Variables (rots : list mat) (trans : list vec) (k : vec).
Hypothesis SG : lists_space_group rots trans.
Hypothesis FK : forall r, In r rots -> fixes_kpoint k r.

Lemma residual_int i : i < length rots -> vint (residual (nth i rots mid) k).
Proof. intros H. apply FK. apply nth_In; auto. Qed.

Lemma residual_mul a b : veq (residual (mmul a b) k) (vadd (mtvec b (residual a k)) (residual b k)).
Proof.
  unfold residual. rewrite mtvec_mul, mtvec_sub. unfold veq, vadd, vsub; cbn [v1 v2 v3]; repeat split; ring.
Qed.

Lemma phase_cocycle i j l ij jl :
  i < length rots -> j < length rots -> l < length rots -> ij < length rots -> jl < length rots ->
  nth ij rots mid = mmul (nth i rots mid) (nth j rots mid) ->
  nth jl rots mid = mmul (nth j rots mid) (nth l rots mid) ->
  qint (factor_phase rots trans k i jl + factor_phase rots trans k j l
        - (factor_phase rots trans k ij l + factor_phase rots trans k i j)).
Proof.
  intros Hi Hj Hl Hij Hjl E1 E2. unfold factor_phase.
  pose proof (sg_closed _ _ SG j l jl Hj Hl Hjl E2) as Hw.
  set (gi := residual (nth i rots mid) k). rewrite E1.
  rewrite (residual_mul (nth i rots mid) (nth j rots mid)). fold gi.
  rewrite vdot_add_l, vdot_mtvec.
  apply (qint_eq (- vdot gi (vsub (vadd (mvec (nth j rots mid) (nth l trans vzero)) (nth j trans vzero)) (nth jl trans vzero)))%Q).
  - rewrite vdot_sub_r, vdot_add_r. ring.
  - apply qint_opp, qint_dot; auto. apply residual_int; auto.
Qed.

Lemma phase_identity_l i j : i < length rots -> nth i rots mid = mid ->
  (factor_phase rots trans k i j == 0)%Q.
Proof.
  intros Hi E. unfold factor_phase, residual. rewrite E, mtvec_1.
  unfold vdot, vsub; cbn [v1 v2 v3]; ring.
Qed.

(** translation of the identity is a lattice vector, so the factor is 1 *)
Lemma phase_identity_r i j : i < length rots -> j < length rots -> nth j rots mid = mid ->
  qint (factor_phase rots trans k i j).
Proof.
  intros Hi Hj E. unfold factor_phase.
  assert (vint (nth j trans vzero)) as Hw.
  { pose proof (sg_closed _ _ SG j j j Hj Hj Hj ltac:(rewrite E, mmul_1l; reflexivity)) as H.
    rewrite E in H. apply (vint_eq (vsub (vadd (mvec mid (nth j trans vzero)) (nth j trans vzero)) (nth j trans vzero))); auto.
    rewrite mvec_1. unfold veq, vsub, vadd; cbn [v1 v2 v3]; repeat split; ring. }
  apply qint_dot; auto. apply residual_int; auto.
Qed.
End Phase.

(** * Magnetic coset decomposition *)
Lemma near_int_rem1 atol q : near_int atol (rem1 q) <-> near_int atol q.
Proof.
  unfold rem1. rewrite <- (near_int_shift atol (q - inject_Z (Qfloor q)) (Qfloor q)).
  apply near_int_proper. ring.
Qed.

Lemma same_mod_lattice_exact D u v :
  has_denominator D (vsub u v) -> (inject_Z (Zpos D) * atol_default < 1)%Q ->
  (same_mod_lattice u v = true <-> vint (vsub u v)).
Proof.
  intros (H1 & H2 & H3) HD. unfold same_mod_lattice, vall, frac_near, vmap. cbn [v1 v2 v3 vsub] in *.
  rewrite !andb_true_iff, !close0_near, !near_int_rem1.
  assert (0 <= atol_default)%Q as H0 by discriminate.
  rewrite !(near_int_exact D) by auto. unfold vint; cbn [v1 v2 v3 vsub]. tauto.
Qed.

Lemma has_denominator_mvec D r v : has_denominator D v -> has_denominator D (mvec r v).
Proof.
  intros (H1 & H2 & H3). unfold has_denominator, mvec; cbn [v1 v2 v3].
  assert (forall a b c, qint (inject_Z (Zpos D) * (inject_Z a * v1 v + inject_Z b * v2 v + inject_Z c * v3 v))) as K.
  { intros a b c. apply (qint_eq (inject_Z a * (inject_Z (Zpos D) * v1 v) + inject_Z b * (inject_Z (Zpos D) * v2 v) + inject_Z c * (inject_Z (Zpos D) * v3 v))%Q); [ring|].
    repeat apply qint_plus; apply qint_mult; auto using qint_Z. }
  repeat split; apply K.
Qed.
Lemma has_denominator_add D u v : has_denominator D u -> has_denominator D v -> has_denominator D (vadd u v).
Proof.
  intros (?&?&?) (?&?&?). unfold has_denominator, vadd; cbn [v1 v2 v3].
  repeat split; (eapply qint_eq; [symmetry; apply Qmult_plus_distr_r|apply qint_plus; auto]).
Qed.
Lemma has_denominator_sub D u v : has_denominator D u -> has_denominator D v -> has_denominator D (vsub u v).
Proof.
  intros (?&?&?) (?&?&?). unfold has_denominator, vsub; cbn [v1 v2 v3].
  assert (forall d a b, d * a - d * b == d * (a - b))%Q as K by (intros; ring).
  repeat split; rewrite <- K; apply qint_minus; auto.
Qed.

Lemma msg_equiv_sym a b : msg_equiv a b -> msg_equiv b a.
Proof.
  destruct a as [[ra ta] sa], b as [[rb tb] sb]. intros (-> & H & ->). split; [auto|split; auto].
  apply (vint_eq (vsub vzero (vsub ta tb))); [|apply vint_sub; auto using vint_0].
    unfold veq, vsub, vzero; cbn [v1 v2 v3]; repeat split; ring.
Qed.
Lemma msg_equiv_refl a : msg_equiv a a.
Proof.
  destruct a as [[ra ta] sa]. split; [auto|split; auto]. apply (vint_eq vzero); auto using vint_0.
  unfold veq, vsub, vzero; cbn [v1 v2 v3]; repeat split; ring.
Qed.
Lemma msg_equiv_trans a b c : msg_equiv a b -> msg_equiv b c -> msg_equiv a c.
Proof.
  destruct a as [[ra ta] sa], b as [[rb tb] sb], c as [[rc tc] sc].
  intros (-> & H & ->) (-> & H' & ->). split; [auto|split; auto].
  apply (vint_eq (vadd (vsub ta tb) (vsub tb tc))); [|apply vint_add; auto].
  unfold veq, vsub, vadd; cbn [v1 v2 v3]; repeat split; ring.
Qed.
Lemma msg_mul_equiv a a' b b' : msg_equiv a a' -> msg_equiv b b' -> msg_equiv (msg_mul a b) (msg_mul a' b').
Proof.
  destruct a as [[ra ta] sa], b as [[rb tb] sb], a' as [[ra' ta'] sa'], b' as [[rb' tb'] sb'].
  intros (-> & H & ->) (-> & H' & ->). split; [auto|split; auto].
  apply (vint_eq (vadd (mvec ra' (vsub tb tb')) (vsub ta ta'))).
  - rewrite mvec_sub. unfold veq, vsub, vadd; cbn [v1 v2 v3]; repeat split; ring.
  - apply vint_add; auto. apply vint_mvec; auto.
Qed.
Lemma msg_mul_assoc a b c : msg_equiv (msg_mul a (msg_mul b c)) (msg_mul (msg_mul a b) c).
Proof.
  destruct a as [[ra ta] sa], b as [[rb tb] sb], c as [[rc tc] sc]. unfold msg_mul, msg_equiv.
  split; [apply mmul_assoc|]. split; [|destruct sa, sb, sc; reflexivity].
  apply (vint_eq vzero); auto using vint_0. rewrite mvec_add, mvec_mul.
  unfold veq, vsub, vadd, vzero; cbn [v1 v2 v3]; repeat split; ring.
Qed.
Lemma msg_mul_1r a : msg_equiv (msg_mul a msg_one) a.
Proof.
  destruct a as [[ra ta] sa]. unfold msg_mul, msg_equiv, msg_one. rewrite mmul_1r.
  split; [auto|]. split; [|destruct sa; reflexivity].
  apply (vint_eq vzero); auto using vint_0.
  unfold veq, vsub, vadd, vzero, mvec; cbn [v1 v2 v3]; repeat split; ring.
Qed.
Lemma msg_mul_1l a : msg_equiv (msg_mul msg_one a) a.
Proof.
  destruct a as [[ra ta] sa]. unfold msg_mul, msg_equiv, msg_one. rewrite mmul_1l.
  split; [auto|]. split; [|destruct sa; reflexivity].
  apply (vint_eq vzero); auto using vint_0. rewrite mvec_1.
  unfold veq, vsub, vadd, vzero; cbn [v1 v2 v3]; repeat split; ring.
Qed.
Lemma msg_inv_comm a b : msg_equiv (msg_mul a b) msg_one -> msg_equiv (msg_mul b a) msg_one.
Proof.
  destruct a as [[ra ta] sa], b as [[rb tb] sb]. unfold msg_mul, msg_equiv, msg_one. intros (E & H & F).
  assert (mmul rb ra = mid) as E' by (apply mmul_inv_comm; auto).
  split; [auto|]. split; [|destruct sa, sb; auto].
  apply (vint_eq (mvec rb (vsub (vadd (mvec ra tb) ta) vzero))); [|apply vint_mvec; auto].
  rewrite mvec_sub, mvec_add, <- mvec_mul, E', mvec_1.
  unfold veq, vsub, vadd, vzero, mvec; cbn [v1 v2 v3]; repeat split; ring.
Qed.

Section Xsg.
Variables (ops : list mop) (D : positive).
Hypothesis MG : lists_magnetic_space_group ops.
Hypothesis HT : translations_over D ops.
Hypothesis HDa : (inject_Z (Zpos D) * atol_default < 1)%Q.

Lemma tr_match_iff a b o : In a ops -> In b ops -> In o ops -> xorb (mop_tr a) (mop_tr b) = true ->
  (tr_match (mmul (mop_rot a) (mop_rot b)) (vadd (mvec (mop_rot a) (mop_trans b)) (mop_trans a)) o = true
   <-> msg_equiv o (msg_mul a b)).
Proof.
  intros Ha Hb Ho Hx. destruct a as [[ra ta] sa], b as [[rb tb] sb], o as [[ro to] so].
  unfold tr_match, mop_tr, mop_rot, mop_trans in *; cbn [fst snd] in *.
  rewrite !andb_true_iff, meqb_eq.
  rewrite (same_mod_lattice_exact D); auto.
  - unfold msg_mul, msg_equiv. split.
    + intros ((-> & <-) & H). split; auto. split; [|auto].
      apply (vint_eq (vsub vzero (vsub (vadd (mvec ra tb) ta) to))); [|apply vint_sub; auto using vint_0].
      unfold veq, vsub, vadd, vzero, mvec; cbn [v1 v2 v3]; repeat split; ring.
    + intros (-> & H & ->). split; [split; [auto|auto]|].
      apply (vint_eq (vsub vzero (vsub to (vadd (mvec ra tb) ta)))); [|apply vint_sub; auto using vint_0].
      unfold veq, vsub, vadd, vzero, mvec; cbn [v1 v2 v3]; repeat split; ring.
  - apply (HT _) in Ha. apply (HT _) in Hb. apply (HT _) in Ho. cbn [fst snd] in *.
    apply has_denominator_sub; auto. apply has_denominator_add; auto. apply has_denominator_mvec; auto.
Qed.

Lemma xsg_indices_spec i :
  In i (map fst (filter (fun x => negb (mop_tr (snd x))) (enumerate ops))) <->
  i < length ops /\ mop_tr (nth i ops msg_one) = false.
Proof.
  rewrite in_map_iff. split.
  - intros ([j o] & E & H). cbn in E. subst j. apply filter_In in H as [H1 H2]. cbn in H2.
    apply in_enumerate in H1. split; [apply nth_error_Some; congruence|].
    rewrite (nth_error_nth _ _ _ H1). apply negb_true_iff; auto.
  - intros [Hi Ht]. destruct (nth_error_lt _ _ Hi) as [o Ho]. exists (i, o). split; auto.
    apply filter_In. split; [apply in_enumerate; auto|]. cbn.
    rewrite (nth_error_nth _ _ _ Ho) in Ht. rewrite Ht; reflexivity.
Qed.

Lemma msg_equiv_tr a b : msg_equiv a b -> mop_tr a = mop_tr b.
Proof. destruct a as [[ra ta] sa], b as [[rb tb] sb]. intros (_ & _ & E). exact E. Qed.
Lemma msg_mul_tr a b : mop_tr (msg_mul a b) = xorb (mop_tr a) (mop_tr b).
Proof. destruct a as [[ra ta] sa], b as [[rb tb] sb]. reflexivity. Qed.

Theorem xsg_decomposition : (exists o, In o ops /\ mop_tr o = true) ->
  exists xsg tri a0,
    decompose_by_maximal_space_subgroup ops = Ret (Some (xsg, tri, a0)) /\
    StronglySorted Nat.lt xsg /\
    (forall i, In i xsg <-> i < length ops /\ mop_tr (nth i ops msg_one) = false) /\
    a0 < length ops /\ mop_tr (nth a0 ops msg_one) = true /\
    (forall i, i < a0 -> mop_tr (nth i ops msg_one) = false) /\
    length tri = length xsg /\
    (forall p, p < length xsg -> nth p tri 0 < length ops /\
       msg_equiv (nth (nth p tri 0) ops msg_one)
                 (msg_mul (nth (nth p xsg 0) ops msg_one) (nth a0 ops msg_one))) /\
    Permutation (xsg ++ tri) (seq 0 (length ops)).
Proof.
  intros (oA & HoA & HtA). unfold decompose_by_maximal_space_subgroup.
  change (mid, vzero, false) with msg_one.
  destruct (forallb mop_tr ops) eqn:Eall.
  { exfalso. destruct (ms_one _ MG) as (e & He & Ee). rewrite forallb_forall in Eall.
    specialize (Eall _ He). rewrite (msg_equiv_tr _ _ Ee) in Eall. discriminate. }
  destruct (find_index mop_tr ops) as [a0|] eqn:Ea.
  2:{ exfalso. apply (proj1 (find_index_None mop_tr ops)) with (a := oA) in Ea; congruence. }
  pose proof (find_index_lt _ _ _ Ea) as La.
  apply find_index_Some in Ea. destruct Ea as [(o0 & Ho0 & Ht0) Hfirst].
  assert (@nth mop a0 ops msg_one = o0) as E0 by (apply nth_error_nth; auto). cbv zeta. rewrite E0.
  assert (In o0 ops) as Hin0 by (eapply nth_error_In; eauto).
  set (xsg := map fst (filter (fun x => negb (mop_tr (snd x))) (enumerate ops))).
  set (f := fun i => match find_index (tr_match (mmul (mop_rot (nth i ops msg_one)) (mop_rot o0))
             (vadd (mvec (mop_rot (nth i ops msg_one)) (mop_trans o0)) (mop_trans (nth i ops msg_one)))) ops with
             Some j => [j] | None => [] end).
  assert (forall i, In i xsg -> exists j, f i = [j] /\ j < length ops /\
     msg_equiv (nth j ops msg_one) (msg_mul (nth i ops msg_one) o0)) as Hf.
  { intros i Hi. apply xsg_indices_spec in Hi as [Hi Hti].
    assert (In (nth i ops msg_one) ops) as Hii by (apply nth_In; auto).
    assert (xorb (mop_tr (nth i ops msg_one)) (mop_tr o0) = true) as Hx by (rewrite Hti, Ht0; reflexivity).
    unfold f. destruct (find_index _ ops) as [j|] eqn:Ej.
    - exists j. split; auto. pose proof (find_index_lt _ _ _ Ej). split; auto.
      apply find_index_Some in Ej. destruct Ej as [(o & Ho & Hm) _].
      rewrite (nth_error_nth _ _ _ Ho). apply tr_match_iff; auto. eapply nth_error_In; eauto.
    - exfalso. destruct (ms_mul _ MG _ _ Hii Hin0) as (c & Hc & Ec).
      apply (proj1 (find_index_None _ _)) with (a := c) in Ej; auto.
      apply tr_match_iff in Ec; auto. congruence. }
  assert (forall l, (forall i, In i l -> In i xsg) -> length (flat_map f l) = length l /\
     forall p, p < length l -> nth p (flat_map f l) 0 < length ops /\
       msg_equiv (nth (nth p (flat_map f l) 0) ops msg_one) (msg_mul (nth (nth p l 0) ops msg_one) o0)) as Hfl.
  { induction l as [|i l IH]; intros Hl; [cbn; split; [auto|intros; lia]|].
    destruct (Hf i ltac:(apply Hl; left; auto)) as (j & Ej & Lj & Mj).
    destruct (IH ltac:(intros; apply Hl; right; auto)) as [H1 H2].
    cbn [flat_map]. rewrite Ej. cbn. split; [lia|]. intros [|p] Hp; [auto|apply H2; lia]. }
  destruct (Hfl xsg (fun i H => H)) as [Hlen Hp].
  assert (StronglySorted Nat.lt xsg) as Hsort by apply (filter_map_fst_sorted _ ops 0).
  exists xsg, (flat_map f xsg), a0. rewrite E0.
  split; [reflexivity|]. split; [auto|]. split; [apply xsg_indices_spec|].
  split; [auto|]. split; [auto|]. split.
  { intros i Hi. destruct (nth_error_lt ops i ltac:(lia)) as [o Ho].
    rewrite (nth_error_nth _ _ _ Ho). eapply Hfirst; eauto. }
  split; [auto|]. split; [auto|].
  (* partition *)
  assert (forall j, In j (flat_map f xsg) -> j < length ops /\ mop_tr (nth j ops msg_one) = true) as Htri.
  { intros j Hj. apply (In_nth_lt _ _ 0) in Hj. destruct Hj as (p & Lp & <-). rewrite Hlen in Lp.
    destruct (Hp p Lp) as [H1 H2]. split; auto. rewrite (msg_equiv_tr _ _ H2), msg_mul_tr, Ht0.
    assert (In (nth p xsg 0) xsg) as Hx by (apply nth_In; auto).
    apply xsg_indices_spec in Hx. destruct Hx as [_ ->]. reflexivity. }
  apply NoDup_Permutation.
  - assert (NoDup (flat_map f xsg)) as Hnd.
    { apply (NoDup_nth _ 0). intros p q Lp Lq E. rewrite Hlen in Lp, Lq.
      destruct (Hp p Lp) as [_ H1]. destruct (Hp q Lq) as [_ H2]. rewrite E in H1.
      assert (msg_equiv (msg_mul (nth (nth p xsg 0) ops msg_one) o0)
                        (msg_mul (nth (nth q xsg 0) ops msg_one) o0)) as H3
        by (eapply msg_equiv_trans; [apply msg_equiv_sym; exact H1|exact H2]).
      destruct (ms_inv _ MG _ Hin0) as (b & Hb & Eb).
      assert (forall x, msg_equiv (msg_mul (msg_mul x o0) b) x) as K.
      { intros x. eapply msg_equiv_trans; [apply msg_equiv_sym, msg_mul_assoc|].
        eapply msg_equiv_trans; [apply msg_mul_equiv; [apply msg_equiv_refl|exact Eb]|apply msg_mul_1r]. }
      assert (msg_equiv (nth (nth p xsg 0) ops msg_one) (nth (nth q xsg 0) ops msg_one)) as H4.
      { eapply msg_equiv_trans; [apply msg_equiv_sym, K|]. eapply msg_equiv_trans; [|apply K].
        apply msg_mul_equiv; auto using msg_equiv_refl. }
      assert (In (nth p xsg 0) xsg) as X1 by (apply nth_In; auto).
      assert (In (nth q xsg 0) xsg) as X2 by (apply nth_In; auto).
      apply xsg_indices_spec in X1, X2.
      apply (ms_distinct _ MG) in H4; try tauto.
      apply (NoDup_nth xsg 0); auto. apply sorted_NoDup; auto. }
    assert (NoDup xsg) as Hx by (apply sorted_NoDup; auto).
    clear - Hnd Hx Htri. 
    assert (forall i, In i xsg -> ~ In i (flat_map f xsg)) as Hdis.
    { intros i Hi Hc. apply xsg_indices_spec in Hi. apply Htri in Hc. destruct Hi, Hc; congruence. }
    revert Hx Hdis. generalize xsg at 1 2 4. intros l. induction l as [|a l IH]; intros Hx Hdis; auto.
    inversion Hx; subst. cbn. constructor.
    + rewrite in_app_iff. intros [?|?]; [auto|]. apply (Hdis a); [left; auto|auto].
    + apply IH; auto. intros i Hi. apply Hdis. right; auto.
  - apply seq_NoDup.
  - intros j. rewrite in_app_iff, in_seq. split.
    + intros [H|H]; [apply xsg_indices_spec in H|apply Htri in H]; lia.
    + intros [_ Hj]. cbn in Hj. destruct (mop_tr (nth j ops msg_one)) eqn:Etr.
      2:{ left. apply xsg_indices_spec. auto. }
      right. assert (In (nth j ops msg_one) ops) as Hjj by (apply nth_In; auto).
      destruct (ms_inv _ MG _ Hin0) as (b & Hb & Eb).
      destruct (ms_mul _ MG _ _ Hjj Hb) as (c & Hc & Ec).
      destruct (In_nth_lt _ _ msg_one Hc) as (i & Li & Ei). change (@nth mop i ops msg_one = c) in Ei.
      assert (mop_tr b = true) as Htb.
      { pose proof (msg_equiv_tr _ _ Eb) as T. rewrite msg_mul_tr, Ht0 in T. destruct (mop_tr b); auto; discriminate. }
      assert (In i xsg) as Hi.
      { apply xsg_indices_spec. split; auto. rewrite Ei, (msg_equiv_tr _ _ Ec), msg_mul_tr, Etr, Htb. reflexivity. }
      destruct (Hf i Hi) as (j' & Ej' & Lj' & Mj').
      assert (j' = j) as ->.
      { apply (ms_distinct _ MG); auto. eapply msg_equiv_trans; [exact Mj'|]. rewrite Ei.
        eapply msg_equiv_trans; [apply msg_mul_equiv; [exact Ec|apply msg_equiv_refl]|].
        eapply msg_equiv_trans; [apply msg_equiv_sym, msg_mul_assoc|].
        eapply msg_equiv_trans; [apply msg_mul_equiv; [apply msg_equiv_refl|]|apply msg_mul_1r].
        apply msg_inv_comm; auto. }
      apply in_flat_map. exists i. split; auto. rewrite Ej'. left; auto.
Qed.
End Xsg.

(** None is returned exactly when every flag is 1. *)
Lemma decompose_None ops : decompose_by_maximal_space_subgroup ops = Ret None <-> forall o, In o ops -> mop_tr o = true.
Proof.
  unfold decompose_by_maximal_space_subgroup. destruct (forallb mop_tr ops) eqn:E.
  - split; [intros _; apply forallb_forall; auto|auto].
  - split.
    + destruct (find_index mop_tr ops); discriminate.
    + intros H. apply forallb_forall in H. congruence.
Qed.
Lemma decompose_type1 ops : ops <> [] -> (forall o, In o ops -> mop_tr o = false) ->
  decompose_by_maximal_space_subgroup ops = Raise TypeError.
Proof.
  intros Hne H. unfold decompose_by_maximal_space_subgroup. destruct ops as [|o l]; [congruence|].
  assert (find_index mop_tr (o :: l) = None) as ->.
  { apply find_index_None. intros; apply H; auto. }
  cbn. rewrite (H o ltac:(left; auto)). reflexivity.
Qed.
