(** Property theorems C01-C12 (group.py).  Statements use GroupSpec.v only besides the
    modelled functions themselves. *)
From Coq Require Import List Arith ZArith QArith Qabs Bool Sorting Permutation Lia.
From Verif Require Import Py Mat3 GroupModel GroupSpec GroupProofs SpaceGroupProofs GroupProofs2.
Import ListNotations.

(* ---------- concrete data for the examples ---------- *)
Definition c4 : mat := Mat 0 (-1) 0 1 0 0 0 0 1.
Definition c4_group : list mat := [mid; c4; mmul c4 c4; mmul c4 (mmul c4 c4)].
Definition mx : mat := Mat (-1) 0 0 0 1 0 0 0 1.
Definition c4v_group : list mat := c4_group ++ map (mmul mx) c4_group.
(** P4_1: screw axis along z. *)
Definition p41_trans : list vec := [vzero; Vec 0 0 (1#4); Vec 0 0 (1#2); Vec 0 0 (3#4)].
Definition k_zone : vec := Vec (1#2) (1#2) (1#2).
(** A magnetic space group with anti-translation (type IV): black-white P4_1. *)
Definition p41_magnetic : list (mat * vec * bool) :=
  map (fun x => (fst x, snd x, false)) (combine c4_group p41_trans) ++
  map (fun x => (fst x, vadd (snd x) (Vec (1#2) (1#2) 0), true)) (combine c4_group p41_trans).

(* ---------- C01 ---------- *)
Theorem C01_cayley_entries : forall (ops : list (mat * bool)) t,
  get_cayley_table_ops ops = Ret t ->
  length t = length ops /\
  (forall i, i < length ops -> length (nth i t []) = length ops) /\
  (forall i j oi oj, nth_error ops i = Some oi -> nth_error ops j = Some oj ->
     tget t i j < length ops /\
     nth_error ops (tget t i j) = Some (mag_mul oi oj) /\
     (forall m, m < tget t i j -> nth_error ops m <> Some (mag_mul oi oj))).
Proof. exact cayley_spec. Qed.
Print Assumptions C01_cayley_entries.
Theorem C01_cayley_entries_rotations : forall rots t,
  get_cayley_table rots = Ret t ->
  length t = length rots /\
  (forall i, i < length rots -> length (nth i t []) = length rots) /\
  (forall i j, i < length rots -> j < length rots -> tget t i j < length rots /\
     nth (tget t i j) rots mid = mmul (nth i rots mid) (nth j rots mid) /\
     forall m, m < tget t i j -> nth m rots mid <> mmul (nth i rots mid) (nth j rots mid)).
Proof. exact cayley_rot_spec. Qed.
Print Assumptions C01_cayley_entries_rotations.
Example C01_example : get_cayley_table c4_group = Ret [[0;1;2;3];[1;2;3;0];[2;3;0;1];[3;0;1;2]].
Proof. reflexivity. Qed.

(* ---------- C02 ---------- *)
Theorem C02_cayley_raises_iff : forall (ops : list (mat * bool)) e,
  get_cayley_table_ops ops = Raise e <->
  e = ValueError /\ exists a b, In a ops /\ In b ops /\ ~ In (mag_mul a b) ops.
Proof. exact cayley_raises. Qed.
Print Assumptions C02_cayley_raises_iff.
Theorem C02_cayley_total : forall (ops : list (mat * bool)),
  (forall a b, In a ops -> In b ops -> In (mag_mul a b) ops) ->
  exists t, get_cayley_table_ops ops = Ret t.
Proof. exact cayley_total. Qed.
Print Assumptions C02_cayley_total.
Example C02_example_raises : get_cayley_table [mid; c4] = Raise ValueError.
Proof. reflexivity. Qed.

(* ---------- C03 ---------- *)
Theorem C03_group_table : forall (ops : list (mat * bool)),
  lists_magnetic_group ops ->
  exists t e, get_cayley_table_ops ops = Ret t /\ nth_error ops e = Some (mid, false) /\
    group_law (length ops) (tget t) e /\
    (forall i, i < length ops -> Permutation (nth i t []) (seq 0 (length ops))) /\
    (forall j, j < length ops ->
       Permutation (map (fun i => tget t i j) (seq 0 (length ops))) (seq 0 (length ops))).
Proof.
  intros ops G. destruct (C02_cayley_total ops (mg_mul _ G)) as [t Ht].
  destruct (In_nth_error _ _ (mg_id _ G)) as [e He].
  pose proof (cayley_group_law ops t e G Ht He) as L.
  exists t, e. split; auto. split; auto. split; auto. split.
  - intros i Hi. destruct (C01_cayley_entries ops t Ht) as (H1 & H2 & _).
    assert (nth i t [] = map (tget t i) (seq 0 (length ops))) as ->; [|apply (row_perm _ _ _ L i Hi)].
    apply nth_ext with (d := 0) (d' := tget t i 0); [rewrite map_length, seq_length; auto|].
    intros p Hp. rewrite H2 in Hp by auto.
    rewrite (map_nth (tget t i)), seq_nth by auto. reflexivity.
  - intros j Hj. eapply col_perm; eauto.
Qed.
Print Assumptions C03_group_table.
Theorem C03_group_table_rotations : forall rots, lists_group rots ->
  exists t e, get_cayley_table rots = Ret t /\ e < length rots /\ nth e rots mid = mid /\
    group_law (length rots) (tget t) e.
Proof.
  intros rots G. destruct (cayley_rot_total rots (lg_mul _ G)) as [t Ht].
  destruct (In_nth_lt _ _ mid (lg_id _ G)) as (e & He & Ee).
  exists t, e. repeat split; auto; eapply cayley_rot_group_law; eauto.
Qed.
Print Assumptions C03_group_table_rotations.
Example C03_hypothesis_met : lists_group c4v_group.
Proof. apply group_check_sound. vm_compute. reflexivity. Qed.
Example C03_hypothesis_met_magnetic :
  lists_magnetic_group (ops_of_rotations c4v_group).
Proof. apply lists_group_mag, C03_hypothesis_met. Qed.

(* ---------- C04 ---------- *)
Theorem C04_identity_index : forall rots t, lists_group rots -> get_cayley_table rots = Ret t ->
  exists e, get_identity_index t = Ret e /\ e < length rots /\ nth e rots mid = mid /\
    (forall i, i < length rots -> nth i rots mid = mid -> i = e).
Proof.
  intros rots t G Ht. destruct (In_nth_lt _ _ mid (lg_id _ G)) as (e & He & Ee).
  exists e. split; [|split; [auto|split; auto]].
  - apply (identity_index_correct (length rots)); [eapply cayley_wf; eauto|eapply cayley_rot_group_law; eauto].
  - intros i Hi Ei. apply (NoDup_nth rots mid); auto; [apply G|congruence].
Qed.
Print Assumptions C04_identity_index.
Example C04_example : get_cayley_table (rev c4_group) <> Raise ValueError /\
  bind (get_cayley_table (rev c4_group)) get_identity_index = Ret 3.
Proof. split; [discriminate|reflexivity]. Qed.

(* ---------- C05 ---------- *)
Theorem C05_inverse_index : forall rots t idx, lists_group rots -> get_cayley_table rots = Ret t ->
  idx < length rots ->
  exists i, get_inverse_index t idx = Ret i /\ i < length rots /\
    mmul (nth idx rots mid) (nth i rots mid) = mid /\ mmul (nth i rots mid) (nth idx rots mid) = mid /\
    (forall i', i' < length rots -> mmul (nth idx rots mid) (nth i' rots mid) = mid -> i' = i).
Proof.
  intros rots t idx G Ht Hidx. destruct (In_nth_lt _ _ mid (lg_id _ G)) as (e & He & Ee).
  pose proof (cayley_rot_group_law rots t e G Ht He Ee) as L.
  destruct (inverse_index_correct (length rots) t e idx (cayley_wf _ _ Ht) L Hidx) as (i & E & Hi & A & B).
  destruct (C01_cayley_entries_rotations rots t Ht) as (_ & _ & H3).
  exists i. split; auto. split; auto.
  destruct (H3 idx i Hidx Hi) as (_ & X & _). destruct (H3 i idx Hi Hidx) as (_ & Y & _).
  rewrite A, Ee in X. rewrite B, Ee in Y. split; auto. split; auto.
  intros i' Hi' E'. apply (gl_inv_unique _ _ _ L idx i' i); auto.
  destruct (H3 idx i' Hidx Hi') as (L1 & Z & _). rewrite E' in Z.
  apply (NoDup_nth rots mid); auto; [apply G|congruence].
Qed.
Print Assumptions C05_inverse_index.
Example C05_example : bind (get_cayley_table c4v_group) (fun t => get_inverse_index t 1) = Ret 3.
Proof. reflexivity. Qed.

(** The same for the table of any finite group, such as a magnetic point group. *)
Theorem C04_C05_any_group_table : forall n t e, wf_table n t -> group_law n (tget t) e ->
  get_identity_index t = Ret e /\
  forall idx, idx < n -> exists i, get_inverse_index t idx = Ret i /\ i < n /\
    tget t idx i = e /\ tget t i idx = e /\ (forall i', i' < n -> tget t idx i' = e -> i' = i).
Proof.
  intros n t e W G. split; [exact (identity_index_correct n t e W G)|]. intros idx Hidx.
  destruct (inverse_index_correct n t e idx W G Hidx) as (i & H1 & H2 & H3 & H4).
  exists i. repeat split; auto. intros i' Hi' H.
  transitivity (tget t e i'); [symmetry; apply G; auto|].
  rewrite <- H4, <- (gl_assoc _ _ _ G), H; auto. apply G; auto.
Qed.
Print Assumptions C04_C05_any_group_table.

(* ---------- C06 ---------- *)
(** Powers of an integer matrix, for the statement only. *)
Fixpoint matpow (a : mat) (k : nat) : mat := match k with O => mid | S k' => mmul (matpow a k') a end.
Lemma mpow_matpow rots t e idx k : lists_group rots -> get_cayley_table rots = Ret t ->
  e < length rots -> nth e rots mid = mid -> idx < length rots ->
  nth (mpow (tget t) e idx k) rots mid = matpow (nth idx rots mid) k.
Proof.
  intros G Ht He Ee Hidx. pose proof (cayley_rot_group_law rots t e G Ht He Ee) as L.
  destruct (C01_cayley_entries_rotations rots t Ht) as (_ & _ & H3).
  induction k; cbn [mpow matpow]; auto.
  destruct (H3 (mpow (tget t) e idx k) idx (mpow_lt _ _ _ L idx k Hidx) Hidx) as (_ & -> & _).
  rewrite IHk; reflexivity.
Qed.
Theorem C06_order : forall rots t idx, lists_group rots -> get_cayley_table rots = Ret t ->
  idx < length rots ->
  exists d, get_order_fuel (length rots) t idx = Ret (Some d) /\
    1 <= d <= length rots /\ matpow (nth idx rots mid) d = mid /\
    (forall d', 1 <= d' -> d' < d -> matpow (nth idx rots mid) d' <> mid) /\
    Nat.divide d (length rots) /\
    (forall fuel, length rots <= fuel -> get_order_fuel fuel t idx = Ret (Some d)) /\
    get_order t idx = d.
Proof.
  intros rots t idx G Ht Hidx. destruct (In_nth_lt _ _ mid (lg_id _ G)) as (e & He & Ee).
  pose proof (cayley_rot_group_law rots t e G Ht He Ee) as L.
  pose proof (cayley_wf _ _ Ht) as W.
  destruct (get_order_terminates (length rots) t e idx W L Hidx) as (d & E & O & Hd).
  assert (length t = length rots) as Hlen by (destruct (C01_cayley_entries_rotations rots t Ht); auto).
  exists d. split; auto. destruct O as (O1 & O2 & O3) eqn:EO. split; [lia|].
  split; [|split; [|split; [|split]]].
  - rewrite <- (mpow_matpow rots t e idx d); auto. rewrite O2; auto.
  - intros d' H1 H2 Hc. apply (O3 d' H1 H2). apply (NoDup_nth rots mid); [apply G| |auto|].
    + eapply mpow_lt; eauto.
    + rewrite (mpow_matpow rots t e idx d'); auto. congruence.
  - eapply element_order_divides; [exact L|exact Hidx|]. exact (conj O1 (conj O2 O3)).
  - intros fuel Hf. unfold get_order_fuel in *. rewrite (identity_index_correct (length rots) t e W L) in *.
    cbn [bind] in *. injection E as E. f_equal. eapply order_loop_mono; [|exact E]. exact Hf.
  - unfold get_order. rewrite Hlen, E. reflexivity.
Qed.
Print Assumptions C06_order.
Theorem C06_any_group_table : forall n t e idx, wf_table n t -> group_law n (tget t) e -> idx < n ->
  exists d, get_order_fuel n t idx = Ret (Some d) /\ 1 <= d <= n /\ mpow (tget t) e idx d = e /\
    (forall d', 1 <= d' -> d' < d -> mpow (tget t) e idx d' <> e) /\ Nat.divide d n /\
    (forall fuel, n <= fuel -> get_order_fuel fuel t idx = Ret (Some d)) /\ get_order t idx = d.
Proof.
  intros n t e idx W G Hidx. destruct (get_order_terminates n t e idx W G Hidx) as (d & E & O & Hd).
  exists d. split; auto. destruct O as (O1 & O2 & O3) eqn:EO. split; [lia|].
  split; [exact O2|split; [exact O3|split; [|split]]].
  - eapply element_order_divides; [exact G|exact Hidx|]. exact (conj O1 (conj O2 O3)).
  - intros fuel Hf. unfold get_order_fuel in *. rewrite (identity_index_correct n t e W G) in *.
    cbn [bind] in *. injection E as E. f_equal. eapply order_loop_mono; [|exact E]. exact Hf.
  - unfold get_order. destruct W as [Hl _]. rewrite Hl, E. reflexivity.
Qed.
Print Assumptions C06_any_group_table.
(** The loop runs for ever on a table that is not a group table (here: identity row 0, but
    powers of 1 cycle 1 -> 2 -> 1). *)
Theorem C06_non_group_diverges_refuted : exists t idx, forall fuel,
  get_order_fuel fuel t idx = Ret None.
Proof.
  exists [[0;1;2];[1;2;0];[2;1;0]], 1. intros fuel. unfold get_order_fuel.
  cbn [bind]. change (get_identity_index _) with (Ret 0 : pyres nat). cbn [bind]. f_equal.
  assert (forall r, order_loop fuel [[0;1;2];[1;2;0];[2;1;0]] 1 0 1 r = None /\
                    order_loop fuel [[0;1;2];[1;2;0];[2;1;0]] 1 0 2 r = None) as H; [|apply H].
  induction fuel as [|f IH]; intros r; cbn; [auto|]. split; apply IH.
Qed.
Print Assumptions C06_non_group_diverges_refuted.
Example C06_example : bind (get_cayley_table c4v_group) (fun t => get_order_fuel 8 t 1) = Ret (Some 4).
Proof. reflexivity. Qed.

(* ---------- C07 ---------- *)
Theorem C07_is_matrix_group_iff : forall rots, rots <> [] ->
  (forall r, In r rots -> mdet r <> 0%Z) ->
  (is_matrix_group rots = true <-> lists_group rots).
Proof. exact is_matrix_group_iff. Qed.
Print Assumptions C07_is_matrix_group_iff.
(** Without invertibility the docstring's "iff" is false: two singular idempotents. *)
Theorem C07_singular_refuted : exists rots, is_matrix_group rots = true /\ ~ lists_group rots.
Proof.
  exists [Mat 1 0 0 0 0 0 0 0 0; Mat 1 1 0 0 0 0 0 0 0].
  split; [vm_compute; reflexivity|]. intros G. pose proof (lg_id _ G) as [H|[H|[]]]; discriminate.
Qed.
Print Assumptions C07_singular_refuted.
Theorem C07_empty_refuted : is_matrix_group [] = true /\ ~ lists_group [].
Proof. split; [reflexivity|]. intros G. destruct (lg_id _ G). Qed.
Print Assumptions C07_empty_refuted.
Example C07_example : is_matrix_group c4v_group = true /\ is_matrix_group [mid; c4] = false.
Proof. split; reflexivity. Qed.

(* ---------- C08 ---------- *)
Theorem C08_check_cocycle_iff : forall (F : Type) (mulF : F -> F -> F) closeF rots fs,
  (forall x y, closeF x y = true <-> x = y) -> rots <> [] -> (forall r, In r rots -> mdet r <> 0%Z) ->
  (exists b, check_cocycle_condition mulF closeF rots fs = Ret b) /\
  (check_cocycle_condition mulF closeF rots fs = Ret true <->
   lists_group rots /\
   forall i j k ij jk, i < length rots -> j < length rots -> k < length rots ->
     ij < length rots -> jk < length rots ->
     nth ij rots mid = mmul (nth i rots mid) (nth j rots mid) ->
     nth jk rots mid = mmul (nth j rots mid) (nth k rots mid) ->
     mulF (fs i jk) (fs j k) = mulF (fs ij k) (fs i j)).
Proof. exact @check_cocycle_iff. Qed.
Print Assumptions C08_check_cocycle_iff.
Example C08_example :
  check_cocycle_condition Z.mul Z.eqb c4_group (fun i j => if Nat.ltb 3 (i + j) then (-1)%Z else 1%Z) = Ret true /\
  check_cocycle_condition Z.mul Z.eqb c4_group (fun i j => if Nat.eqb i j then (-1)%Z else 1%Z) = Ret false.
Proof. split; vm_compute; reflexivity. Qed.

(* ---------- C09 ---------- *)
Definition within_of_integer (atol q : Q) : Prop := exists z, (Qabs (q - inject_Z z) <= atol)%Q.
Definition nearly_fixes (atol : Q) (k : vec) (r : mat) : Prop :=
  let g := vsub (mtvec r k) k in
  within_of_integer atol (v1 g) /\ within_of_integer atol (v2 g) /\ within_of_integer atol (v3 g).
Theorem C09_little_group : forall rots trans k atol lr lt lm,
  length trans = length rots ->
  get_little_group rots trans k atol = (lr, lt, lm) ->
  StronglySorted Nat.lt lm /\
  (forall i, In i lm <-> i < length rots /\ nearly_fixes atol k (nth i rots mid)) /\
  lr = map (fun i => nth i rots mid) lm /\ lt = map (fun i => nth i trans vzero) lm.
Proof.
  intros rots trans k atol lr lt lm Hl H.
  destruct (little_group_spec _ _ _ _ _ _ _ Hl H) as (H1 & H2 & H3).
  split; auto. split; auto. intros i. rewrite H2, keeps_kpoint_iff. reflexivity.
Qed.
Print Assumptions C09_little_group.
Example C09_example : get_little_group c4v_group (map (fun _ => vzero) c4v_group) (Vec (1#3) 0 0) (1#100000000)
  = ([mid; mmul mx (mmul c4 c4)], [vzero; vzero], [0; 6]).
Proof. vm_compute. reflexivity. Qed.

(* ---------- C10 ---------- *)
Theorem C10_little_cogroup : forall rots trans k atol D lr lt lm,
  lists_space_group rots trans -> has_denominator D k -> (0 <= atol)%Q ->
  (inject_Z (Zpos D) * atol < 1)%Q ->
  get_little_group rots trans k atol = (lr, lt, lm) ->
  lists_space_group lr lt /\ (forall r, In r lr <-> In r rots /\ fixes_kpoint k r).
Proof. exact little_is_space_group. Qed.
Print Assumptions C10_little_cogroup.
Theorem C10_mod_reciprocal_lattice : forall rots trans k g atol, vint g ->
  get_little_group rots trans (vadd k g) atol = get_little_group rots trans k atol.
Proof.
  intros rots trans k g atol Hg. unfold get_little_group, little_entries.
  erewrite filter_ext; [reflexivity|]. intros [i [r t]]. cbn. apply keeps_kpoint_shift; auto.
Qed.
Print Assumptions C10_mod_reciprocal_lattice.
(** With a tolerance that is not small against 1/D the kept rotations need not be closed. *)
Theorem C10_large_tolerance_refuted : exists rots trans k atol lr lt lm a b,
  lists_space_group rots trans /\ (0 <= atol)%Q /\ get_little_group rots trans k atol = (lr, lt, lm) /\
  In a lr /\ In b lr /\ ~ In (mmul a b) lr.
Proof.
  exists c4_group, p41_trans, (Vec (1#5) 0 0), (1#4)%Q.
  remember (get_little_group c4_group p41_trans (Vec (1#5) 0 0) (1#4)) as r eqn:E.
  vm_compute in E. destruct r as [[lr lt] lm]. exists lr, lt, lm, c4, c4.
  split; [apply space_group_check_sound; vm_compute; reflexivity|].
  split; [discriminate|]. split; [reflexivity|]. injection E as -> -> ->.
  split; [cbn; auto|]. split; [cbn; auto|]. cbn. intuition discriminate.
Qed.
Print Assumptions C10_large_tolerance_refuted.
Example C10_hypotheses_met : lists_space_group c4_group p41_trans /\ has_denominator 2 k_zone.
Proof.
  split; [apply space_group_check_sound; vm_compute; reflexivity|].
  repeat split; apply qintb_sound; reflexivity.
Qed.

(* ---------- C11 (exponents; the complex-number form is in ClaimsFactor.v) ---------- *)
Theorem C11_phase_cocycle : forall rots trans k,
  lists_space_group rots trans -> (forall r, In r rots -> fixes_kpoint k r) ->
  forall i j l ij jl,
  i < length rots -> j < length rots -> l < length rots -> ij < length rots -> jl < length rots ->
  nth ij rots mid = mmul (nth i rots mid) (nth j rots mid) ->
  nth jl rots mid = mmul (nth j rots mid) (nth l rots mid) ->
  qint (factor_phase rots trans k i jl + factor_phase rots trans k j l
        - (factor_phase rots trans k ij l + factor_phase rots trans k i j)).
Proof. exact phase_cocycle. Qed.
Print Assumptions C11_phase_cocycle.
Theorem C11_phase_normalised : forall rots trans k,
  lists_space_group rots trans -> (forall r, In r rots -> fixes_kpoint k r) ->
  forall i j, i < length rots -> j < length rots ->
  (nth i rots mid = mid -> (factor_phase rots trans k i j == 0)%Q) /\
  (nth j rots mid = mid -> qint (factor_phase rots trans k i j)).
Proof.
  intros rots trans k SG FK i j Hi Hj. split; intros E.
  - apply phase_identity_l; auto.
  - eapply phase_identity_r; eauto.
Qed.
Print Assumptions C11_phase_normalised.
(** P4_1 at (1/2,1/2,1/2): a little group with a non-trivial factor system at X. *)
Example C11_hypotheses_met : lists_space_group c4_group p41_trans /\
  (forall r, In r c4_group -> fixes_kpoint k_zone r) /\
  (factor_phase c4_group p41_trans (Vec (1#2) (1#2) 0) 1 1 == 0)%Q.
Proof.
  split; [apply C10_hypotheses_met|]. split; [|reflexivity].
  intros r [<-|[<-|[<-|[<-|[]]]]]; apply vintb_sound; reflexivity.
Qed.
(** Inversion with a glide: a case with phase exactly 1/2. *)
Definition pi_group : list mat := [mid; mneg mid].
Definition p21c_group : list mat := [mid; mneg mid; Mat (-1) 0 0 0 1 0 0 0 (-1); Mat 1 0 0 0 (-1) 0 0 0 1].
Definition p21c_trans : list vec := [vzero; vzero; Vec 0 (1#2) (1#2); Vec 0 (1#2) (1#2)].
Example C11_nontrivial : lists_space_group p21c_group p21c_trans /\
  (forall r, In r p21c_group -> fixes_kpoint (Vec 0 (1#2) 0) r) /\
  (factor_phase p21c_group p21c_trans (Vec 0 (1#2) 0) 1 2 == -(1#2))%Q.
Proof.
  split; [apply space_group_check_sound; vm_compute; reflexivity|]. split; [|reflexivity].
  intros r [<-|[<-|[<-|[<-|[]]]]]; apply vintb_sound; reflexivity.
Qed.

(* ---------- C12 ---------- *)
Theorem C12_coset_decomposition : forall ops D,
  lists_magnetic_space_group ops -> translations_over D ops ->
  (inject_Z (Zpos D) * (1 # 100000000) < 1)%Q ->
  (exists o, In o ops /\ snd o = true) ->
  exists xsg tri a0,
    decompose_by_maximal_space_subgroup ops = Ret (Some (xsg, tri, a0)) /\
    StronglySorted Nat.lt xsg /\
    (forall i, In i xsg <-> i < length ops /\ snd (nth i ops msg_one) = false) /\
    a0 < length ops /\ snd (nth a0 ops msg_one) = true /\
    (forall i, i < a0 -> snd (nth i ops msg_one) = false) /\
    length tri = length xsg /\
    (forall p, p < length xsg -> nth p tri 0 < length ops /\
       msg_equiv (nth (nth p tri 0) ops msg_one)
                 (msg_mul (nth (nth p xsg 0) ops msg_one) (nth a0 ops msg_one))) /\
    Permutation (xsg ++ tri) (seq 0 (length ops)).
Proof. exact xsg_decomposition. Qed.
Print Assumptions C12_coset_decomposition.
(** The documented "type I returns None": None is returned iff all flags are 1 ... *)
Theorem C12_None_iff : forall ops,
  decompose_by_maximal_space_subgroup ops = Ret None <-> forall o, In o ops -> snd o = true.
Proof. exact decompose_None. Qed.
Print Assumptions C12_None_iff.
(** ... and a type-I group (all flags 0, as in the rest of the package) raises. *)
Theorem C12_type1_refuted : forall ops, ops <> [] -> (forall o, In o ops -> snd o = false) ->
  decompose_by_maximal_space_subgroup ops = Raise TypeError.
Proof. exact decompose_type1. Qed.
Print Assumptions C12_type1_refuted.

Definition msg_equivb (a b : mat * vec * bool) : bool :=
  let '(ra, ta, sa) := a in let '(rb, tb, sb) := b in
  meqb ra rb && vintb (vsub ta tb) && Bool.eqb sa sb.
Lemma msg_equivb_sound a b : msg_equivb a b = true -> msg_equiv a b.
Proof.
  destruct a as [[ra ta] sa], b as [[rb tb] sb]. cbn. rewrite !andb_true_iff, meqb_eq, Bool.eqb_true_iff.
  intros ((-> & H) & ->). split; auto. split; auto. apply vintb_sound; auto.
Qed.
Example C12_hypotheses_met : lists_magnetic_space_group p41_magnetic /\ translations_over 4 p41_magnetic /\
  (exists o, In o p41_magnetic /\ snd o = true) /\
  decompose_by_maximal_space_subgroup p41_magnetic = Ret (Some ([0;1;2;3], [4;5;6;7], 4)).
Proof.
  split; [|split; [|split; [eexists; split; [right; right; right; right; left; reflexivity|reflexivity]|vm_compute; reflexivity]]].
  - constructor.
    + intros i j Hi Hj H.
      assert (forall (A : bool), A = true -> A = true) as _ by auto.
      assert (forallb (fun i => forallb (fun j => Nat.eqb i j ||
        negb (meqb (fst (fst (nth i p41_magnetic msg_one))) (fst (fst (nth j p41_magnetic msg_one))) &&
              Bool.eqb (snd (nth i p41_magnetic msg_one)) (snd (nth j p41_magnetic msg_one))))
        (seq 0 8)) (seq 0 8) = true) as K by (vm_compute; reflexivity).
      rewrite forallb_forall in K. specialize (K i ltac:(apply in_seq; cbn in Hi; lia)).
      rewrite forallb_forall in K. specialize (K j ltac:(apply in_seq; cbn in Hj; lia)).
      destruct (nth i p41_magnetic msg_one) as [[ra ta] sa], (nth j p41_magnetic msg_one) as [[rb tb] sb].
      destruct H as (-> & _ & ->). cbn [fst snd] in K. rewrite meqb_refl, Bool.eqb_reflx in K.
      rewrite orb_false_r in K. apply Nat.eqb_eq; auto.
    + exists msg_one. split; [left; reflexivity|apply msg_equivb_sound; reflexivity].
    + intros a b Ha Hb.
      assert (forallb (fun a => forallb (fun b => existsb (fun c => msg_equivb c (msg_mul a b)) p41_magnetic) p41_magnetic) p41_magnetic = true) as K by (vm_compute; reflexivity).
      rewrite forallb_forall in K. specialize (K a Ha). rewrite forallb_forall in K. specialize (K b Hb).
      apply existsb_exists in K. destruct K as (c & Hc & E). exists c. split; auto. apply msg_equivb_sound; auto.
    + intros a Ha.
      assert (forallb (fun a => existsb (fun c => msg_equivb (msg_mul a c) msg_one) p41_magnetic) p41_magnetic = true) as K by (vm_compute; reflexivity).
      rewrite forallb_forall in K. specialize (K a Ha). 
      apply existsb_exists in K. destruct K as (c & Hc & E). exists c. split; auto. apply msg_equivb_sound; auto.
  - intros a Ha.
    assert (forallb (fun a => qintb (4 * v1 (snd (fst a))) && qintb (4 * v2 (snd (fst a))) && qintb (4 * v3 (snd (fst a)))) p41_magnetic = true) as K by (vm_compute; reflexivity).
    rewrite forallb_forall in K. specialize (K a Ha). rewrite !andb_true_iff in K.
    destruct K as ((?&?)&?). repeat split; apply qintb_sound; auto.
Qed.
