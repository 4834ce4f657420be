(** Property theorems C17-C19 (pointgroup.py). *)
From Coq Require Import List Arith ZArith Znumtheory QArith Bool String Lia Permutation.
From Verif Require Import Py Mat3 MatQ GroupModel GroupSpec GroupProofs GroupProofs2
  PointGroupData PointGroupModel PointGroupSpec ChainSpec ChainProofs PointGroupProofs.
Import ListNotations.

(* ---------- C17 ---------- *)
(** The domain is the finite table itself: every symbol, every setting. *)
Theorem C17_point_group_tables :
  map fst pg_dataset = map fst point_groups /\ List.length point_groups = 32%nat /\
  forall sym settings idx l,
    dict_get pg_dataset sym = Ret settings -> nth_error settings idx = Some l ->
    lists_group l /\ nth_error l 0 = Some mid /\ (forall r, In r l -> mdet r = 1 \/ mdet r = -1)%Z /\
    exists c, dict_get point_groups sym = Ret c /\ map (fun t => type_count t l) rotation_types = c /\
      List.length l = fold_right Nat.add 0%nat c.
Proof. split; [apply symbols_ok|]. split; [reflexivity|]. exact setting_facts. Qed.
Print Assumptions C17_point_group_tables.
Example C17_example : exists l, bind (dict_get pg_dataset "m-3m") (fun s => list_get s 0) = Ret l /\ List.length l = 48%nat.
Proof. eexists. split; [vm_compute; reflexivity|reflexivity]. Qed.

(* ---------- C18 ---------- *)
Theorem C18_generators_normal_series : forall sym settings idx l,
  dict_get pg_dataset sym = Ret settings -> nth_error settings idx = Some l ->
  exists gens t, get_generators sym idx = Some (Ret gens) /\ get_cayley_table l = Ret t /\
    (forall g, In g gens -> (g < List.length l)%nat) /\
    chain_of_group (List.length l) (tget t) 0 gens.
Proof. exact chain_facts. Qed.
Print Assumptions C18_generators_normal_series.
Example C18_example : get_generators "m-3m" 0 = Some (Ret [24; 12; 4; 2; 1]%nat).
Proof. reflexivity. Qed.

(* ---------- C19 ---------- *)
Theorem C19_chain_any_basis_and_order : forall sym P rots settings,
  ~ (qdet P == 0)%Q -> lists_group rots ->
  (forall r, In r rots -> qintegral (qmul (qmul (qinv P) (qofz r)) P)) ->
  dict_get pg_dataset sym = Ret settings ->
  (exists std, In std settings /\ Permutation std (map (conj_round P) rots)) ->
  exists gens t e, get_pointgroup_chain_generators sym P rots = Some (Ret gens) /\
    get_cayley_table rots = Ret t /\ (e < List.length rots)%nat /\ nth e rots mid = mid /\
    (forall g, In g gens -> (g < List.length rots)%nat) /\
    chain_of_group (List.length rots) (tget t) e gens.
Proof. exact chain_generators_correct. Qed.
Print Assumptions C19_chain_any_basis_and_order.
(** When no setting matches, no exception is raised and [] is returned: the documented
    normal series does not exist for the caller's non-trivial group. *)
Theorem C19_silent_failure_refuted : exists sym P rots,
  lists_group rots /\ (1 < List.length rots)%nat /\
  get_pointgroup_chain_generators sym P rots = Some (Ret []).
Proof.
  exists "-1"%string, qid, [mid; Mat (-1) 0 0 0 (-1) 0 0 0 1].
  split; [apply group_check_sound; vm_compute; reflexivity|]. split; [cbn; lia|]. vm_compute. reflexivity.
Qed.
Print Assumptions C19_silent_failure_refuted.
(** A C3v in a non-standard basis and listed in reverse order. *)
Definition ex_P : qmat := QMat 1 1 0 0 1 0 0 0 1.
Definition ex_std : list mat := match dict_get pg_dataset "3m" with Ret (_ :: l :: _) => l | _ => [] end.
Definition ex_rots : list mat := rev (map (fun r => qround (qmul (qmul ex_P (qofz r)) (qinv ex_P))) ex_std).
Example C19_hypotheses_met : ~ (qdet ex_P == 0)%Q /\ lists_group ex_rots /\
  (forall r, In r ex_rots -> qintegral (qmul (qmul (qinv ex_P) (qofz r)) ex_P)) /\
  (exists std settings, dict_get pg_dataset "3m" = Ret settings /\ In std settings /\
     Permutation std (map (conj_round ex_P) ex_rots)) /\
  get_pointgroup_chain_generators "3m" ex_P ex_rots = Some (Ret [2; 4]%nat).
Proof.
  split; [intros H; discriminate H|]. split; [apply group_check_sound; vm_compute; reflexivity|].
  split.
  { assert (forallb (fun r => let m := qmul (qmul (qinv ex_P) (qofz r)) ex_P in
      qintb (q11 m) && qintb (q12 m) && qintb (q13 m) && (qintb (q21 m) && qintb (q22 m) && qintb (q23 m)) &&
      (qintb (q31 m) && qintb (q32 m) && qintb (q33 m))) ex_rots = true) as K by (vm_compute; reflexivity).
    rewrite forallb_forall in K. intros r Hr. specialize (K r Hr). cbv zeta in K. rewrite !andb_true_iff in K.
    repeat split; apply qintb_sound; tauto. }
  split; [|vm_compute; reflexivity].
  exists ex_std. eexists. split; [reflexivity|]. split; [right; left; reflexivity|].
  assert (map (conj_round ex_P) ex_rots = rev ex_std) as -> by (vm_compute; reflexivity).
  apply Permutation_rev.
Qed.
