(** Proofs about the model of transform.py. *)
From Coq Require Import List Arith ZArith QArith Qround Qabs Bool Lia Lqa String Ascii.
From Verif Require Import Py Mat3 MatQ GroupModel GroupSpec GroupProofs GroupProofs2 TransformModel TransformSpec.
Import ListNotations.

Section ChangeOfBasis.
Variable P : qmat.
Hypothesis HP : ~ (qdet P == 0)%Q.

Lemma transform_rotation_q r : conj_integral P r ->
  qmeq (qofz (transform_rotation P r)) (qmul (qmul (qinv P) (qofz r)) P).
Proof. intros H. apply qofz_qround; auto. Qed.

Lemma transform_rotation_mul r s : conj_integral P r -> conj_integral P s ->
  transform_rotation P (mmul r s) = mmul (transform_rotation P r) (transform_rotation P s).
Proof.
  intros Hr Hs. apply qofz_inj. rewrite qofz_mul, (transform_rotation_q r), (transform_rotation_q s) by auto.
  unfold transform_rotation.
  assert (qmeq (qmul (qmul (qinv P) (qofz (mmul r s))) P)
    (qmul (qmul (qmul (qinv P) (qofz r)) P) (qmul (qmul (qinv P) (qofz s)) P))) as E.
  { rewrite qofz_mul. rewrite <- !(qmul_assoc (qinv P)).
    rewrite <- (qmul_assoc (qofz r)). 
    rewrite <- !(qmul_assoc (qofz r)), (qmul_assoc (qmul (qofz r) P)) || idtac.
    rewrite <- !qmul_assoc. rewrite (qmul_assoc P (qinv P)), (qinv_r P HP), qmul_1l. reflexivity. }
  rewrite <- E. apply qofz_qround. eapply qintegral_eq; [symmetry; exact E|].
  eapply qintegral_eq; [|apply (qofz_integral (mmul (transform_rotation P r) (transform_rotation P s)))].
  rewrite qofz_mul, (transform_rotation_q r), (transform_rotation_q s) by auto. reflexivity.
Qed.

Lemma transform_rotation_1 : transform_rotation P mid = mid.
Proof.
  unfold transform_rotation. rewrite <- (qround_qofz mid) at 2. apply qround_proper.
  rewrite qofz_1, qmul_1r. apply qinv_l; auto.
Qed.

Lemma transform_compose r u v : conj_integral P r ->
  veq (transform_translation P (vadd (mvec r u) v))
      (vadd (mvec (transform_rotation P r) (transform_translation P u)) (transform_translation P v)).
Proof.
  intros Hr. unfold transform_translation. rewrite qvec_add.
  apply vadd_proper; [|reflexivity].
  rewrite <- (qofz_vec (transform_rotation P r)), (transform_rotation_q r Hr).
  rewrite <- qvec_mul, <- !qmul_assoc, (qinv_r P HP), qmul_1r, qvec_mul, qofz_vec. reflexivity.
Qed.

Lemma transform_pairing k t :
  (vdot (transform_kpoint P k) (transform_translation P t) == vdot k t)%Q.
Proof.
  unfold transform_kpoint, transform_translation.
  rewrite vdot_qtvec, <- qvec_mul, (qinv_r P HP), qvec_1. reflexivity.
Qed.

Lemma transform_residual r k : conj_integral P r ->
  veq (residual (transform_rotation P r) (transform_kpoint P k)) (transform_kpoint P (residual r k)).
Proof.
  intros Hr. unfold residual, transform_kpoint. rewrite qtvec_sub.
  apply vsub_proper; [|reflexivity].
  rewrite <- (qofz_tvec (transform_rotation P r)), (transform_rotation_q r Hr).
  rewrite <- qofz_tvec, <- !qtvec_mul, qmul_assoc, (qmul_assoc P), (qinv_r P HP), qmul_1l. reflexivity.
Qed.
End ChangeOfBasis.

Lemma transform_twice P R r : ~ (qdet P == 0)%Q -> ~ (qdet R == 0)%Q ->
  conj_integral P r ->
  transform_rotation R (transform_rotation P r) = transform_rotation (qmul P R) r.
Proof.
  intros HP HR Hr. unfold transform_rotation at 1 3. apply qround_proper.
  rewrite (transform_rotation_q P r Hr), (qinv_mul P R HP HR), !qmul_assoc. reflexivity.
Qed.
Lemma transform_translation_twice P R t : ~ (qdet P == 0)%Q -> ~ (qdet R == 0)%Q ->
  veq (transform_translation R (transform_translation P t)) (transform_translation (qmul P R) t).
Proof.
  intros HP HR. unfold transform_translation. rewrite (qinv_mul P R HP HR), qvec_mul. reflexivity.
Qed.
Lemma transform_kpoint_twice P R k :
  veq (transform_kpoint R (transform_kpoint P k)) (transform_kpoint (qmul P R) k).
Proof. unfold transform_kpoint. rewrite qtvec_mul. reflexivity. Qed.

(** ** Crystal systems *)
Lemma crystal_system_iff h c : get_crystal_system h = Ret c <->
  match c with
  | Triclinic => 1 <= h <= 2 | Monoclinic => 3 <= h <= 107 | Orthorhombic => 108 <= h <= 348
  | Tetragonal => 349 <= h <= 429 | Trigonal => 430 <= h <= 461 | Hexagonal => 462 <= h <= 488
  | Cubic => 489 <= h <= 530 end%Z.
Proof.
  unfold get_crystal_system, crystal_system_range. cbn [crystal_search].
  repeat match goal with |- context [(?a <=? h)%Z && (h <=? ?b)%Z] =>
    destruct (Z.leb_spec a h), (Z.leb_spec h b); cbn [andb] end;
  try (exfalso; lia); destruct c; split; intros E; try discriminate E; try lia; try reflexivity.
Qed.
Lemma crystal_system_raises h : (get_crystal_system h = Raise ValueError <-> h < 1 \/ 530 < h)%Z.
Proof.
  unfold get_crystal_system, crystal_system_range. cbn [crystal_search].
  repeat match goal with |- context [(?a <=? h)%Z && (h <=? ?b)%Z] =>
    destruct (Z.leb_spec a h), (Z.leb_spec h b); cbn [andb] end;
  try (exfalso; lia); split; intros E; try discriminate E; try lia; try reflexivity.
Qed.

(** ** unique_primitive_symmetry *)


Lemma unique_loop_app l1 : forall l2 i ur ut mp,
  unique_loop i (l1 ++ l2) ur ut mp =
  let '(a, b, c) := unique_loop i l1 ur ut mp in unique_loop (i + List.length l1) l2 a b c.
Proof.
  induction l1 as [|[r t] l1 IH]; intros l2 i ur ut mp; cbn [List.app unique_loop].
  - cbn. rewrite Nat.add_0_r. reflexivity.
  - destruct (find_index (meqb r) ur); rewrite IH; cbn [List.length];
      rewrite Nat.add_succ_r; reflexivity.
Qed.

Lemma in_rot_dec (r : mat) l : {In r l} + {~ In r l}.
Proof. apply in_dec, mat_eq_dec. Qed.

Lemma find_index_meqb_None r l : find_index (meqb r) l = None <-> ~ In r l.
Proof.
  rewrite find_index_None. split.
  - intros H Hin. specialize (H _ Hin). rewrite meqb_refl in H. discriminate.
  - intros H a Ha. destruct (meqb r a) eqn:E; auto. apply meqb_eq in E. subst. contradiction.
Qed.

Lemma first_occurrences_snoc l r :
  first_occurrences (l ++ [r]) =
  first_occurrences l ++ (if in_rot_dec r l then [] else [List.length l]).
Proof.
  unfold first_occurrences. rewrite app_length, Nat.add_1_r, seq_S, filter_app. cbn [Nat.add filter].
  f_equal.
  - apply filter_ext_in. intros i Hi. apply in_seq in Hi.
    rewrite app_nth1 by lia. rewrite firstn_app.
    replace (i - List.length l)%nat with 0%nat by lia. cbn [firstn]. rewrite app_nil_r. reflexivity.
  - rewrite app_nth2, Nat.sub_diag by lia. cbn [nth].
    rewrite firstn_app, Nat.sub_diag, firstn_all. cbn [firstn]. rewrite app_nil_r.
    destruct (in_rot_dec r l) as [H|H].
    + replace (existsb (meqb r) l) with true; [reflexivity|]. symmetry.
      apply existsb_exists. exists r. split; auto. apply meqb_refl.
    + replace (existsb (meqb r) l) with false; [reflexivity|]. symmetry.
      destruct (existsb (meqb r) l) eqn:E; auto. apply existsb_exists in E.
      destruct E as (x & Hx & E). apply meqb_eq in E. subst; contradiction.
Qed.

Lemma first_occurrences_lt l i : In i (first_occurrences l) -> (i < List.length l)%nat.
Proof. unfold first_occurrences. intros H. apply filter_In in H. destruct H as [H _]. apply in_seq in H. lia. Qed.

Lemma unique_spec rots : forall trans R T M,
  List.length trans = List.length rots ->
  unique_primitive_symmetry rots trans = (R, T, M) ->
  R = map (fun i => nth i rots mid) (first_occurrences rots) /\
  T = map (fun i => vmap rem1 (nth i trans vzero)) (first_occurrences rots) /\
  List.length M = List.length rots /\
  NoDup R /\ (forall r, In r R <-> In r rots) /\
  (forall i, (i < List.length rots)%nat ->
     (In i (first_occurrences rots) /\ nth i M 0%nat = i) \/
     (~ In i (first_occurrences rots) /\ (nth i M 0%nat < List.length R)%nat /\
      nth (nth i M 0%nat) R mid = nth i rots mid)).
Proof.
  unfold unique_primitive_symmetry.
  induction rots as [|r l IH] using rev_ind; intros trans R T M Hl H.
  - destruct trans; [|discriminate]. cbn in H. injection H as <- <- <-. cbn.
    repeat split; auto; try tauto; try constructor. intros; lia.
  - destruct (rev_destruct trans) as [->|(l' & t & ->)].
    { rewrite app_length in Hl. cbn in Hl. lia. }
    rewrite !app_length in Hl. cbn in Hl. assert (List.length l' = List.length l) as Hl' by lia.
    assert (combine (l ++ [r]) (l' ++ [t]) = combine l l' ++ [(r, t)]) as Ec.
    { clear -Hl'. revert l' Hl'; induction l; intros [|b l'] Hl; cbn in *; try lia; auto.
      f_equal. apply IHl; lia. }
    rewrite Ec, unique_loop_app in H.
    destruct (unique_loop 0 (combine l l') [] [] []) as [[R0 T0] M0] eqn:E0.
    destruct (IH l' R0 T0 M0 Hl' E0) as (HR & HT & HM & Hn & Hin & Hmap).
    rewrite first_occurrences_snoc.
    assert (List.length (combine l l') = List.length l) as Elen by (rewrite combine_length; lia).
    rewrite Elen in H. cbn [Nat.add unique_loop] in H.
    assert (forall i, In i (first_occurrences l) -> nth i (l ++ [r]) mid = nth i l mid) as A1.
    { intros i Hi. apply first_occurrences_lt in Hi. apply app_nth1; auto. }
    assert (forall i, In i (first_occurrences l) -> nth i (l' ++ [t]) vzero = nth i l' vzero) as A2.
    { intros i Hi. apply first_occurrences_lt in Hi. apply app_nth1; lia. }
    destruct (find_index (meqb r) R0) as [j|] eqn:E; injection H as <- <- <-.
    + assert (In r l) as Hr.
      { apply Hin. apply find_index_Some in E. destruct E as [(a & Ha & Hm) _].
        apply meqb_eq in Hm. subst. eapply nth_error_In; eauto. }
      destruct (in_rot_dec r l) as [Hyes|Hno]; [|contradiction]. rewrite app_nil_r.
      split; [|split; [|split; [|split; [|split]]]]; auto.
      * rewrite HR. apply map_ext_in. intros i Hi. rewrite A1; auto.
      * rewrite HT. apply map_ext_in. intros i Hi. rewrite A2; auto.
      * rewrite !app_length, HM. reflexivity.
      * intros x. rewrite Hin, in_app_iff. cbn. intuition (subst; auto).
      * intros k Hk. rewrite app_length in Hk. cbn in Hk.
        destruct (Nat.eq_dec k (List.length l)) as [->|Hne].
        -- right. rewrite (app_nth2 l), Nat.sub_diag by lia. cbn [nth].
           rewrite (app_nth2 M0), HM, Nat.sub_diag by lia. cbn [nth].
           split; [intros Hc; apply first_occurrences_lt in Hc; lia|].
           split; [eapply find_index_lt; eauto|].
           apply find_index_Some in E. destruct E as [(a & Ha & Hm) _].
           apply meqb_eq in Hm. subst. apply nth_error_nth; auto.
        -- rewrite (app_nth1 M0), (app_nth1 l) by lia. apply Hmap. lia.
    + assert (~ In r l) as Hr. { rewrite <- Hin. apply find_index_meqb_None; auto. }
      destruct (in_rot_dec r l) as [Hyes|Hno]; [contradiction|]. rewrite !map_app. cbn [map].
      rewrite !app_nth2, Hl', !Nat.sub_diag by lia. cbn [nth].
      split; [|split; [|split; [|split; [|split]]]]; auto.
      * f_equal. rewrite HR. apply map_ext_in. intros i Hi. rewrite A1; auto.
      * f_equal. rewrite HT. apply map_ext_in. intros i Hi. rewrite A2; auto.
      * rewrite !app_length, HM. reflexivity.
      * apply NoDup_rev in Hn. rewrite <- (rev_involutive (R0 ++ [r])). apply NoDup_rev.
        rewrite rev_app_distr. cbn. constructor; auto. rewrite <- in_rev.
        rewrite Hin. auto.
      * intros x. rewrite !in_app_iff, Hin. cbn. tauto.
      * intros k Hk. rewrite app_length in Hk. cbn in Hk.
        destruct (Nat.eq_dec k (List.length l)) as [->|Hne].
        -- left. rewrite in_app_iff. split; [cbn; auto|].
           rewrite (app_nth2 M0), HM, Nat.sub_diag by lia. reflexivity.
        -- rewrite (app_nth1 M0), (app_nth1 l) by lia. destruct (Hmap k ltac:(lia)) as [[H1 H2]|(H1 & H2 & H3)].
           ++ left. rewrite in_app_iff. auto.
           ++ right. rewrite in_app_iff, app_length, (app_nth1 R0) by lia. cbn.
              split; [intros [?|[?|[]]]; [contradiction|lia]|]. split; [lia|auto].
Qed.

(** If every first occurrence precedes every duplicate, the mapping is correct everywhere. *)
Lemma unique_mapping_blocks rots trans R T M :
  List.length trans = List.length rots ->
  unique_primitive_symmetry rots trans = (R, T, M) ->
  first_occurrences_first rots ->
  forall i, (i < List.length rots)%nat ->
    (nth i M 0 < List.length R)%nat /\ nth (nth i M 0%nat) R mid = nth i rots mid.
Proof.
  intros Hl H [u Hu] i Hi. destruct (unique_spec rots trans R T M Hl H) as (HR & _ & _ & _ & _ & Hmap).
  destruct (Hmap i Hi) as [[H1 H2]|(H1 & H2 & H3)]; [|auto].
  rewrite H2. rewrite Hu in H1, HR. apply in_seq in H1.
  rewrite HR, map_length, seq_length. split; [lia|].
  rewrite (nth_indep _ mid (nth 0 rots mid)) by (rewrite map_length, seq_length; lia).
  rewrite (map_nth (fun i => nth i rots mid)), seq_nth by lia. reflexivity.
Qed.

(** ** primitive bases *)
Definition residues (D : nat) : list vec :=
  flat_map (fun a => flat_map (fun b => map (fun c =>
     Vec (inject_Z (Z.of_nat a)) (inject_Z (Z.of_nat b)) (inject_Z (Z.of_nat c))) (seq 0 D)) (seq 0 D)) (seq 0 D).

Definition qscale (c : Q) (P : qmat) : qmat :=
  (QMat (c * q11 P) (c * q12 P) (c * q13 P) (c * q21 P) (c * q22 P) (c * q23 P)
        (c * q31 P) (c * q32 P) (c * q33 P))%Q.
Definition qintegralb (P : qmat) : bool :=
  qintb (q11 P) && qintb (q12 P) && qintb (q13 P) && qintb (q21 P) && qintb (q22 P) && qintb (q23 P)
  && qintb (q31 P) && qintb (q32 P) && qintb (q33 P).
Lemma qintegralb_sound P : qintegralb P = true -> qintegral P.
Proof. unfold qintegralb. rewrite !andb_true_iff. intros ((((((((?&?)&?)&?)&?)&?)&?)&?)&?).
  repeat split; apply qintb_sound; auto. Qed.

Definition prim_check (D : nat) (cs : list vec) (P : qmat) : bool :=
  Qeq_bool (qdet P) (/ inject_Z (Z.of_nat (List.length cs))) &&
  qintegralb (qinv P) && qintegralb (qscale (inject_Z (Z.of_nat D)) P) &&
  forallb (fun b => existsb (fun c => vintb (vsub (qvec P b) c)) cs) (residues D) &&
  forallb (fun c => vintb (qvec (qinv P) c)) cs.

Lemma vint_qvec P v : qintegral P -> vint v -> vint (qvec P v).
Proof.
  intros (?&?&?&?&?&?&?&?&?) (?&?&?). unfold qvec. repeat split; simpl; auto 8 using qint_plus, qint_mult.
Qed.

Lemma residue_split D z : (0 < D)%nat -> exists a b, z = (Z.of_nat D * a + Z.of_nat b)%Z /\ (b < D)%nat.
Proof.
  intros H. exists (z / Z.of_nat D)%Z, (Z.to_nat (z mod Z.of_nat D)).
  pose proof (Z.mod_pos_bound z (Z.of_nat D) ltac:(lia)).
  rewrite Z2Nat.id by lia. split; [apply Z_div_mod_eq_full; lia|lia].
Qed.

Lemma prim_check_sound D cs P : (0 < D)%nat -> cs <> [] -> prim_check D cs P = true -> is_primitive_basis cs P.
Proof.
  intros HD Hcs H. unfold prim_check in H. rewrite !andb_true_iff in H.
  destruct H as ((((Hdet & Hinv) & Hsc) & Hres) & Hc).
  apply Qeq_bool_eq in Hdet. apply qintegralb_sound in Hinv, Hsc.
  assert (~ qdet P == 0)%Q as Hne.
  { rewrite Hdet. destruct cs as [|c cs]; [congruence|]. intros E.
    assert (inject_Z (Z.of_nat (List.length (c :: cs))) * / inject_Z (Z.of_nat (List.length (c :: cs))) == 0)%Q as E2
      by (rewrite E; ring).
    rewrite Qmult_inv_r in E2; [discriminate|]. cbn. unfold Qeq; cbn. lia. }
  split; auto. intros v. split.
  - intros ([z1 H1] & [z2 H2] & [z3 H3]).
    destruct (residue_split D z1 HD) as (a1 & b1 & E1 & L1).
    destruct (residue_split D z2 HD) as (a2 & b2 & E2 & L2).
    destruct (residue_split D z3 HD) as (a3 & b3 & E3 & L3).
    set (b := Vec (inject_Z (Z.of_nat b1)) (inject_Z (Z.of_nat b2)) (inject_Z (Z.of_nat b3))).
    set (a := Vec (inject_Z a1) (inject_Z a2) (inject_Z a3)).
    assert (In b (residues D)) as Hb.
    { unfold residues. apply in_flat_map. exists b1. split; [apply in_seq; lia|].
      apply in_flat_map. exists b2. split; [apply in_seq; lia|].
      apply in_map_iff. exists b3. split; [reflexivity|apply in_seq; lia]. }
    rewrite forallb_forall in Hres. specialize (Hres _ Hb). apply existsb_exists in Hres.
    destruct Hres as (c & Hc1 & Hc2). apply vintb_sound in Hc2. exists c. split; auto.
    assert (veq v (vadd (qvec (qscale (inject_Z (Z.of_nat D)) P) a) (qvec P b))) as Ev.
    { assert (veq (qvec (qinv P) v) (Vec (inject_Z z1) (inject_Z z2) (inject_Z z3))) as Eu
        by (repeat split; auto).
      rewrite <- (qvec_1 v), <- (qinv_r P Hne), qvec_mul, Eu. subst z1 z2 z3.
      unfold veq, qvec, vadd, qscale, a, b; cbn [v1 v2 v3 q11 q12 q13 q21 q22 q23 q31 q32 q33].
      rewrite !inject_Z_plus, !inject_Z_mult. repeat split; ring. }
    apply (vint_eq (vadd (qvec (qscale (inject_Z (Z.of_nat D)) P) a) (vsub (qvec P b) c))).
    + rewrite Ev. unfold veq, vadd, vsub; cbn [v1 v2 v3]; repeat split; ring.
    + apply vint_add; auto. apply vint_qvec; auto. repeat split; apply qint_Z.
  - intros (c & Hin & Hv). rewrite forallb_forall in Hc. specialize (Hc _ Hin). apply vintb_sound in Hc.
    apply (vint_eq (vadd (qvec (qinv P) (vsub v c)) (qvec (qinv P) c))).
    + rewrite <- qvec_add. apply qvec_proper; [reflexivity|].
      unfold veq, vadd, vsub; cbn [v1 v2 v3]; repeat split; ring.
    + apply vint_add; auto. apply vint_qvec; auto.
Qed.

Lemma prim_P_ok : is_primitive_basis centring_P prim_P.
Proof. apply (prim_check_sound 1); [lia|discriminate|vm_compute; reflexivity]. Qed.
Lemma prim_A_ok : is_primitive_basis centring_A prim_A.
Proof. apply (prim_check_sound 2); [lia|discriminate|vm_compute; reflexivity]. Qed.
Lemma prim_B_ok : is_primitive_basis centring_B prim_B.
Proof. apply (prim_check_sound 2); [lia|discriminate|vm_compute; reflexivity]. Qed.
Lemma prim_C_ok : is_primitive_basis centring_C prim_C.
Proof. apply (prim_check_sound 2); [lia|discriminate|vm_compute; reflexivity]. Qed.
Lemma prim_I_ok : is_primitive_basis centring_I prim_I.
Proof. apply (prim_check_sound 2); [lia|discriminate|vm_compute; reflexivity]. Qed.
Lemma prim_F_ok : is_primitive_basis centring_F prim_F.
Proof. apply (prim_check_sound 2); [lia|discriminate|vm_compute; reflexivity]. Qed.
Lemma prim_H_ok : is_primitive_basis centring_R prim_H.
Proof. apply (prim_check_sound 3); [lia|discriminate|vm_compute; reflexivity]. Qed.

Lemma get_centering_iff s c : get_centering s = Ret c <-> centring_letter s c.
Proof.
  unfold centring_letter. destruct s as [|a s]; cbn.
  - split; [discriminate|]. intros [(_ & r & H)|(r & H)]; discriminate.
  - destruct (Ascii.eqb_spec a "-") as [->|Hne].
    + destruct s as [|b s].
      * split; [discriminate|]. intros [(Hn & r & H)|(r & H)]; [congruence|discriminate].
      * split.
        -- intros [= ->]. right. eauto.
        -- intros [(Hn & r & H)|(r & H)]; congruence.
    + split.
      * intros [= ->]. left. split; eauto.
      * intros [(Hn & r & H)|(r & H)]; congruence.
Qed.

Definition letter_matrix (c : ascii) : pyres qmat :=
  if Ascii.eqb c "P" then Ret prim_P else if Ascii.eqb c "A" then Ret prim_A
  else if Ascii.eqb c "B" then Ret prim_B else if Ascii.eqb c "C" then Ret prim_C
  else if Ascii.eqb c "I" then Ret prim_I else if Ascii.eqb c "F" then Ret prim_F
  else Raise ValueError.

Lemma letter_matrix_ok c P : letter_matrix c = Ret P -> exists cs, letter_centring c cs /\ is_primitive_basis cs P.
Proof.
  unfold letter_matrix, letter_centring.
  repeat match goal with |- context [Ascii.eqb c ?x] => destruct (Ascii.eqb_spec c x) as [->|?] end;
  intros [= <-]; eexists; (split; [eauto 10|]).
  - apply prim_P_ok. - apply prim_A_ok. - apply prim_B_ok.
  - apply prim_C_ok. - apply prim_I_ok. - apply prim_F_ok.
Qed.
Lemma letter_matrix_total c cs : letter_centring c cs -> exists P, letter_matrix c = Ret P.
Proof.
  unfold letter_centring. intros H.
  repeat match goal with H : _ \/ _ |- _ => destruct H as [H|H] end; destruct H as [-> _]; cbn; eauto.
Qed.

Lemma prim_unfold_nontrig choice hs h cs : get_crystal_system h = Ret cs -> cs <> Trigonal ->
  get_primitive_transformation_matrix choice hs h = bind (get_centering hs) letter_matrix.
Proof.
  intros E Hne. unfold get_primitive_transformation_matrix. rewrite E. cbn [bind].
  destruct cs; try congruence; reflexivity.
Qed.

Lemma crystal_total h : (1 <= h <= 530)%Z -> exists cs, get_crystal_system h = Ret cs.
Proof.
  intros H. destruct (get_crystal_system h) as [cs|e] eqn:E; eauto.
  assert (get_crystal_system h = Raise ValueError) as E'.
  { revert E. unfold get_crystal_system, crystal_system_range. cbn [crystal_search].
    repeat match goal with |- context [(?a <=? h)%Z && (h <=? ?b)%Z] =>
    destruct (Z.leb_spec a h), (Z.leb_spec h b); cbn [andb] end; try discriminate; auto. }
  apply crystal_system_raises in E'. lia.
Qed.

Lemma primitive_matrix_ok choice hs h P :
  get_primitive_transformation_matrix choice hs h = Ret P ->
  exists cs, cell_centring choice hs h cs /\ is_primitive_basis cs P.
Proof.
  intros H. destruct (get_crystal_system h) as [cs|e] eqn:E.
  2:{ unfold get_primitive_transformation_matrix in H. rewrite E in H. discriminate. }
  destruct cs eqn:Ecs; try (
    rewrite (prim_unfold_nontrig choice hs h _ E) in H by discriminate;
    destruct (get_centering hs) as [c|] eqn:Ec; [|discriminate];
    cbn [bind] in H; destruct (letter_matrix_ok c P H) as (cs' & H1 & H2); exists cs'; split; auto;
    apply crystal_system_iff in E; apply cc_other with (c := c);
      [lia|unfold trigonal_number; lia|apply get_centering_iff; auto|auto]).
  unfold get_primitive_transformation_matrix in H. rewrite E in H. cbn [bind] in H.
  apply crystal_system_iff in E.
  destruct (String.eqb_spec choice "H") as [Hc|Hc].
  - injection H as <-. exists centring_R. split; [constructor; auto|apply prim_H_ok].
  - destruct (String.eqb_spec choice "") as [Hc1|Hc1]; cbn [orb] in H.
    + injection H as <-. exists centring_P. split; [apply cc_trigonal_primitive; auto|apply prim_P_ok].
    + destruct (String.eqb_spec choice "R") as [Hc2|Hc2]; [|discriminate].
      injection H as <-. exists centring_P. split; [apply cc_trigonal_primitive; auto|apply prim_P_ok].
Qed.

Lemma primitive_matrix_total choice hs h cs : cell_centring choice hs h cs ->
  exists P, get_primitive_transformation_matrix choice hs h = Ret P.
Proof.
  intros H. inversion H as [Ht Hc|Ht Hc|c cs' Hr Ht Hl Hc]; subst.
  - unfold get_primitive_transformation_matrix.
    rewrite (proj2 (crystal_system_iff h Trigonal) Ht). cbn. eauto.
  - unfold get_primitive_transformation_matrix.
    rewrite (proj2 (crystal_system_iff h Trigonal) Ht). cbn [bind].
    destruct (String.eqb choice "H"); eauto. destruct Hc as [->| ->]; cbn; eauto.
  - destruct (crystal_total h Hr) as [s Es].
    assert (s <> Trigonal) as Hs.
    { intros ->. apply crystal_system_iff in Es. contradiction. }
    rewrite (prim_unfold_nontrig choice hs h _ Es Hs).
    rewrite (proj2 (get_centering_iff hs c) Hl). cbn [bind]. eapply letter_matrix_total; eauto.
Qed.
