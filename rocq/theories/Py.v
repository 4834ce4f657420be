(** Python-level conventions shared by all model files.
    Exceptions are values; [list.index] raises ValueError when absent. *)
From Coq Require Import List Arith ZArith QArith Qround Qabs Lqa Bool Lia.
Import ListNotations.

(** Exceptions that the modelled code can raise (explicitly or through the
    Python runtime / NumPy). *)
Inductive exn := ValueError | TypeError | IndexError | KeyError | AssertionError | UnboundLocalError.

(** Result of a Python call: a value or an exception. *)
Inductive pyres (A : Type) := Ret (a : A) | Raise (e : exn).
Arguments Ret {A} a.
Arguments Raise {A} e.

Definition bind {A B} (x : pyres A) (f : A -> pyres B) : pyres B :=
  match x with Ret a => f a | Raise e => Raise e end.

Definition pymap {A B} (f : A -> B) (x : pyres A) : pyres B :=
  bind x (fun a => Ret (f a)).

(** A for-loop that appends [f a] for each [a], stopping at the first exception. *)
Fixpoint mapM {A B} (f : A -> pyres B) (l : list A) : pyres (list B) :=
  match l with
  | [] => Ret []
  | a :: l' => bind (f a) (fun b => bind (mapM f l') (fun bs => Ret (b :: bs)))
  end.

(** [list.index]: first position of an element satisfying the test; None
    stands for ValueError. *)
Fixpoint find_index {A} (p : A -> bool) (l : list A) : option nat :=
  match l with
  | [] => None
  | a :: l' => if p a then Some 0%nat
               else match find_index p l' with Some n => Some (S n) | None => None end
  end.

Definition index_or_raise {A} (p : A -> bool) (l : list A) : pyres nat :=
  match find_index p l with Some n => Ret n | None => Raise ValueError end.

(** Python's [enumerate]. *)
Definition enumerate {A} (l : list A) : list (nat * A) := combine (seq 0 (length l)) l.

(** numpy [rint] / [around] (round half to even) on exact rationals. *)
Definition rint (q : Q) : Z :=
  let f := Qfloor (q + (1 # 2)) in
  if Qeq_bool (inject_Z f) (q + (1 # 2)) && Z.odd f then (f - 1)%Z else f.

(** numpy [remainder(x, 1)] on exact rationals. *)
Definition rem1 (q : Q) : Q := q - inject_Z (Qfloor q).

(** numpy [isclose(a, 0, atol)], i.e. |a| <= atol. *)
Definition close0 (atol q : Q) : bool := Qle_bool (Qabs q) atol.

(** numpy [isclose(a, b, rtol, atol)], i.e. |a-b| <= atol + rtol*|b|. *)
Definition isclose (rtol atol a b : Q) : bool :=
  Qle_bool (Qabs (a - b)) (atol + rtol * Qabs b).

(* ------------------------------------------------------------------ *)
(** * Basic facts *)

Lemma find_index_Some {A} (p : A -> bool) l n :
  find_index p l = Some n <->
  (exists a, nth_error l n = Some a /\ p a = true) /\
  (forall m b, (m < n)%nat -> nth_error l m = Some b -> p b = false).
Proof.
  revert n; induction l as [|a l IH]; intros n; simpl.
  - split; [discriminate|]. intros [(a & H & _) _]. destruct n; discriminate.
  - destruct (p a) eqn:Hp.
    + split.
      * intros [= <-]. split; [exists a; auto|]. intros m b Hm; lia.
      * intros [(b & Hb & Hpb) Hf]. destruct n; [reflexivity|].
        specialize (Hf 0%nat a ltac:(lia) eq_refl). congruence.
    + destruct (find_index p l) as [k|] eqn:Hk.
      * split.
        -- intros [= <-]. destruct (proj1 (IH k) eq_refl) as [(b & Hb & Hpb) Hf].
           split; [exists b; auto|].
           intros [|m] c Hm Hc; simpl in Hc; [congruence|].
           apply (Hf m c); [lia|auto].
        -- intros [(b & Hb & Hpb) Hf]. destruct n as [|n]; simpl in Hb; [congruence|].
           assert (Some k = Some n) as H; [|congruence].
           apply IH. split; [exists b; auto|].
           intros m c Hm Hc. apply (Hf (S m) c); [lia|auto].
      * split; [discriminate|].
        intros [(b & Hb & Hpb) Hf]. destruct n as [|n]; simpl in Hb; [congruence|].
        assert (None = Some n) as H; [|congruence].
        apply IH. split; [exists b; auto|].
        intros m c Hm Hc. apply (Hf (S m) c); [lia|auto].
Qed.

Lemma find_index_None {A} (p : A -> bool) l :
  find_index p l = None <-> forall a, In a l -> p a = false.
Proof.
  induction l as [|a l IH]; simpl; [tauto|].
  destruct (p a) eqn:Hp.
  - split; [discriminate|]. intros H. specialize (H a (or_introl eq_refl)). congruence.
  - destruct (find_index p l).
    + split; [discriminate|]. intros H.
      assert (@None nat = Some n); [|discriminate].
      symmetry; apply IH; auto.
    + split; [|auto]. intros _ b [<-|Hb]; auto. apply IH; auto.
Qed.

Lemma find_index_lt {A} (p : A -> bool) l n : find_index p l = Some n -> (n < length l)%nat.
Proof.
  intros H. apply find_index_Some in H. destruct H as [(a & Ha & _) _].
  apply nth_error_Some. congruence.
Qed.

Lemma mapM_Ret {A B} (f : A -> pyres B) l bs :
  mapM f l = Ret bs <-> Forall2 (fun a b => f a = Ret b) l bs.
Proof.
  revert bs; induction l as [|a l IH]; intros bs; simpl.
  - split; [intros [= <-]; constructor|]. inversion 1; reflexivity.
  - destruct (f a) as [b|e] eqn:Hf; simpl.
    + destruct (mapM f l) as [bs'|e] eqn:Hm; simpl.
      * split.
        -- intros [= <-]. constructor; auto. apply IH; reflexivity.
        -- inversion 1; subst. apply IH in H4. congruence.
      * split; [discriminate|]. inversion 1; subst. apply IH in H4. congruence.
    + split; [discriminate|]. inversion 1; subst. congruence.
Qed.

Lemma mapM_Raise_ex {A B} (f : A -> pyres B) l e :
  mapM f l = Raise e -> exists a, In a l /\ f a = Raise e.
Proof.
  induction l as [|a l IH]; simpl; [discriminate|].
  destruct (f a) as [b|e'] eqn:Hf; simpl.
  - destruct (mapM f l) as [bs|e']; simpl; [discriminate|].
    intros H. destruct (IH H) as (c & Hc & Hfc). exists c; auto.
  - intros [= <-]. exists a; auto.
Qed.

Lemma mapM_total {A B} (f : A -> pyres B) l :
  (forall a, In a l -> exists b, f a = Ret b) -> exists bs, mapM f l = Ret bs.
Proof.
  intros H. destruct (mapM f l) as [bs|e] eqn:Hm; [eauto|].
  apply mapM_Raise_ex in Hm. destruct Hm as (a & Ha & Hf).
  destruct (H a Ha) as [b Hb]. congruence.
Qed.

Lemma Forall2_nth_error {A B} (R : A -> B -> Prop) l l' :
  Forall2 R l l' -> forall i a, nth_error l i = Some a ->
  exists b, nth_error l' i = Some b /\ R a b.
Proof.
  induction 1; intros [|i] c Hc; simpl in *; try discriminate.
  - injection Hc as <-. eauto.
  - apply IHForall2; auto.
Qed.

Lemma nth_error_enumerate {A} (l : list A) i :
  nth_error (enumerate l) i = option_map (fun a => (i, a)) (nth_error l i).
Proof.
  unfold enumerate. assert (forall s, nth_error (combine (seq s (length l)) l) i =
    option_map (fun a => ((s + i)%nat, a)) (nth_error l i)) as H.
  { revert i; induction l as [|a l IH]; intros [|i] s; simpl; auto.
    - repeat f_equal; lia.
    - rewrite IH. destruct (nth_error l i); simpl; auto. repeat f_equal; lia. }
  rewrite H. reflexivity.
Qed.

(** rint is within one half of its argument and fixes integers. *)
Lemma rint_bound q : (Qabs (q - inject_Z (rint q)) <= 1 # 2)%Q.
Proof.
  assert (inject_Z (Qfloor (q + (1#2))) <= q + (1#2))%Q as H1 by apply Qfloor_le.
  assert (q + (1#2) < inject_Z (Qfloor (q + (1#2)) + 1))%Q as H2 by apply Qlt_floor.
  rewrite inject_Z_plus in H2. change (inject_Z 1) with 1%Q in H2.
  unfold rint. set (f := Qfloor (q + (1#2))) in *.
  destruct (Qeq_bool (inject_Z f) (q + (1#2)) && Z.odd f) eqn:E.
  - apply andb_true_iff in E. destruct E as [E _]. apply Qeq_bool_eq in E.
    unfold Z.sub. rewrite inject_Z_plus. change (inject_Z (-(1))) with (-(1))%Q.
    setoid_rewrite E. 
    setoid_replace (q - (q + (1#2) + - (1)))%Q with (1#2)%Q by ring.
    discriminate.
  - apply Qabs_case; intros _; lra.
Qed.

Lemma rint_Z z : rint (inject_Z z) = z.
Proof.
  unfold rint.
  assert (Qfloor (inject_Z z + (1#2)) = z) as H.
  { assert (inject_Z (Qfloor (inject_Z z + (1#2))) <= inject_Z z + (1#2))%Q as H1 by apply Qfloor_le.
    assert (inject_Z z + (1#2) < inject_Z (Qfloor (inject_Z z + (1#2)) + 1))%Q as H2 by apply Qlt_floor.
    set (f := Qfloor _) in *.
    rewrite inject_Z_plus in H2. change (inject_Z 1) with 1%Q in H2.
    assert (inject_Z f < inject_Z (z + 1))%Q as H3
      by (rewrite inject_Z_plus; change (inject_Z 1) with 1%Q; lra).
    assert (inject_Z z < inject_Z (f + 1))%Q as H4
      by (rewrite inject_Z_plus; change (inject_Z 1) with 1%Q; lra).
    rewrite <- Zlt_Qlt in H3, H4. lia. }
  rewrite H.
  destruct (Qeq_bool (inject_Z z) (inject_Z z + (1#2))) eqn:E; auto.
  apply Qeq_bool_eq in E. lra.
Qed.

Lemma rint_proper q q' : (q == q')%Q -> rint q = rint q'.
Proof.
  intros H. unfold rint.
  assert (Qfloor (q + (1#2)) = Qfloor (q' + (1#2))) as Hf by (rewrite H; reflexivity).
  rewrite Hf.
  assert (Qeq_bool (inject_Z (Qfloor (q' + (1 # 2)))) (q + (1 # 2)) =
          Qeq_bool (inject_Z (Qfloor (q' + (1 # 2)))) (q' + (1 # 2))) as ->.
  { rewrite H. reflexivity. }
  reflexivity.
Qed.

(** The distance to the nearest integer is at least as small as the distance to any integer. *)
Lemma rint_nearest q z : (Qabs (q - inject_Z (rint q)) <= Qabs (q - inject_Z z))%Q.
Proof.
  pose proof (rint_bound q) as H.
  destruct (Z.eq_dec (rint q) z) as [->|Hn]; [apply Qle_refl|].
  assert (1 <= Qabs (inject_Z (rint q) - inject_Z z))%Q as H1.
  { unfold Qminus. rewrite <- inject_Z_opp, <- inject_Z_plus.
    change 1%Q with (inject_Z 1). 
    assert (Qabs (inject_Z (rint q + - z)) == inject_Z (Z.abs (rint q + - z)))%Q as ->.
    { reflexivity. }
    rewrite <- Zle_Qle. lia. }
  pose proof (Qabs_triangle (inject_Z (rint q) - q) (q - inject_Z z)) as H2.
  setoid_replace (inject_Z (rint q) - q + (q - inject_Z z))%Q
    with (inject_Z (rint q) - inject_Z z)%Q in H2 by ring.
  setoid_replace (Qabs (inject_Z (rint q) - q)) with (Qabs (q - inject_Z (rint q))) in H2.
  2:{ rewrite <- Qabs_opp. apply Qabs_wd. ring. }
  lra.
Qed.

Lemma Forall2_len {A B} (R : A -> B -> Prop) l l' : Forall2 R l l' -> length l = length l'.
Proof. induction 1; simpl; auto. Qed.

Lemma rev_destruct {A} (l : list A) : l = [] \/ exists l' x, l = l' ++ [x].
Proof. induction l using rev_ind; [left; auto|right; eauto]. Qed.
