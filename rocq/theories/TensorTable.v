(** Sums of powers of the traces of the tabulated point groups. *)
From Coq Require Import List Arith ZArith QArith Bool String Lia Permutation.
From Verif Require Import Py Mat3 MatQ GroupModel GroupSpec PointGroupData PointGroupModel PointGroupSpec PointGroupProofs
  TensorTableSpec.
Import ListNotations.
Local Open Scope Z_scope.

Definition qtrace (a : qmat) : Q := (q11 a + q22 a + q33 a)%Q.
Lemma qtrace_comm a b : (qtrace (qmul a b) == qtrace (qmul b a))%Q.
Proof. destruct a, b; unfold qtrace; cbn -[Qmult Qplus]; ring. Qed.
Lemma qtrace_eq a b : qmeq a b -> (qtrace a == qtrace b)%Q.
Proof. intros (h1&_&_&_&h5&_&_&_&h9). unfold qtrace. now rewrite h1, h5, h9. Qed.
Lemma qtrace_ofz r : (qtrace (qofz r) == inject_Z (mtrace r))%Q.
Proof. unfold qtrace, mtrace; cbn [qofz q11 q22 q33]. now rewrite !inject_Z_plus. Qed.
Lemma conj_round_trace P r : ~ (qdet P == 0)%Q -> qintegral (qmul (qmul (qinv P) (qofz r)) P) -> mtrace (conj_round P r) = mtrace r.
Proof.
  intros dP iP. apply inject_Z_injective. rewrite <- !qtrace_ofz.
  rewrite (qtrace_eq _ _ (qofz_qround _ iP)), qtrace_comm.
  apply qtrace_eq. rewrite qmul_assoc, (qinv_r P dP), qmul_1l. apply qmeq_refl.
Qed.

Lemma trace_power_perm k l l' : Permutation l l' -> trace_power k l = trace_power k l'.
Proof. unfold trace_power; induction 1; cbn [map fold_right]; lia. Qed.
Lemma trace_power_conj k P l : ~ (qdet P == 0)%Q -> (forall r, In r l -> qintegral (qmul (qmul (qinv P) (qofz r)) P)) ->
  trace_power k (map (conj_round P) l) = trace_power k l.
Proof.
  intros dP iP. unfold trace_power. rewrite map_map. f_equal. apply map_ext_in. intros r hr.
  now rewrite conj_round_trace by auto.
Qed.

Definition components_ok (x : string * nat * list mat) : bool :=
  let '(s, i, l) := x in
  match dict_get tensor_components s with
  | Ret [a; b; c; d] =>
      forallb (fun p => Z.eqb (trace_power (fst p) l) (Z.of_nat (List.length l * snd p))) [(1, a); (2, b); (3, c); (4, d)]%nat
  | _ => false
  end.
Lemma components_settings : forallb components_ok all_settings = true.
Proof. vm_cast_no_check (eq_refl true). Qed.

Lemma dict_get_in A (d : list (string * A)) s v : dict_get d s = Ret v -> In (s, v) d.
Proof.
  induction d as [|[k w] d IH]; cbn; [discriminate|].
  destruct (String.eqb_spec k s); [intros [= <-]; subst; auto|auto].
Qed.

(** The same for a list of rotations in any basis and order. *)
Lemma point_components rots s P settings std : dict_get pg_dataset s = Ret settings -> In std settings ->
  ~ (qdet P == 0)%Q -> (forall r, In r rots -> qintegral (qmul (qmul (qinv P) (qofz r)) P)) ->
  Permutation std (map (conj_round P) rots) ->
  exists ns, In (s, ns) tensor_components /\ List.length ns = 4%nat /\
    forall k, (1 <= k <= 4)%nat -> trace_power k rots = Z.of_nat (List.length rots * nth (k - 1) ns O)%nat.
Proof.
  intros hs hstd dP iP pm.
  destruct (In_nth_error _ _ hstd) as [i hi].
  pose proof (proj1 (forallb_forall _ _) components_settings _ (in_all_settings _ _ _ _ hs hi)) as h.
  unfold components_ok in h.
  destruct (dict_get tensor_components s) as [ns|] eqn:E; [|discriminate].
  destruct ns as [|a [|b [|c [|d [|]]]]]; try discriminate.
  assert (List.length std = List.length rots) as L by (rewrite (Permutation_length pm), map_length; reflexivity).
  exists [a; b; c; d]. split; [now apply dict_get_in|split; [reflexivity|]].
  intros k hk. rewrite <- (trace_power_conj k P rots dP iP), <- (trace_power_perm k _ _ pm), <- L.
  cbn [forallb fst snd] in h. rewrite !andb_true_iff in h. destruct h as (h1&h2&h3&h4&_).
  apply Z.eqb_eq in h1, h2, h3, h4.
  assert (k = 1 \/ k = 2 \/ k = 3 \/ k = 4)%nat as [->|[->|[->| ->]]] by lia; assumption.
Qed.
