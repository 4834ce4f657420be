(** The reduction of magnetic operations whose first ones have different rotations, with all
    rotations among these: lemmas for ClaimsMagCell. *)
From Coq Require Import Lia Bool List ZArith QArith.
From Verif Require Import Py Mat3 MatQ GroupModel GroupSpec GroupProofs TransformModel TransformSpec TransformProofs SpaceGroupProofs
  CorepModel CorepSpec MagProofs.
Import ListNotations.

Lemma first_app rots rest : NoDup rots -> incl rest rots -> first_occurrences (rots ++ rest) = seq 0 (length rots).
Proof.
  intros ND. induction rest as [|r l IH] using rev_ind; intros Hi.
  - rewrite app_nil_r. apply nodup_first; auto.
  - rewrite app_assoc, first_occurrences_snoc, IH by (intros x Hx; apply Hi, in_or_app; auto).
    destruct (in_rot_dec r (rots ++ l)) as [_|Hc]; [apply app_nil_r|].
    exfalso. apply Hc, in_or_app. left. apply Hi, in_or_app. right; left; auto.
Qed.
Lemma blocks_unique rots trans flags rots' trans' flags' :
  length trans = length rots -> length flags = length rots -> length trans' = length rots' ->
  NoDup rots -> incl rots' rots ->
  exists uf M, magnetic_unique_symmetry (rots ++ rots') (trans ++ trans') (flags ++ flags') = (rots, map (vmap rem1) trans, uf, M) /\
    (forall j, (j < length rots)%nat -> nth j uf false = nth j flags false) /\ length M = length (rots ++ rots') /\
    forall i, (i < length (rots ++ rots'))%nat ->
      (nth i M 0 < length rots)%nat /\ nth (nth i M 0%nat) rots mid = nth i (rots ++ rots') mid.
Proof.
  intros Ht Hf Ht' ND Hi. unfold magnetic_unique_symmetry.
  destruct (unique_primitive_symmetry (rots ++ rots') (trans ++ trans')) as [[R T] M] eqn:E.
  assert (length (trans ++ trans') = length (rots ++ rots')) as Hl by (rewrite !app_length; lia).
  destruct (unique_spec _ _ R T M Hl E) as (HR & HT & HM & _ & _ & Hm).
  pose proof (first_app rots rots' ND Hi) as F. rewrite F in HR, HT, Hm.
  assert (R = rots) as ->.
  { transitivity (map (fun i => nth i rots mid) (seq 0 (length rots))); [|apply map_nth_seq]. rewrite HR. apply map_ext_in. intros i Hx. apply in_seq in Hx. apply app_nth1. lia. }
  assert (T = map (vmap rem1) trans) as ->.
  { transitivity (map (vmap rem1) (map (fun i => nth i trans vzero) (seq 0 (length trans)))); [|rewrite map_nth_seq; reflexivity].
    rewrite HT, map_map, Ht. apply map_ext_in. intros i Hx. apply in_seq in Hx. f_equal. apply app_nth1. lia. }
  eexists _, M. split; [reflexivity|]. split; [|split; [exact HM|]].
  - intros j Hj. assert (j < length M)%nat as HjM by (rewrite HM, app_length; lia).
    rewrite (nth_indep _ false (nth 0 (flags ++ flags') false)) by (rewrite map_length; exact HjM).
    rewrite (map_nth (fun i => nth i (flags ++ flags') false)).
    destruct (Hm j) as [[_ ->]|(H & _)]; [rewrite app_length; lia| |exfalso; apply H, in_seq; lia].
    apply app_nth1. lia.
  - intros i Hx. destruct (Hm i Hx) as [[H1 ->]|(_ & H1 & H2)]; [|auto].
    apply in_seq in H1. split; [lia|]. rewrite app_nth1 by lia. reflexivity.
Qed.
