(** Specification of a normal series of a finite group given by its multiplication on
    indices: what "the generators give a normal series" means. *)
From Coq Require Import List Arith ZArith Znumtheory.
From Verif Require Import Mat3 GroupSpec.
Import ListNotations.

(** H (a list without repetition) is a subgroup. *)
Record subgroup (n : nat) (mul : nat -> nat -> nat) (e : nat) (H : list nat) : Prop := {
  su_nodup : NoDup H;
  su_lt : forall x, In x H -> x < n;
  su_e : In e H;
  su_mul : forall x y, In x H -> In y H -> In (mul x y) H }.

(** One step H < K: K is a subgroup containing H as a normal subgroup, and every element
    of K is r^m s for exactly one m below the order p of r and one s in H; so K/H is cyclic
    of order p generated by r.  p is prime, unless H is trivial. *)
Record cyclic_extension (n : nat) (mul : nat -> nat -> nat) (e : nat) (H : list nat) (r : nat) (K : list nat) : Prop := {
  ce_sub : subgroup n mul e H;
  ce_sup : subgroup n mul e K;
  ce_in : In r K;
  ce_normal : forall g s, In g K -> In s H -> exists s', In s' H /\ mul g s = mul s' g;
  ce_order : exists p, is_element_order mul e r p /\ 2 <= p /\
     (prime (Z.of_nat p) \/ H = [e]) /\
     length K = p * length H /\
     (forall x, In x K <-> exists m s, m < p /\ In s H /\ x = mul (mpow mul e r m) s) }.

(** Extending H successively by the elements of the list yields F. *)
Inductive normal_series (n : nat) (mul : nat -> nat -> nat) (e : nat) : list nat -> list nat -> list nat -> Prop :=
| ns_done : forall H, normal_series n mul e H [] H
| ns_step : forall H r K rs F, cyclic_extension n mul e H r K -> normal_series n mul e K rs F ->
    normal_series n mul e H (r :: rs) F.

(** The documented property of the generators (first generator = outermost step): the
    series from the trivial group, adding the generators from last to first, ends with the
    whole group. *)
Definition chain_of_group (n : nat) (mul : nat -> nat -> nat) (e : nat) (gens : list nat) : Prop :=
  exists F, normal_series n mul e [e] (rev gens) F /\ (forall x, x < n <-> In x F).
