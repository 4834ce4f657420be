(** Specification vocabulary for the reduction of a representation by projections. *)
From mathcomp Require Import all_ssreflect all_algebra.
From Verif Require Import RepSpec.
Import Order.TTheory GRing.Theory Num.Theory.
Set Implicit Arguments.
Unset Strict Implicit.
Unset Printing Implicit Defensive.
Local Open Scope ring_scope.

Section Spec.
Variables (C : numClosedFieldType) (N K : nat) (dim : nat -> nat).

(** Blocks of vectors of C^N, for each k < K a list of blocks of dim k vectors. *)
Definition block_family := forall k : nat, seq 'M[C]_(dim k, N).

(** Every vector is a combination of the vectors in the blocks, in one way only. *)
Definition blocks_basis (bs : block_family) : Prop :=
  forall v : 'rV[C]_N, exists c : forall k : nat, nat -> 'rV[C]_(dim k),
    v = \sum_(k < K) \sum_(a < size (bs k)) c k a *m nth 0 (bs k) a /\
    forall c' : forall k : nat, nat -> 'rV[C]_(dim k),
      v = \sum_(k < K) \sum_(a < size (bs k)) c' k a *m nth 0 (bs k) a ->
      forall k a, (k < K)%N -> (a < size (bs k))%N -> c' k a = c k a.

(** Blocks of different irreps are orthogonal. *)
Definition blocks_orthogonal (bs : block_family) : Prop :=
  forall k l b b', (k < K)%N -> (l < K)%N -> k <> l -> b \in bs k -> b' \in bs l -> b *m adj b' = 0.
End Spec.
