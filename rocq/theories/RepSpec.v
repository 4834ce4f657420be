(** Specification vocabulary for (projective) unitary representations of a finite group
    over an algebraically closed field with conjugation.  Nothing here refers to the
    model functions. *)
From mathcomp Require Import all_ssreflect all_algebra all_fingroup.
Import Order.TTheory GRing.Theory Num.Theory.
Set Implicit Arguments.
Unset Strict Implicit.
Unset Printing Implicit Defensive.
Local Open Scope ring_scope.

Section Spec.
Variables (C : numClosedFieldType) (gT : finGroupType).

(** Conjugate transpose. *)
Definition adj m n (A : 'M[C]_(m, n)) : 'M[C]_(n, m) := (map_mx conjC A)^T.

(** A normalised unitary factor system (2-cocycle). *)
Record factor_system (mu : gT -> gT -> C) : Prop := FactorSystem {
  fs_cocycle : forall x y z, mu x (y * z)%g * mu y z = mu (x * y)%g z * mu x y;
  fs_norm : forall x y, `|mu x y| = 1;
  fs_one : mu 1%g 1%g = 1 }.

Variable mu : gT -> gT -> C.

(** D is a projective representation of the subset H with factor system mu. *)
Record projrep (H : {set gT}) d (D : gT -> 'M[C]_d) : Prop := ProjRep {
  pr_one : D 1%g = 1%:M;
  pr_mul : forall x y, x \in H -> y \in H -> D x *m D y = mu x y *: D (x * y)%g }.

Definition unirep (H : {set gT}) d (D : gT -> 'M[C]_d) : Prop :=
  forall x, x \in H -> D x *m adj (D x) = 1%:M.

(** Invariant subspaces are column spaces of matrices W. *)
Definition invariant (H : {set gT}) d (D : gT -> 'M[C]_d) m (W : 'M[C]_(d, m)) : Prop :=
  forall x, x \in H -> exists Y, D x *m W = W *m Y.

(** No proper non-zero invariant subspace. *)
Definition irreducible (H : {set gT}) d (D : gT -> 'M[C]_d) : Prop :=
  (0 < d)%N /\
  forall m (W : 'M[C]_(d, m)), invariant H D W -> W = 0 \/ exists V, W *m V = 1%:M.

(** Equivalence: related by a change of basis. *)
Definition equivalent (H : {set gT}) d1 d2 (D1 : gT -> 'M[C]_d1) (D2 : gT -> 'M[C]_d2) : Prop :=
  exists T : 'M[C]_(d1, d2), exists T' : 'M[C]_(d2, d1),
    [/\ T *m T' = 1%:M, T' *m T = 1%:M & forall x, x \in H -> D1 x *m T = T *m D2 x].

(** Inner product of characters (not divided by the order of the group). *)
Definition cip (H : {set gT}) d1 d2 (D1 : gT -> 'M[C]_d1) (D2 : gT -> 'M[C]_d2) : C :=
  \sum_(s in H) (\tr (D1 s))^* * \tr (D2 s).

(** The event in which a search for an intertwiner by random matrices fails: each of the
    drawn matrices R is orthogonal (for the trace product, up to atol) to one and the same
    unitary matrix U, whose dimension d is at most the root of the order m of a subgroup. *)
Definition unlucky_samples (n : nat) (rnd : nat -> forall d, 'M[C]_d) (atol : C) (max_num : nat) : Prop :=
  exists m d (U : 'M[C]_d), [/\ (0 < m <= n)%N, (0 < d ^ 2 <= m)%N, U *m adj U = 1%:M &
    forall trial i j, (trial < max_num)%N ->
      m%:R / d%:R * `|\tr (rnd trial d *m adj U)| * `|U i j| <= atol].
End Spec.
