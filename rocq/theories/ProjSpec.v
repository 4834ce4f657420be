(** Specification vocabulary for the projection onto irreps and for distances between
    subspaces.  A subspace of C^n is the row space of a matrix.  Nothing here refers to the
    model functions except the record of numerical routines. *)
From mathcomp Require Import all_ssreflect all_algebra.
From Verif Require Import RepSpec ProjModel.
Import Order.TTheory GRing.Theory Num.Theory.
Set Implicit Arguments.
Unset Strict Implicit.
Unset Printing Implicit Defensive.
Local Open Scope ring_scope.

Section Spec.
Variable C : numClosedFieldType.

(** What the numerical routines are trusted to return, in exact arithmetic: an orthonormal
    system of columns whose span contains the columns of A, and the singular values in
    descending order. *)
Record linalg_ok (L : linalg C) : Prop := LinAlgOk {
  lo_qr : forall m n (A : 'M[C]_(m, n)),
    adj (la_qr L A) *m la_qr L A = 1%:M /\ exists R, A = la_qr L A *m R;
  lo_svd : forall m n (A : 'M[C]_(m, n)), let sv := la_svd L A in
    [/\ size sv = minn m n, forall i, 0 <= nth 0 sv i,
        forall i j, (i <= j < size sv)%N -> nth 0 sv j <= nth 0 sv i &
        exists (U : 'M[C]_m) (V : 'M[C]_n), [/\ U *m adj U = 1%:M, V *m adj V = 1%:M &
          A = U *m (\matrix_(i < m, j < n) if (i == j :> nat)%N then nth 0 sv i else 0) *m adj V]] }.

(** Squared length of a vector. *)
Definition sqnorm n (v : 'rV[C]_n) : C := \sum_i `|v 0 i| ^+ 2.

(** The rows of B are orthonormal. *)
Definition orthonormal k n (B : 'M[C]_(k, n)) : Prop := B *m adj B = 1%:M.

(** d is the largest distance of a unit vector of the space of S to the space of T. *)
Record largest_gap k l n (S : 'M[C]_(k, n)) (T : 'M[C]_(l, n)) (d : C) : Prop := LargestGap {
  lg_bound : forall v : 'rV[C]_n, (v <= S)%MS ->
    exists2 w : 'rV[C]_n, (w <= T)%MS & sqnorm (v - w) <= d ^+ 2 * sqnorm v;
  lg_attained : exists v : 'rV[C]_n, [/\ v != 0, (v <= S)%MS &
    forall w : 'rV[C]_n, (w <= T)%MS -> d ^+ 2 * sqnorm v <= sqnorm (v - w)] }.

(** Principal vectors: P is an orthonormal basis of the space of S, the rows of R are
    orthonormal vectors in the space of T, and the orthogonal projection of the i-th row of P
    onto the space of T is c_i times the i-th row of R. *)
Definition principal_pairs k l n (S : 'M[C]_(k, n)) (T : 'M[C]_(l, n)) (c : nat -> C) : Prop :=
  exists P R : 'M[C]_(k, n), [/\ orthonormal P /\ (P :=: S)%MS, orthonormal R /\ (R <= T)%MS,
    forall i : 'I_k, (row i P - c i *: row i R) *m adj T = 0 &
    forall i : 'I_k, 0 <= c i /\ c i <= 1].

(** The rows of b transform under R as the basis vectors of D:
    R(g) b_i = sum_l b_l D(g)_li for every g < n. *)
Definition transforms (n N d : nat) (R : nat -> 'M[C]_N) (D : nat -> 'M[C]_d) (b : 'M[C]_(d, N)) : Prop :=
  forall g i, (g < n)%N -> R g *m (row i b)^T = \sum_l D g l i *: (row l b)^T.

(** The blocks in a list are linearly independent: a vanishing combination of all their
    rows has vanishing coefficients. *)
Definition independent (N d : nat) (bs : seq 'M[C]_(d, N)) : Prop :=
  forall c : nat -> 'rV[C]_d, \sum_(a < size bs) c a *m nth 0 bs a = 0 ->
    forall a, (a < size bs)%N -> c a = 0.

(** The sequence of trials of a search for a tolerance, with result [res]: [ts] are the
    tolerances tried, [out t] is the list found with tolerance t, [num] the expected length,
    [a0] the first tolerance, [lb] and [ub] the bounds of the search. *)
Record tolerance_trials (A : Type) (out : C -> seq A) (num : int) (a0 lb ub : C) (max : nat)
    (ts : seq C) (res : seq A) : Prop := {
  tt_count : (0 < size ts <= max)%N;
  tt_first : nth 0 ts 0 = a0;
  tt_next : forall i, (i.+1 < size ts)%N ->
    [/\ (size (out (nth 0 ts i)))%:Z <> num,
        0 <= nth 0 ts i.+1 &
        nth 0 ts i.+1 ^+ 2 = (if (size (out (nth 0 ts i)))%:Z < num then lb else ub) * nth 0 ts i];
  tt_result : res = out (last 0 ts);
  tt_stop : (size res)%:Z = num \/ size ts = max }.

End Spec.
