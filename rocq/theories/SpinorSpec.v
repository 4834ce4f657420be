(** Rotations, their action on spinors, and what is assumed of the trigonometric functions
    and of np.linalg.eig. *)
From Coq Require List.
From Coq Require Import QArith ZArith.
From mathcomp Require Import all_ssreflect all_algebra.
From Verif Require Import Py Mat3 RepSpec Mx2 SmallModel SpinorModel.
Import Order.TTheory GRing.Theory Num.Theory.
Set Implicit Arguments.
Unset Strict Implicit.
Unset Printing Implicit Defensive.
Local Open Scope ring_scope.

Section Spec.
Variable C : numClosedFieldType.
Definition real_mx m n (A : 'M[C]_(m, n)) : Prop := forall i j, A i j \is Num.real.
(** The rows of L are a basis of real space. *)
Definition lattice_ok (L : 'M[C]_3) : Prop := real_mx L /\ L \in unitmx.
(** The rotation r, acting on coordinates, preserves scalar products. *)
Definition preserves_metric (L : 'M[C]_3) (r : mat) : Prop :=
  (mC C r)^T *m (L *m L^T) *m mC C r = L *m L^T.

(** v.sigma for the Pauli matrices sigma. *)
Definition pauli (v : 'cV[C]_3) : 'M[C]_2 :=
  mx2 (v x2 0) (v x0 0 - 'i * v x1 0) (v x0 0 + 'i * v x1 0) (- v x2 0).
(** U is in SU(2) and acts on spin as the rotation R acts on vectors. *)
Definition spin_lift (U : 'M[C]_2) (R : 'M[C]_3) : Prop :=
  [/\ U *m adj U = 1%:M, \det U = 1 & forall v, U *m pauli v *m adj U = pauli (R *m v)].

(** The Cartesian matrix of the rotation r, which acts on coordinates, i.e. as L^T r L^-T. *)
Definition is_cartesian (L : 'M[C]_3) (r : mat) (R : 'M[C]_3) : Prop := R *m L^T = L^T *m mC C r.
(** U acts on spin as the proper part of r: r itself, or -r when r is improper. *)
Definition spin_rotation (L : 'M[C]_3) (r : mat) (U : 'M[C]_2) : Prop :=
  forall R, is_cartesian L r R -> spin_lift U (zC C (mdet r) *: R).
(** S r is such a matrix for every r of the list and zeta its multipliers. *)
Record spin_system (L : 'M[C]_3) (rots : list mat) (S : mat -> 'M[C]_2) (zeta : mat -> mat -> C) : Prop := {
  ss_spin : forall r, List.In r rots -> spin_rotation L r (S r);
  ss_id : S mid = 1%:M;
  ss_sign : forall a b, List.In a rots -> List.In b rots -> zeta a b = 1 \/ zeta a b = -1;
  ss_mul : forall a b, List.In a rots -> List.In b rots -> S a *m S b = zeta a b *: S (mmul a b) }.

Record trig_ok (G : trig C) : Prop := {
  tg_cos0 : t_cos G 0 = 1;
  tg_sin0 : t_sin G 0 = 0;
  tg_cospi : t_cos G (2%:R^-1 * t_pi G) = 0;
  tg_sinpi : t_sin G (2%:R^-1 * t_pi G) = 1;
  (** half of the angle whose sine is s and whose cosine is c *)
  tg_half : forall s c, s \is Num.real -> c \is Num.real -> 0 <= s -> s ^+ 2 + c ^+ 2 = 1 ->
    let t := 2%:R^-1 * t_arctan2 G s c in
    [/\ t_cos G t \is Num.real, t_sin G t \is Num.real, t_cos G t ^+ 2 + t_sin G t ^+ 2 = 1,
        t_cos G t ^+ 2 - t_sin G t ^+ 2 = c & 2%:R * t_cos G t * t_sin G t = s] }.

(** The eigenvalues with multiplicity, and an eigenvector for each of them, which is real when
    the matrix and the eigenvalue are. *)
Definition eig_ok (E : numpy C) : Prop := forall n (M : 'M[C]_n),
  let: (vals, vecs) := np_eig E M in
  [/\ size vals = n, char_poly M = \prod_(x <- vals) ('X - x%:P) &
      forall i : 'I_n, [/\ col i vecs != 0, M *m col i vecs = nth 0 vals i *: col i vecs &
        real_mx M -> nth 0 vals i \is Num.real -> real_mx (col i vecs)]].
End Spec.
