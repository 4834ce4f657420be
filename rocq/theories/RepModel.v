(** Model of src/spgrep/representation.py and of the character helpers of irreps.py,
    over an algebraically closed field C with complex conjugation (exact arithmetic).

    An ndarray of shape (order, dim, dim) is a sequence of [order] square matrices. *)
From Coq Require Import QArith.
From mathcomp Require Import all_ssreflect all_algebra.
From mathcomp.real_closed Require Import mxtens.
From Verif Require Import Py GroupModel RepSpec.
Import Order.TTheory GRing.Theory Num.Theory.
Set Implicit Arguments.
Unset Strict Implicit.
Unset Printing Implicit Defensive.
Local Open Scope ring_scope.

Section RepModel.
Variable C : numClosedFieldType.

(** An array of shape (size amats, adim, adim). *)
Record arr := Arr { adim : nat; amats : seq 'M[C]_adim }.
Definition aorder (A : arr) : nat := size (amats A).
(** [A[i]]; only used in range (IndexError otherwise). *)
Definition aget (A : arr) (i : nat) : 'M[C]_(adim A) := nth 0 (amats A) i.

(** Complex numbers come with NumPy's elementary functions, which the model receives as
    arguments: [around] is np.around, [cpowinv z n] is z ** (1/n), [rnd t d] is the d x d
    random complex matrix drawn in trial t by a generator freshly seeded with 0. *)
Variable around : C -> C.
Variable cpowinv : C -> nat -> C.
Variable rnd : nat -> forall d, 'M[C]_d.

(** representation.py:112-124 get_character: [einsum("ijj->i")]. *)
Definition get_character_mats d (ms : seq 'M[C]_d) : seq C := [seq \tr M | M <- ms].
Definition get_character (A : arr) : seq C := get_character_mats (amats A).

(** irreps.py:627-633 is_equivalent_irrep.  Both characters have the same length (NumPy
    raises otherwise; all callers pass characters of the same group). *)
Definition char_sum (c1 c2 : seq C) : C := \sum_(x <- zip c1 c2) (x.1)^* * x.2.
Definition is_equivalent_irrep (c1 c2 : seq C) : bool :=
  around (char_sum c1 c2) == (size c1)%:R.

(** np.allclose(M, 0, atol=atol): |M_ij| <= atol for all entries. *)
Definition allclose0 (atol : C) m n (M : 'M[C]_(m, n)) : bool :=
  [forall i, forall j, `|M i j| <= atol].

(** representation.py:102: einsum("kil,lm,kjm->ij", rep1, random, conj(rep2)). *)
Definition intertwiner_sum d (rep1 rep2 : seq 'M[C]_d) (R : 'M[C]_d) : 'M[C]_d :=
  \sum_(x <- zip rep1 rep2) x.1 *m R *m adj x.2.

(** representation.py:99-109, the loop over random matrices; None = the warning branch,
    in which zeros are returned. *)
Fixpoint intertwiner_search (atol : C) d (rep1 rep2 : seq 'M[C]_d) (trials trial : nat) : option 'M[C]_d :=
  if trials is trials'.+1 then
    let M := intertwiner_sum rep1 rep2 (rnd trial d) in
    if allclose0 atol M then intertwiner_search atol rep1 rep2 trials' trial.+1
    else Some ((cpowinv (\det M) d)^-1 *: M)
  else None.

(** representation.py:69-109 get_intertwiner for arrays already known to have the same
    shape. *)
Definition get_intertwiner_mats (atol : C) (max_num : nat) d (rep1 rep2 : seq 'M[C]_d) : option 'M[C]_d :=
  intertwiner_search atol rep1 rep2 max_num 0.

(** representation.py:69-109 get_intertwiner with the shape assertion (line 96).  The
    result is (matrix, True) or (zeros, False) where False marks the warning. *)
Definition get_intertwiner (atol : C) (max_num : nat) (rep1 rep2 : arr)
  : pyres ('M[C]_(adim rep1) * bool) :=
  match adim rep2 =P adim rep1 with
  | ReflectT e =>
      if aorder rep1 == aorder rep2 then
        match get_intertwiner_mats atol max_num (amats rep1)
                (ecast d (seq 'M[C]_d) e (amats rep2)) with
        | Some M => Ret (M, true)
        | None => Ret (0, false)
        end
      else Raise AssertionError
  | ReflectF _ => Raise AssertionError
  end.

(** representation.py:36-38, 62-64: [zeros((n, n, n))], then for (k, j) in
    product(range(n), repeat=2) the assignment [reg[k, table[k, j], j] = factor_system[k, j]].
    A rank-three array is a function of its indices. *)
Definition set3 (a : nat -> nat -> nat -> C) (k i j : nat) (v : C) : nat -> nat -> nat -> C :=
  fun k' i' j' => if [&& k' == k, i' == i & j' == j] then v else a k' i' j'.
Definition fill_regular (t : table) (mu : nat -> nat -> C) (s : seq (nat * nat)) : nat -> nat -> nat -> C :=
  foldl (fun a kj => set3 a kj.1 (tget t kj.1 kj.2) kj.2 (mu kj.1 kj.2)) (fun _ _ _ => 0) s.
Definition regular_mats (t : table) (mu : nat -> nat -> C) (n : nat) : seq 'M[C]_n :=
  let reg := fill_regular t mu [seq (k, j) | k <- iota 0 n, j <- iota 0 n] in
  [seq \matrix_(i < n, j < n) reg k (val i) (val j) | k <- iota 0 n].
(** representation.py:20-40 and 43-66. *)
Definition get_projective_regular_representation (rots : list Mat3.mat) (mu : nat -> nat -> C) : pyres arr :=
  pymap (fun t => @Arr (size rots) (regular_mats t mu (size rots))) (get_cayley_table rots).
Definition get_regular_representation (rots : list Mat3.mat) : pyres arr :=
  get_projective_regular_representation rots (fun _ _ => 1).

(** representation.py:235-241 is_unitary; [close] is np.allclose on matrices. *)
Definition is_unitary (close : forall d, 'M[C]_d -> 'M[C]_d -> bool) (A : arr) : bool :=
  all (fun M => close _ (M *m adj M) 1%:M) (amats A).

(** representation.py:244-263 is_representation. *)
Definition is_representation (close : forall d, 'M[C]_d -> 'M[C]_d -> bool)
    (A : arr) (t : table) (mu : nat -> nat -> C) : bool :=
  all (fun i => all (fun j => close _ (aget A i *m aget A j) (mu i j *: aget A (tget t i j)))
                    (iota 0 (aorder A))) (iota 0 (aorder A)).

(** representation.py:266-291 frobenius_schur_indicator; [rnd_int z] is
    int(np.around(np.real(z))). *)
Definition frobenius_schur_indicator (rnd_int : C -> int) (A : arr) : pyres int :=
  let ind := rnd_int ((\sum_(M <- amats A) \sum_i \sum_j M i j * M j i) / (aorder A)%:R) in
  if 1 < ind then Raise ValueError else Ret ind.

(** representation.py:328-352 get_direct_product: entry ((i,a),(j,b)) of the reshaped
    array is rep1[k,i,j] * rep2[k,a,b], with row index i*dim2 + a. *)
Definition get_direct_product (A B : arr) : pyres arr :=
  if aorder A == aorder B then
    Ret (@Arr (adim A * adim B)%N
          [seq \matrix_(x, y) (z.1 (mxtens_unindex x).1 (mxtens_unindex y).1 *
                               z.2 (mxtens_unindex x).2 (mxtens_unindex y).2)
          | z : 'M[C]_(adim A) * 'M[C]_(adim B) <- zip (amats A) (amats B)])
  else Raise ValueError.

End RepModel.
