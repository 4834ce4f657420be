(** Model of utils.py:66-121 (grassmann_distance) and representation.py:127-232
    (project_to_irrep).

    Warnings are not results: the warnings of the tolerance search are not modelled.  A
    division of a vector by its norm 0, after which NumPy goes on with nan, is the outcome
    [CWarn]. *)
From Coq Require Import String.
From mathcomp Require Import all_ssreflect all_algebra.
From Verif Require Import Py RepSpec RepModel ChainModel.
Import Order.TTheory GRing.Theory Num.Theory.
Set Implicit Arguments.
Unset Strict Implicit.
Unset Printing Implicit Defensive.
Local Open Scope ring_scope.

(** What is taken from NumPy: the Q of np.linalg.qr (reduced form), the singular values of
    np.linalg.svd, np.arccos. *)
Record linalg (C : numClosedFieldType) := LinAlg {
  la_qr : forall m n, 'M[C]_(m, n) -> 'M[C]_(m, minn m n);
  la_svd : forall m n, 'M[C]_(m, n) -> seq C;
  la_arccos : C -> C }.

Section ProjModel.
Variable C : numClosedFieldType.
Variable L : linalg C.

(** np.clip; [None] is an absent bound. *)
Definition np_clip (lo hi : option C) (x : C) : C :=
  let y := if lo is Some a then (if x < a then a else x) else x in
  if hi is Some b then (if b < y then b else y) else y.

(** utils.py:108-119, after the orthonormalisation: [sv] are the singular values.
    [sv[dim - 1]] with dim = 0 is sv[-1], the last entry, if there is one. *)
Definition distance_of (ord : string) (sv : seq C) (dim : nat) : cres C :=
  if String.eqb ord "min" then
    let i := if dim is dim'.+1 then dim' else (size sv).-1 in
    if (i < size sv)%N then
      COk (sqrtC (np_clip (Some 0) None (1 - nth 0 sv i ^+ 2)))
    else CExn IndexError
  else if String.eqb ord "projection" then
    let cs := [seq la_arccos L (np_clip (Some (-1)) (Some 1) x) ^+ 2 | x <- take dim sv] in
    if cs is [::] then CWarn else COk (sqrtC ((\sum_(x <- cs) x) / (size cs)%:R))
  else CExn ValueError.

(** utils.py:66-121 grassmann_distance.  The mean of an empty list is nan with a warning:
    [CWarn]. *)
Definition grassmann_distance k l n (basis1 : 'M[C]_(k, n)) (basis2 : 'M[C]_(l, n))
    (ord : string) (skip_orthonormalization : bool) : cres C :=
  let sv := if skip_orthonormalization then la_svd L (adj basis1^T *m basis2^T)
            else la_svd L (adj (la_qr L basis1^T) *m la_qr L basis2^T) in
  distance_of ord sv (minn k l).

(** A loop over a list with a state, which stops at the first abnormal outcome. *)
Fixpoint cfold A B (f : B -> A -> cres B) (s : seq A) (b : B) : cres B :=
  if s is a :: s' then cbind (f b a) (cfold f s') else COk b.

(** np.concatenate(blocks, axis=0). *)
Fixpoint stack d n (bs : seq 'M[C]_(d, n)) : 'M[C]_(size bs * d, n) :=
  match bs with
  | [::] => 0
  | b :: bs' => col_mx b (stack bs')
  end.

(** representation.py:178-186: basis_nj[i, m] = dim_irrep / order * sum_k
    conj(irrep[k, i, j]) representation[k, m, n]. *)
Definition projected (rep irrep : arr C) (n : 'I_(adim rep)) (j : 'I_(adim irrep)) :
    'M[C]_(adim irrep, adim rep) :=
  ((adim irrep)%:R / (aorder irrep)%:R) *:
    \matrix_(i, m) \sum_(k < aorder irrep) (aget irrep k i j)^* * aget rep k m n.

(** np.linalg.norm(M, axis=1) and the division of each row by its norm (line 192). *)
Definition row_norm d n (M : 'M[C]_(d, n)) (i : 'I_d) : C := sqrtC (\sum_m `|M i m| ^+ 2).
Definition normalise_rows d n (M : 'M[C]_(d, n)) : cres 'M[C]_(d, n) :=
  if [forall i, row_norm M i != 0] then COk (\matrix_(i, m) (M i m / row_norm M i)) else CWarn.

(** One step of the double loop, lines 178-203. *)
Definition project_step (rep irrep : arr C) (atol : C)
    (basis : seq 'M[C]_(adim irrep, adim rep)) (nj : 'I_(adim rep) * 'I_(adim irrep)) :
    cres (seq 'M[C]_(adim irrep, adim rep)) :=
  let b := projected nj.1 nj.2 in
  if allclose0 atol b then COk basis else
  cbind (normalise_rows b) (fun b =>
  if basis is [::] then COk [:: b] else
  cbind (grassmann_distance b (stack basis) "min" false) (fun dist =>
  if dist < 2%:R^-1 then COk basis else COk (rcons basis b))).

(** Lines 173-205 _project_to_irrep; [count] is the length of the list. *)
Definition project_once (rep irrep : arr C) (atol : C) :
    cres (seq 'M[C]_(adim irrep, adim rep)) :=
  cfold (project_step atol) [seq (n, j) | n <- enum 'I_(adim rep), j <- enum 'I_(adim irrep)] [::].

(** Lines 207-221: the search for a tolerance.  [trial] is _project_to_irrep, [num] the
    expected number of blocks; the result of the last trial is kept. *)
Definition atol_lb : C := (10%:R ^+ 10)^-1.
Definition atol_ub : C := (10%:R ^+ 2)^-1.
Fixpoint search_tolerance A (trial : C -> cres (seq A)) (num : int) (fuel : nat) (atol : C)
    (last : option (seq A)) : cres (option (seq A)) :=
  if fuel is fuel'.+1 then
    cbind (trial atol) (fun basis =>
    if (size basis)%:Z == num then COk (Some basis)
    else if ((size basis)%:Z < num)%R
         then search_tolerance trial num fuel' (sqrtC (atol_lb * atol)) (Some basis)
         else search_tolerance trial num fuel' (sqrtC (atol_ub * atol)) (Some basis))
  else COk last.

(** Lines 223-232 read [count], which the loop binds: without a trial it is unbound. *)
Definition adjust_tolerance A (trial : C -> cres (seq A)) (num : int) (atol : C)
    (max_num_trials : nat) : cres (seq A) :=
  cbind (search_tolerance trial num max_num_trials (np_clip (Some atol_lb) (Some atol_ub) atol) None)
        (fun r => if r is Some basis then COk basis else CExn UnboundLocalError).

(** representation.py:127-232 project_to_irrep; [around] is np.around and [rnd_int z] is
    int(np.around(np.real(z))). *)
Definition project_to_irrep (around : C -> C) (rnd_int : C -> int) (rep irrep : arr C)
    (atol : C) (max_num_trials : nat) : cres (seq 'M[C]_(adim irrep, adim rep)) :=
  if aorder rep != aorder irrep then CExn ValueError else
  let character_sum := char_sum (get_character irrep) (get_character rep) in
  let num := rnd_int (around character_sum / (aorder irrep)%:R) in
  if num == 0 then COk [::] else
  adjust_tolerance (project_once rep irrep) num atol max_num_trials.

End ProjModel.
