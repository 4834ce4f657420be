(** Model of the random method: irreps.py:243-302
    enumerate_unitary_irreps_from_regular_representation, 305-349 decompose_representation
    and 352-405 _get_irreps_from_matrix. *)
From mathcomp Require Import all_ssreflect all_algebra.
From Verif Require Import Py RepSpec RepModel.
Import Order.TTheory GRing.Theory Num.Theory.
Set Implicit Arguments.
Unset Strict Implicit.
Unset Printing Implicit Defensive.
Local Open Scope ring_scope.

Section RandomModel.
Variable C : numClosedFieldType.
Local Notation arr := (arr C).
(** NumPy functions received as arguments: np.around; np.linalg.eigh (eigenvalues, matrix of
    column eigenvectors); the first component of np.linalg.qr; the random complex matrix
    [rng.random((n, n)) + rng.random((n, n)) * 1j] drawn in a trial; the comparison of
    complex sort keys. *)
Variable around : C -> C.
Variable eigh : forall n, 'M[C]_n -> seq C * 'M[C]_n.
Variable qr_q : forall n k, 'M[C]_(n, k) -> 'M[C]_(n, k).
Variable hrnd : nat -> forall n, 'M[C]_n.
Variable key_le : C -> C -> bool.
Variable rtol : C.

(** np.isclose(a, b, rtol=rtol) with NumPy's default atol = 1e-8. *)
Definition np_isclose (a b : C) : bool := `|a - b| <= (10 ^ 8)%:R^-1 + rtol * `|b|.

(** irreps.py:358-369: one eigenvector joins the first space whose eigenvalue is close, or
    opens a new space. *)
Fixpoint add_eig n (ev : C) (v : 'cV[C]_n) (spaces : seq (C * seq 'cV[C]_n)) : seq (C * seq 'cV[C]_n) :=
  if spaces is (ev2, vs) :: rest then
    if np_isclose ev ev2 then (ev2, rcons vs v) :: rest else (ev2, vs) :: add_eig ev v rest
  else [:: (ev, [:: v])].
(** The loop over zip(eigvals, eigvecs.T). *)
Definition eigenspaces n (evs : seq C) (V : 'M[C]_n) : seq (C * seq 'cV[C]_n) :=
  foldl (fun sp x => add_eig x.1 x.2 sp) [::] (zip evs [seq col j V | j <- enum 'I_n]).

(** np.transpose(list_eigvecs): the vectors as columns. *)
Definition columns n (vs : seq 'cV[C]_n) : 'M[C]_(n, size vs) := \matrix_(i, j) (nth 0 vs j) i 0.

(** irreps.py:374-402, one pass of the loop; the state is (irreps, characters). *)
Definition try_space (reg : arr) (st : seq arr * seq (seq C)) (sp : C * seq 'cV[C]_(adim reg)) : seq arr * seq (seq C) :=
  let T := qr_q (columns sp.2) in
  let character := [seq \tr (adj T *m M *m T) | M <- amats reg] in
  if ~~ is_equivalent_irrep around character character then st
  else if has (fun character2 => np_isclose (around (char_sum character character2)) (aorder reg)%:R) st.2 then st
  else (rcons st.1 (Arr [seq adj T *m M *m T | M <- amats reg]), rcons st.2 character).

(** irreps.py:404: the key (dim, -sum(character)), compared as a tuple. *)
Definition key_rel (st : seq arr * seq (seq C)) (i j : nat) : bool :=
  let di := adim (nth (Arr (adim := 0) [::]) st.1 i) in
  let dj := adim (nth (Arr (adim := 0) [::]) st.1 j) in
  if di == dj then key_le (- \sum_(x <- nth [::] st.2 i) x) (- \sum_(x <- nth [::] st.2 j) x) else (di < dj)%N.

(** irreps.py:352-407. *)
Definition get_irreps_from_matrix (reg : arr) (M : 'M[C]_(adim reg)) : seq arr :=
  let ev := eigh M in
  let st := foldl (try_space (reg := reg)) ([::], [::]) (eigenspaces ev.1 ev.2) in
  [seq nth (Arr (adim := 0) [::]) st.1 i | i <- sort (key_rel st) (iota 0 (size st.1))].

(** irreps.py:270-274: [np.nonzero(reg[m, i, :])[0]]; assigning an array of another length
    than one to a single element raises ValueError. *)
Definition lookup n (ms : seq 'M[C]_n) (m : nat) (i : 'I_n) : option 'I_n :=
  if [seq j <- enum 'I_n | nth 0 ms m i j != 0] is [:: j] then Some j else None.

(** irreps.py:278-280: random Hermitian matrix. *)
Definition hermite_random (trial n : nat) : 'M[C]_n := hrnd trial n + adj (hrnd trial n).

(** irreps.py:282-286: [hermite_random[lookup[m, meshi], lookup[m, meshj]]] with
    [meshi, meshj = np.meshgrid(range(n), range(n))].  np.meshgrid uses "xy" indexing by
    default, so meshi[i, j] = j and meshj[i, j] = i. *)
Definition reordered n (ms : seq 'M[C]_n) (H : 'M[C]_n) (m : nat) (i j : 'I_n) : C :=
  let meshi := j in let meshj := i in
  match lookup ms m meshi, lookup ms m meshj with Some a, Some b => H a b | _, _ => 0 end.
Definition reg_nonzero n (ms : seq 'M[C]_n) (m : nat) (i : 'I_n) : C :=
  if lookup ms m i is Some j then nth 0 ms m i j else 0.
(** irreps.py:292-295. *)
Definition averaged n (ms : seq 'M[C]_n) (H : 'M[C]_n) : 'M[C]_n :=
  \matrix_(i, j) \sum_(m < n) reg_nonzero ms m i * reordered ms H m i j * (reg_nonzero ms m j)^*.

(** irreps.py:277-302, the trials; the flag is false after the warning. *)
Fixpoint regular_loop n (ms : seq 'M[C]_n) (trials trial : nat) : seq arr * bool :=
  if trials is trials'.+1 then
    let irreps := @get_irreps_from_matrix (Arr ms) (averaged ms (hermite_random trial n)) in
    if (\sum_(A <- irreps) adim A ^ 2)%N == n then (irreps, true) else regular_loop ms trials' trial.+1
  else ([::], false).
(** irreps.py:243-302, for an array of shape (n, n, n). *)
Definition enumerate_unitary_irreps_from_regular_representation n (ms : seq 'M[C]_n) (max_num : nat)
  : pyres (seq arr * bool) :=
  if [forall m : 'I_n, forall i : 'I_n, lookup ms m i != None] then Ret (regular_loop ms max_num 0)
  else Raise ValueError.

(** irreps.py:305-349. *)
Fixpoint decompose_loop (rep : arr) (trials trial : nat) : seq arr * bool :=
  if trials is trials'.+1 then
    let H := hermite_random trial (adim rep) in
    let irreps := @get_irreps_from_matrix rep (\sum_(M <- amats rep) M *m H *m adj M) in
    if (\sum_(A <- irreps) adim A)%N == adim rep then (irreps, true) else decompose_loop rep trials' trial.+1
  else ([::], false).
Definition decompose_representation (rep : arr) (max_num : nat) : seq arr * bool :=
  decompose_loop rep max_num 0.
End RandomModel.
