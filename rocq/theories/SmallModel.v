(** Model of irreps.py:28-240 (enumerate_small_representations, enumerate_unitary_irreps),
    562-668 (get_physically_irrep, purification), representation.py:294-325
    (check_spacegroup_representation) and core.py:134-260
    (get_spacegroup_irreps_from_primitive_symmetry,
    get_crystallographic_pointgroup_irreps_from_symmetry). *)
From Coq Require List.
From Coq Require Import QArith ZArith String.
From mathcomp Require Import all_ssreflect all_algebra.
From Verif Require Import Py Mat3 MatQ GroupModel PointGroupModel RepSpec RepModel CExpSpec ChainModel RandomModel.
Import Order.TTheory GRing.Theory Num.Theory.
Set Implicit Arguments.
Unset Strict Implicit.
Unset Printing Implicit Defensive.
Local Open Scope ring_scope.

(** Everything the code takes from NumPy and spglib: np.around, z ** (1/n), utils.nroot,
    the random matrices of get_intertwiner, q |-> exp(2 pi i q), eigh, the Q of qr, the
    random matrices of the random method, the order used to compare complex sort keys,
    z |-> int(around(real(z))), np.linalg.eig, and spglib's get_pointgroup. *)
Record numpy (C : numClosedFieldType) := NumPy {
  np_around : C -> C;
  np_powinv : C -> nat -> C;
  np_nroot : C -> nat -> C;
  np_rnd : nat -> forall d, 'M[C]_d;
  np_exp : Q -> C;
  np_eigh : forall n, 'M[C]_n -> seq C * 'M[C]_n;
  np_qr : forall n k, 'M[C]_(n, k) -> 'M[C]_(n, k);
  np_hrnd : nat -> forall n, 'M[C]_n;
  np_key_le : C -> C -> bool;
  np_int : C -> int;
  np_eig : forall n, 'M[C]_n -> seq C * 'M[C]_n;
  spglib_pointgroup : list mat -> string * qmat }.

Section SmallModel.
Variable C : numClosedFieldType.
Local Notation arr := (arr C).
Variable E : numpy C.
Local Notation cexp := (np_exp E).

(** A rational number as an element of C. *)
Definition zC (z : Z) : C := match z with Z0 => 0 | Zpos p => (Pos.to_nat p)%:R | Zneg p => - (Pos.to_nat p)%:R end.
Definition qC (q : Q) : C := zC (Qnum q) / (Pos.to_nat (Qden q))%:R.

(** Elementwise operation on an array. *)
Definition amap (f : C -> C) (A : arr) : arr := @Arr C (adim A) [seq map_mx f M | M <- amats A].

(** irreps.py:639-649: the special values, in the order of the list. *)
Definition special_values : seq C :=
  [:: 0; 1; cexp (Qmake 1 6); cexp (Qmake 1 4); cexp (Qmake 1 3); -1; cexp (Qmake 2 3); cexp (Qmake 3 4); cexp (Qmake 5 6)].
(** irreps.py:650-651: [irrep[abs(irrep - v) < atol] = v] for every special value in turn. *)
Definition snap (atol : C) (values : seq C) (x : C) : C :=
  foldl (fun y v => if `|y - v| < atol then v else y) x values.
(** irreps.py:636-653 (the array is modified in place; the model returns the new array). *)
Definition purify_irrep_value (atol : C) (A : arr) : arr := amap (snap atol special_values) A.
(** irreps.py:656-668. *)
Definition real_values : seq C :=
  [:: 0; 1; 2%:R^-1; sqrtC 3%:R / 2%:R; - 2%:R^-1; - (sqrtC 3%:R / 2%:R); -1].
Definition purify_real_irrep_value (atol : C) (A : arr) : arr := amap (snap atol real_values) A.

(** irreps.py:176-202: the irreps before purification and whether no warning was given. *)
Definition raw_irreps (method : string) (rots : list mat) (mu : nat -> nat -> C) (rtol atol : Q) (max_num : nat)
  : cres (seq arr * bool) :=
  if String.eqb method "Neto" then
    cbind (clift (get_cayley_table rots)) (fun t =>
    let pg := spglib_pointgroup E rots in
    match get_pointgroup_chain_generators pg.1 pg.2 rots with
    | None => CDiverge
    | Some g => cbind (clift g) (fun gens =>
        enumerate_unitary_irreps_from_solvable_group_chain (np_around E) (np_powinv E) (np_nroot E) (np_rnd E) cexp
          t mu (qC atol) max_num gens)
    end)
  else if String.eqb method "random" then
    cbind (clift (get_projective_regular_representation rots mu)) (fun reg =>
    clift (enumerate_unitary_irreps_from_regular_representation (np_around E) (np_eigh E) (np_qr E) (np_hrnd E)
             (np_key_le E) (qC rtol) (amats reg) max_num))
  else CExn ValueError.

(** irreps.py:104-119, 210-225: the pairs of conjugate irreps. *)
Fixpoint pair_loop (chars : seq (seq C)) (todo : seq nat) (visited : seq bool) : seq (nat * nat) :=
  if todo is i :: todo' then
    if nth true visited i then pair_loop chars todo' visited
    else
      let visited := set_nth true visited i true in
      let ci := [seq x^* | x <- nth [::] chars i] in
      let j := find (fun j => ~~ nth true visited j && is_equivalent_irrep (np_around E) ci (nth [::] chars j))
                    (iota 0 (size chars)) in
      if (j < size chars)%N then (i, j) :: pair_loop chars todo' (set_nth true visited j true)
      else (i, i) :: pair_loop chars todo' visited
  else [::].
Definition conjugated_pairs (irreps : seq arr) : seq (nat * nat) :=
  let chars := [seq get_character A | A <- irreps] in
  pair_loop chars (iota 0 (size irreps)) (nseq (size irreps) false).

(** irreps.py:600-607: real unit vectors from the columns of the eigenvector matrix. *)
Definition real_vector (atol : C) d (v : 'cV[C]_d) : 'cV[C]_d :=
  let re := map_mx (fun z => 'Re z) v in
  let w := if allclose0 atol re then map_mx (fun z => 'Im z) v else re in
  (sqrtC (\sum_i w i 0 * w i 0))^-1 *: w.
(** irreps.py:602-613: T = S^T diag(sqrt(eigvals)) S. *)
Definition sqrt_intertwiner (atol : C) d (U : 'M[C]_d) : 'M[C]_d :=
  let ev := np_eig E U in
  let S := \matrix_(i, j) (real_vector atol (col j ev.2)) i 0 in
  S^T *m diag_mx (\row_i np_nroot E (nth 0 ev.1 i) 2) *m S.
(** irreps.py:618-623: [[Re D, Im D], [-Im D, Re D]]. *)
Definition real_blocks d (M : 'M[C]_d) : 'M[C]_(d + d) :=
  block_mx (map_mx (fun z => 'Re z) M) (map_mx (fun z => 'Im z) M)
           (- map_mx (fun z => 'Im z) M) (map_mx (fun z => 'Re z) M).
(** irreps.py:562-624.  For another indicator the name real_irrep is unbound. *)
Definition get_physically_irrep (A : arr) (indicator : int) (atol : C) (max_num : nat) : cres arr :=
  if indicator == 1 then
    match get_intertwiner_mats (np_powinv E) (np_rnd E) atol max_num (amats A) [seq map_mx conjC M | M <- amats A] with
    | None => CWarn
    | Some U =>
        let T := sqrt_intertwiner atol U in
        COk (@Arr C (adim A) [seq map_mx (fun z => 'Re z) (T *m M *m map_mx conjC T) | M <- amats A])
    end
  else if (indicator == -1) || (indicator == 0) then COk (@Arr C (adim A + adim A) [seq real_blocks M | M <- amats A])
  else CExn UnboundLocalError.

(** irreps.py:121-140, 227-238: the real irreps; [zero] tells whether the indicator is
    overwritten by 0. *)
Definition physically_irreps (irreps : seq arr) (zero : bool) (atol : C) (max_num : nat) : cres (seq arr * seq int) :=
  cbind (cmap (fun p : nat * nat =>
      let A := nth (@Arr C 0 [::]) irreps p.1 in
      cbind (clift (frobenius_schur_indicator (np_int E) A)) (fun ind =>
      let ind := if zero then 0 else ind in
      cbind (get_physically_irrep A ind atol max_num) (fun R =>
      COk (purify_real_irrep_value atol R, ind)))) (conjugated_pairs irreps)) (fun l =>
  COk ([seq x.1 | x <- l], [seq x.2 | x <- l])).

(** irreps.py:144-240.  The result is (irreps, indicators) and the flag "no warning". *)
Definition enumerate_unitary_irreps (rots : list mat) (mu : nat -> nat -> C) (real : bool) (method : string)
    (rtol atol : Q) (max_num : nat) : cres (seq arr * seq int * bool) :=
  cbind (raw_irreps method rots mu rtol atol max_num) (fun raw =>
  let irreps := [seq purify_irrep_value (qC atol) A | A <- raw.1] in
  if ~~ real then
    cbind (cmap (fun A => clift (frobenius_schur_indicator (np_int E) A)) irreps) (fun inds =>
    COk (irreps, inds, raw.2))
  else cbind (physically_irreps irreps false (qC atol) max_num) (fun r => COk (r, raw.2))).

(** group.py:101-139 get_factor_system_from_little_group: exp(-2 pi i phase). *)
Definition little_factor_system (rots : list mat) (trans : list vec) (k : vec) (i j : nat) : C :=
  cexp (Qopp (factor_phase rots trans k i j)).

(** irreps.py:90-98: multiplication with the phases exp(-2 pi i k.w). *)
Definition apply_phases (trans : list vec) (k : vec) (A : arr) : arr :=
  @Arr C (adim A) [seq cexp (Qopp (vdot k x.2)) *: x.1 | x <- zip (amats A) trans].

(** irreps.py:127-131: [two_kpoint - rint(two_kpoint)] close to 0 (NumPy's default atol). *)
Definition two_k_integral (k : vec) : bool := vall (close0 atol_default) (frac_near (vadd k k)).

(** irreps.py:28-141. *)
Definition enumerate_small_representations (rots : list mat) (trans : list vec) (k : vec) (real : bool) (method : string)
    (rtol atol : Q) (max_num : nat) : cres (seq arr * seq int * bool) :=
  cbind (enumerate_unitary_irreps rots (little_factor_system rots trans k) false method rtol atol max_num) (fun co =>
  let irreps := [seq apply_phases trans k A | A <- co.1.1] in
  if ~~ real then
    cbind (cmap (fun A => clift (frobenius_schur_indicator (np_int E) A)) irreps) (fun inds =>
    COk (irreps, inds, co.2))
  else cbind (physically_irreps irreps (~~ two_k_integral k) (qC atol) max_num) (fun r => COk (r, co.2))).

(** core.py:189-194: the sanity check on the cell.  np.allclose(rotation, eye(3)) on
    integer matrices is modelled by equality (rtol + atol < 1). *)
Definition not_primitive (atol : Q) (rots : list mat) (trans : list vec) : bool :=
  List.existsb (fun x => meqb (fst x) mid && negb (vall (close0 atol) (snd x))) (List.combine rots trans).
(** core.py:134-215: irreps, the mapping of the little group, and the flag "no warning". *)
Definition get_spacegroup_irreps_from_primitive_symmetry (rots : list mat) (trans : list vec) (k : vec) (real : bool)
    (method : string) (rtol atol : Q) (max_num : nat) : cres (seq arr * list nat * bool) :=
  if not_primitive atol rots trans then CExn ValueError
  else
    let: (lr, lt, lm) := get_little_group rots trans k atol in
    cbind (enumerate_small_representations lr lt k real method rtol atol max_num) (fun r =>
    COk (r.1.1, lm, r.2)).
(** core.py:218-260. *)
Definition get_crystallographic_pointgroup_irreps_from_symmetry (rots : list mat) (real : bool) (method : string)
    (rtol atol : Q) (max_num : nat) : cres (seq arr * bool) :=
  cbind (enumerate_unitary_irreps rots (fun _ _ => 1) real method rtol atol max_num) (fun r => COk (r.1.1, r.2)).

(** representation.py:294-325 check_spacegroup_representation: the pairs are visited in
    order and the function returns at the first failing one; [close] is np.allclose. *)
Definition check_pair (close : forall d, 'M[C]_d -> 'M[C]_d -> bool) (rots : list mat) (trans : list vec) (k : vec)
    (A : arr) (z : nat -> nat -> C) (ij : nat * nat) : pyres bool :=
  let: (i, j) := ij in
  let r1 := List.nth i rots mid in let r2 := List.nth j rots mid in
  let t12 := vadd (mvec r1 (List.nth j trans vzero)) (List.nth i trans vzero) in
  bind (index_or_raise (meqb (mmul r1 r2)) rots) (fun idx =>
    Ret (close _ ((z i j * cexp (Qopp (vdot k (vsub t12 (List.nth idx trans vzero))))) *: aget A idx)
                 (aget A i *m aget A j))).
Definition check_spacegroup_representation (close : forall d, 'M[C]_d -> 'M[C]_d -> bool) (rots : list mat)
    (trans : list vec) (k : vec) (A : arr) (z : nat -> nat -> C) : pyres bool :=
  let n := minn (List.length rots) (minn (List.length trans) (aorder A)) in
  allM (check_pair close rots trans k A z) (List.list_prod (List.seq 0 n) (List.seq 0 n)).
End SmallModel.
