(** Model of tensor.py: get_symmetry_adapted_tensors (14-80) and apply_intrinsic_symmetry
    (83-121).

    A tensor of rank p+1 over C^m is an ndarray of shape (m, ..., m).  It is modelled by its
    flattening in C order, the row [T.reshape(-1)]; [flat] gives the position of a
    multi-index. *)
From Coq Require Import QArith ZArith String.
From mathcomp Require Import all_ssreflect all_algebra all_fingroup.
From mathcomp.real_closed Require Import mxtens.
From Verif Require Import Py Mat3 MatQ GroupModel PointGroupModel RepSpec RepModel ChainModel ProjModel SmallModel.
Import Order.TTheory GRing.Theory Num.Theory.
Set Implicit Arguments.
Unset Strict Implicit.
Unset Printing Implicit Defensive.
Local Open Scope ring_scope.

(** Number of entries of a tensor of rank p+1. *)
Fixpoint tdim (m p : nat) : nat := if p is p'.+1 then tdim m p' * m else m.

(** C order: the position of (x_0, ..., x_p) is (position of (x_0, ..., x_{p-1})) * m + x_p
    ([mxtens_index]). *)
Fixpoint flat m p : {ffun 'I_p.+1 -> 'I_m} -> 'I_(tdim m p) :=
  match p with
  | 0%N => fun x => x ord0
  | p'.+1 => fun x => mxtens_index (flat [ffun j => x (lift ord_max j)], x ord_max)
  end.
Fixpoint unflat m p : 'I_(tdim m p) -> {ffun 'I_p.+1 -> 'I_m} :=
  match p with
  | 0%N => fun k => [ffun=> k]
  | p'.+1 => fun k => let: (a, b) := mxtens_unindex k in
      [ffun j => if unlift ord_max j is Some j' then unflat a j' else b]
  end.

Section TensorModel.
Variable C : numClosedFieldType.

(** ** get_symmetry_adapted_tensors *)

(** An entry (basis, irrep) of all_tensor_basis: basis has shape (dim_irrep, dim, ..., dim). *)
Record tblock (N : nat) := TBlock { tb_irrep : arr C; tb_basis : 'M[C]_(adim tb_irrep, N) }.

Section Projections.
Variable L : linalg C.
Variable around : C -> C.
Variable rnd_int : C -> int.
Variable atol : C.

(** tensor.py:39-43 and 60-63: all the blocks of a representation, irrep by irrep;
    project_to_irrep is called with its default of ten trials. *)
Definition project_each (irreps : seq (arr C)) (rep : arr C) : cres (seq (tblock (adim rep))) :=
  cbind (cmap (fun irrep => cbind (project_to_irrep L around rnd_int rep irrep atol 10)
                                  (fun bs => COk [seq TBlock b | b <- bs])) irreps)
        (fun l => COk (flatten l)).

(** The array returned by get_direct_product (representation.py:129-143) for arrays of the
    same order. *)
Definition direct_arr (A B : arr C) : arr C :=
  @Arr C (adim A * adim B) [seq M.1 *t M.2 | M <- zip (amats A) (amats B)].

(** tensor.py:51-68, the body of the loop over pairs.  With coeff reshaped to
    (dim_irrep, dim_tensor, dim_vector) the contraction "ijk,j...,ka->i...a" is the matrix
    product of coeff with the Kronecker product of the two bases. *)
Definition raise_pair N m (irreps : seq (arr C)) (tv : tblock N * tblock m) : cres (seq (tblock (N * m))) :=
  let: (t, v) := tv in
  cbind (clift (get_direct_product (tb_irrep t) (tb_irrep v))) (fun _ =>
  cbind (project_each irreps (direct_arr (tb_irrep t) (tb_irrep v))) (fun cs =>
  COk [seq TBlock (tb_basis c *m (tb_basis t *t tb_basis v)) | c <- cs])).

(** tensor.py:46-70: p iterations of the loop over [range(rank - 1)]. *)
Fixpoint tensor_blocks m (irreps : seq (arr C)) (vs : seq (tblock m)) (p : nat) : cres (seq (tblock (tdim m p))) :=
  match p with
  | 0%N => COk vs
  | p'.+1 => cbind (tensor_blocks irreps vs p') (fun ts =>
      cbind (cmap (raise_pair irreps) [seq (t, v) | t <- ts, v <- vs]) (fun l => COk (flatten l)))
  end.

(** basis[0, ...]: IndexError if the leading axis is empty. *)
Definition first_row N (t : tblock N) : cres 'rV[C]_N :=
  if (insub 0%N : option 'I_(adim (tb_irrep t))) is Some o then COk (row o (tb_basis t)) else CExn IndexError.

(** tensor.py:73-80. *)
Definition is_invariant_block N (order : nat) (t : tblock N) : bool :=
  ~~ (1 < adim (tb_irrep t))%N &&
  is_equivalent_irrep around (get_character (tb_irrep t)) (nseq order 1).
Definition invariant_tensors N (order : nat) (ts : seq (tblock N)) : cres (seq 'rV[C]_N) :=
  cmap (@first_row N) (filter (is_invariant_block order) ts).

(** tensor.py:37-80 after the enumeration of the irreps. *)
Definition tensors_from_irreps (rep : arr C) (irreps : seq (arr C)) (rank : nat) :
    cres (seq 'rV[C]_(tdim (adim rep) rank.-1)) :=
  cbind (project_each irreps rep) (fun vs =>
  cbind (tensor_blocks irreps vs rank.-1) (fun ts =>
  invariant_tensors (aorder rep) ts)).

End Projections.

(** tensor.py:14-80 get_symmetry_adapted_tensors.  [rank] = 0 behaves as [rank] = 1: the
    range is empty in both cases.  enumerate_unitary_irreps has the default arguments
    factor_system=None, method="Neto", rtol=1e-5, max_num_random_generations=4. *)
Definition get_symmetry_adapted_tensors (E : numpy C) (L : linalg C) (rep : arr C)
    (rotations : list mat) (rank : nat) (real : bool) (atol : Q) :
    cres (seq 'rV[C]_(tdim (adim rep) rank.-1)) :=
  cbind (enumerate_unitary_irreps E rotations (fun _ _ => 1) real "Neto" (Qmake 1 100000) atol 4) (fun r =>
  tensors_from_irreps L (np_around E) (np_int E) (qC C atol) rep r.1.1 rank).

(** ** apply_intrinsic_symmetry *)

(** np.transpose(T, axes=perm): entry (y_0, ..., y_p) is the entry x of T with
    x_(perm[i]) = y_i. *)
Definition transpose m p (s : {perm 'I_p.+1}) (T : 'rV[C]_(tdim m p)) : 'rV[C]_(tdim m p) :=
  \row_k T 0 (flat [ffun j => unflat k ((s^-1)%g j)]).

Definition vec_norm n (v : 'rV[C]_n) : C := row_norm v 0.

(** tensor.py:95-107: the symmetrised tensor; dividing by the norm 0 is [CWarn]. *)
Definition symmetrised m p (coeff : 'rV[C]_(tdim m p)) : cres 'rV[C]_(tdim m p) :=
  if vec_norm coeff == 0 then CWarn
  else COk (\sum_(s : {perm 'I_p.+1}) transpose s ((vec_norm coeff)^-1 *: coeff)).

(** tensor.py:95-119, the body of the loop over tensors; [sofar] is list_sym_basis. *)
Definition symmetry_step (L : linalg C) (atol : C) m p (sofar : seq 'rV[C]_(tdim m p))
    (coeff : 'rV[C]_(tdim m p)) : cres (seq 'rV[C]_(tdim m p)) :=
  cbind (symmetrised coeff) (fun sym =>
  if allclose0 atol sym then COk sofar else
  if vec_norm sym == 0 then CWarn else
  let sym := (vec_norm sym)^-1 *: sym in
  if sofar is [::] then COk [:: sym] else
  cbind (grassmann_distance L sym (stack sofar) "min" false) (fun dist =>
  if dist < 2%:R^-1 then COk sofar else COk (rcons sofar sym))).

(** tensor.py:83-121 apply_intrinsic_symmetry, for tensors of one shape (m, ..., m). *)
Definition apply_intrinsic_symmetry (L : linalg C) (atol : C) m p (tensors : seq 'rV[C]_(tdim m p)) :
    cres (seq 'rV[C]_(tdim m p)) :=
  cfold (symmetry_step L atol (p := p)) tensors [::].

End TensorModel.
