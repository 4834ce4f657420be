(** Model of src/spgrep/group.py (integer / rational part).
    Complex factor systems are modelled by their rational phase exponents here
    and as elements of a numeric field in the representation layer. *)
From Coq Require Import List Arith ZArith QArith Bool.
From Verif Require Import Py Mat3.
Import ListNotations.

(** An operation of a (magnetic) point group: rotation part and time-reversal flag.
    Simplification: the flag array holds 0/1 and is represented by bool; rotations and
    flags have equal length, so [zip] is a list of pairs. *)
Definition op := (mat * bool)%type.

(** group.py:43-44: [rk = ri @ rj; trk = tri != trj]. *)
Definition op_mul (a b : op) : op := (mmul (fst a) (fst b), xorb (snd a) (snd b)).

(** Tuple comparison used by [list.index] at group.py:45. *)
Definition op_eqb (a b : op) : bool := meqb (fst a) (fst b) && Bool.eqb (snd a) (snd b).

Definition op_id : op := (mid, false).

Definition table := list (list nat).

(** [table[i, j]].  Out-of-range accesses (IndexError in Python) give 0; all theorems
    use it in range only. *)
Definition tget (t : table) (i j : nat) : nat := nth j (nth i t []) 0.

(** group.py:17-50 get_cayley_table.  The [ValueError(...)] expression at line 47 is
    not raised in the code (and its guard is never true), so it is omitted. *)
Definition get_cayley_table_ops (ops : list op) : pyres table :=
  mapM (fun oi => mapM (fun oj => index_or_raise (op_eqb (op_mul oi oj)) ops) ops) ops.

(** group.py:32-34: default time reversals are all zero. *)
Definition ops_of_rotations (rots : list mat) : list op := map (fun r => (r, false)) rots.
Definition get_cayley_table (rots : list mat) : pyres table :=
  get_cayley_table_ops (ops_of_rotations rots).

(** Row comparison [np.all(table[i, :] == np.arange(order))], group.py:57. *)
Fixpoint list_nat_eqb (a b : list nat) : bool :=
  match a, b with
  | [], [] => true
  | x :: a', y :: b' => Nat.eqb x y && list_nat_eqb a' b'
  | _, _ => false
  end.

(** group.py:53-60 get_identity_index. *)
Definition get_identity_index (t : table) : pyres nat :=
  index_or_raise (fun row => list_nat_eqb row (seq 0 (length t))) t.

(** group.py:63-71 get_inverse_index. *)
Definition get_inverse_index (t : table) (idx : nat) : pyres nat :=
  bind (get_identity_index t) (fun id_idx =>
    index_or_raise (Nat.eqb id_idx) (nth idx t [])).

(** group.py:74-82 get_order: the while loop, with fuel; None = loop still running. *)
Fixpoint order_loop (fuel : nat) (t : table) (idx id_idx tmp ret : nat) : option nat :=
  if Nat.eqb tmp id_idx then Some ret
  else match fuel with
       | O => None
       | S f => order_loop f t idx id_idx (tget t tmp idx) (S ret)
       end.

Definition get_order_fuel (fuel : nat) (t : table) (idx : nat) : pyres (option nat) :=
  bind (get_identity_index t) (fun id_idx => Ret (order_loop fuel t idx id_idx idx 1)).

(** Total version used by the other models: the fuel is the order of the group, which
    is proved sufficient for every group table (C06); a run-away loop is reported as
    order 0, which no terminating run produces. *)
Definition get_order (t : table) (idx : nat) : nat :=
  match get_order_fuel (length t) t idx with
  | Ret (Some m) => m
  | _ => 0
  end.

(** [set(table[i]) == set(range(order))], group.py:95. *)
Definition row_is_range (n : nat) (row : list nat) : bool :=
  forallb (fun x => Nat.ltb x n) row &&
  forallb (fun k => existsb (Nat.eqb k) row) (seq 0 n).

(** group.py:85-98 is_matrix_group. *)
Definition is_matrix_group (rots : list mat) : bool :=
  match get_cayley_table rots with
  | Raise _ => false
  | Ret t => forallb (row_is_range (length rots)) t
  end.

(** group.py:165-167: residual after removing the nearest integer vector. *)
Definition residual (r : mat) (k : vec) : vec := vsub (mtvec r k) k.
Definition frac_near (v : vec) : vec := vmap (fun q => (q - inject_Z (rint q))%Q) v.
Definition keeps_kpoint (atol : Q) (k : vec) (r : mat) : bool :=
  vall (close0 atol) (frac_near (residual r k)).

(** group.py:142-181 get_little_group: three parallel lists. *)
Definition little_entries (rots : list mat) (trans : list vec) (k : vec) (atol : Q)
  : list (nat * (mat * vec)) :=
  filter (fun x => keeps_kpoint atol k (fst (snd x))) (enumerate (combine rots trans)).
Definition get_little_group (rots : list mat) (trans : list vec) (k : vec) (atol : Q)
  : list mat * list vec * list nat :=
  let l := little_entries rots trans k atol in
  (map (fun x => fst (snd x)) l, map (fun x => snd (snd x)) l, map fst l).

(** group.py:122-137 get_factor_system_from_little_group, exponent part:
    [factor_system[i,j] = exp(-2j*pi*phase i j)] with
    [phase i j = (R_i^T k - k) . w_j], never reduced modulo 1. *)
Definition factor_phase (rots : list mat) (trans : list vec) (k : vec) (i j : nat) : Q :=
  vdot (residual (nth i rots mid) k) (nth j trans vzero).

(** group.py:246-250, one candidate j for the product (W,w)(R0,v0):
    [np.allclose(new_rot, rotations[j])] on integer matrices is modelled by equality
    (rtol*|entry| + atol < 1 for entries below 10^5);
    [diff = remainder(new_trans - translations[j], 1); diff -= rint(diff); allclose(diff,0)]. *)
Definition atol_default : Q := 1 # 100000000.
Definition same_mod_lattice (u v : vec) : bool :=
  vall (close0 atol_default) (frac_near (vmap rem1 (vsub u v))).

Definition mop := (mat * vec * bool)%type.   (* rotation, translation, time reversal *)
Definition mop_rot (o : mop) : mat := fst (fst o).
Definition mop_trans (o : mop) : vec := snd (fst o).
Definition mop_tr (o : mop) : bool := snd o.

Definition tr_match (new_rot : mat) (new_trans : vec) (o : mop) : bool :=
  mop_tr o && meqb new_rot (mop_rot o) && same_mod_lattice new_trans (mop_trans o).

(** group.py:205-264 decompose_by_maximal_space_subgroup.
    [None] models the Python return value None.  When no operation has time reversal 1
    the conjugator stays None and [rot @ None] raises TypeError as soon as there is an
    operation in the XSG (group.py:239). *)
Definition decompose_by_maximal_space_subgroup (ops : list mop)
  : pyres (option (list nat * list nat * nat)) :=
  if forallb mop_tr ops then Ret None
  else
    let xsg := map fst (filter (fun x => negb (mop_tr (snd x))) (enumerate ops)) in
    match find_index mop_tr ops with
    | None => Raise TypeError
    | Some a0 =>
        let o0 := nth a0 ops (mid, vzero, false) in
        let tri := flat_map (fun i =>
            let o := nth i ops (mid, vzero, false) in
            let new_rot := mmul (mop_rot o) (mop_rot o0) in
            let new_trans := vadd (mvec (mop_rot o) (mop_trans o0)) (mop_trans o) in
            match find_index (tr_match new_rot new_trans) ops with
            | Some j => [j] | None => [] end) xsg in
        Ret (Some (xsg, tri, a0))
    end.

(** A loop [for x in l: if not test(x): return False] followed by [return True]. *)
Fixpoint allM {A} (test : A -> pyres bool) (l : list A) : pyres bool :=
  match l with
  | [] => Ret true
  | x :: l' => bind (test x) (fun b => if b then allM test l' else Ret false)
  end.

(** group.py:194-200, body of the loop.  [F] is the type of factors with its product
    [mulF] and comparison [closeF] (np.isclose); [fs i j] is [factor_system[i, j]]. *)
Definition cocycle_test {F : Type} (mulF : F -> F -> F) (closeF : F -> F -> bool)
    (rots : list mat) (fs : nat -> nat -> F) (ijk : nat * (nat * nat)) : pyres bool :=
  let '(i, (j, k)) := ijk in
  bind (index_or_raise (meqb (mmul (nth j rots mid) (nth k rots mid))) rots) (fun jk =>
  bind (index_or_raise (meqb (mmul (nth i rots mid) (nth j rots mid))) rots) (fun ij =>
    Ret (closeF (mulF (fs i jk) (fs j k)) (mulF (fs ij k) (fs i j))))).

(** group.py:184-202 check_cocycle_condition. *)
Definition check_cocycle_condition {F : Type} (mulF : F -> F -> F) (closeF : F -> F -> bool)
    (rots : list mat) (fs : nat -> nat -> F) : pyres bool :=
  if is_matrix_group rots then
    let n := length rots in
    allM (cocycle_test mulF closeF rots fs)
         (list_prod (seq 0 n) (list_prod (seq 0 n) (seq 0 n)))
  else Ret false.
