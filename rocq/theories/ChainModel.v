(** Model of irreps.py:408-559 enumerate_unitary_irreps_from_solvable_group_chain. *)
From Coq Require Import QArith.
From mathcomp Require Import all_ssreflect all_algebra.
From mathcomp.real_closed Require Import mxtens.
From Verif Require Import Py GroupModel RepSpec RepModel CExpSpec.
Import Order.TTheory GRing.Theory Num.Theory.
Set Implicit Arguments.
Unset Strict Implicit.
Unset Printing Implicit Defensive.
Local Open Scope ring_scope.

(** Outcome of the computation: a value, an exception, a while loop that does not stop
    (get_order on a table that is not a group table), or the warning of get_intertwiner,
    after which the Python code continues with a zero matrix and divides by zero. *)
Inductive cres (A : Type) := COk of A | CExn of exn | CDiverge | CWarn.
Arguments CExn {A}. Arguments CDiverge {A}. Arguments CWarn {A}.
Definition cbind A B (x : cres A) (f : A -> cres B) : cres B :=
  match x with COk a => f a | CExn e => CExn e | CDiverge => CDiverge | CWarn => CWarn end.
Definition clift A (x : pyres A) : cres A :=
  match x with Ret a => COk a | Raise e => CExn e end.
(** A list-building loop that stops at the first abnormal outcome. *)
Fixpoint cmap A B (f : A -> cres B) (l : seq A) : cres (seq B) :=
  if l is a :: l' then cbind (f a) (fun b => cbind (cmap f l') (fun bs => COk (b :: bs)))
  else COk [::].

Section Chain.
Variable C : numClosedFieldType.
Local Notation arr := (arr C).
Variables (around : C -> C) (cpowinv : C -> nat -> C) (nroot : C -> nat -> C).
Variable (rnd : nat -> forall d, 'M[C]_d).
Variable cexp : Q -> C.   (* q |-> exp(2 pi i q) *)
Variables (t : table) (mu : nat -> nat -> C).   (* table and factor_system arrays *)
Variables (atol : C) (max_num : nat).

(** irreps.py:446-450: rm and rinvm: [x0], then repeatedly table[last, r]. *)
Definition powers (e r p : nat) : seq nat := traject (fun x => tget t x r) e p.

(** irreps.py:453-457: the extended group, sorted without repetition. *)
Definition extend_group (rm H : seq nat) : seq nat :=
  sort leq (undup (flatten [seq [seq tget t x s | s <- H] | x <- rm])).

(** [sub_irrep[subgroup_remapping[x]]]: the dictionary maps the elements of the list to
    their positions; a missing key raises KeyError. *)
Definition at_elt (l : seq nat) d (ms : seq 'M[C]_d) (x : nat) : cres 'M[C]_d :=
  if x \in l then COk (nth 0 ms (index x l)) else CExn KeyError.

(** irreps.py:476, 526: sj = table[rinvm[j], table[s, rm[j]]]. *)
Definition conj_idx (rm rinvm : seq nat) (j s : nat) : nat :=
  tget t (nth 0%N rinvm j) (tget t s (nth 0%N rm j)).

(** irreps.py:471-482: the j-th conjugated sub-irrep. *)
Definition conj_sub_irrep (H rm rinvm : seq nat) d (ms : seq 'M[C]_d) (j : nat) : cres (seq 'M[C]_d) :=
  cmap (fun s => let sj := conj_idx rm rinvm j s in
                 cbind (at_elt H ms sj) (fun M => COk ((mu s (nth 0%N rm j) / mu (nth 0%N rm j) sj) *: M))) H.

(** [M[0, 0]]; only used for positive dimension. *)
Definition entry00 d (M : 'M[C]_d) : C :=
  match insub 0%N : option 'I_d with Some i => M i i | None => 0 end.

(** Assignments [next_irrep[group_remapping[x]] = M] into an array of zeros. *)
Definition assign_all (K : seq nat) d (entries : seq (nat * 'M[C]_d)) : seq 'M[C]_d :=
  foldl (fun acc e => set_nth 0 acc (index e.1 K) e.2) (nseq (size K) 0) entries.

(** irreps.py:507-512: delta_rm. *)
Fixpoint delta_list (r : nat) (rm : seq nat) d (delta_r : 'M[C]_d) (m : nat) : 'M[C]_d :=
  if m is m'.+1 then (mu r (nth 0%N rm m'))^-1 *: (delta_r *m delta_list r rm delta_r m') else 1%:M.

(** irreps.py:494-497: scaling of the intertwiner. *)
Definition scaled_intertwiner d (T : 'M[C]_d) (p : nat) : 'M[C]_d :=
  let scale := iter p.-1 (mulmx T) T in
  (cpowinv (entry00 scale) p)^-1 *: T.

(** irreps.py:499-522: the p extensions of a self-conjugate sub-irrep. *)
Definition self_conjugate_case (H K rm : seq nat) (r p : nat) d (ms : seq 'M[C]_d) (T : 'M[C]_d) : cres (seq arr) :=
  let omega := 1 / nroot (\prod_(m <- iota 1 p.-1) mu r (nth 0%N rm m)) p in
  cmap (fun q =>
    let omegaq := omega * cexp (qfrac q p) in
    let delta_r := omegaq^-1 *: scaled_intertwiner T p in
    let entries := cmap (fun ms_ : nat * nat => let: (m, s) := ms_ in
        cbind (at_elt H ms s) (fun M =>
          COk (tget t (nth 0%N rm m) s,
               (mu (nth 0%N rm m) s)^-1 *: (delta_list r rm delta_r m *m M))))
      [seq (m, s) | m <- iota 0 p, s <- H] in
    cbind entries (fun es => COk (Arr (assign_all K es)))) (iota 0 p).

(** Assignment of a block: [M[i*d:(i+1)*d, j*d:(j+1)*d] = B]. *)
Definition set_block p d (M : 'M[C]_(p * d)) (i j : nat) (B : 'M[C]_d) : 'M[C]_(p * d) :=
  \matrix_(x, y) if (val (mxtens_unindex x).1 == i) && (val (mxtens_unindex y).1 == j)
                 then B (mxtens_unindex x).2 (mxtens_unindex y).2 else M x y.
Definition assign_blocks (K : seq nat) p d (entries : seq (nat * (nat * nat * 'M[C]_d))) : seq 'M[C]_(p * d) :=
  foldl (fun acc e => let k := index e.1 K in
           set_nth 0 acc k (set_block (nth 0 acc k) e.2.1.1 e.2.1.2 e.2.2))
        (nseq (size K) 0) entries.

(** irreps.py:523-542: the representation induced from a sub-irrep that is not
    equivalent to its conjugates. *)
Definition induced_case (H K rm rinvm : seq nat) (p : nat) d (ms : seq 'M[C]_d) : cres (seq arr) :=
  let entries := cmap (fun x : nat * nat * nat => let: ((m, s), j) := x in
      let idx := tget t (nth 0%N rm m) s in
      let i := ((j + m) %% p)%N in
      let sj := conj_idx rm rinvm j s in
      cbind (at_elt H ms sj) (fun M =>
        COk (idx, ((i, j), (mu idx (nth 0%N rm j) / mu (nth 0%N rm i) sj) *: M))))
    [seq (ms_, j) | ms_ <- [seq (m, s) | m <- iota 0 p, s <- H], j <- iota 0 p] in
  cbind entries (fun es => COk [:: Arr (@assign_blocks K p d es)]).

(** irreps.py:466-543: the representations obtained from one sub-irrep. *)
Definition next_of (H K rm rinvm : seq nat) (r p : nat) (A : arr) : cres (seq arr) :=
  cbind (cmap (conj_sub_irrep H rm rinvm (amats A)) (iota 0 p)) (fun conjs =>
  if conjs is c0 :: c1 :: _ then
    if is_equivalent_irrep around (get_character_mats c0) (get_character_mats c1) then
      match get_intertwiner_mats cpowinv rnd atol max_num c0 c1 with
      | Some T => self_conjugate_case H K rm r p (amats A) T
      | None => CWarn
      end
    else induced_case H K rm rinvm p (amats A)
  else CExn IndexError (* conj_characters[1] with r of order one *)).

(** irreps.py:546-555: keep the first representation of each equivalence class. *)
Definition unique_irreps (l : seq arr) : seq arr :=
  foldl (fun acc A => if has (fun B => is_equivalent_irrep around (get_character A) (get_character B)) acc
                      then acc else rcons acc A) [::] l.

(** irreps.py:441-555: one pass of the loop over generators. *)
Definition chain_step (e r : nat) (st : seq nat * seq arr) : cres (seq nat * seq arr) :=
  let: (H, irreps) := st in
  let p := get_order t r in
  if p == 0%N then CDiverge else
  cbind (clift (get_inverse_index t r)) (fun rinv =>
  let rm := powers e r p in
  let rinvm := powers e rinv p in
  let K := extend_group rm H in
  cbind (cmap (next_of H K rm rinvm r p) irreps) (fun nexts =>
  COk (K, unique_irreps (flatten nexts)))).

Fixpoint chain_loop (e : nat) (gens : seq nat) (st : seq nat * seq arr) : cres (seq nat * seq arr) :=
  if gens is r :: gens' then cbind (chain_step e r st) (chain_loop e gens') else COk st.

(** irreps.py:408-559.  The result is the list of irreps and whether the final check
    succeeded (False: the warning "Generators are not sufficient" and an empty list). *)
Definition enumerate_unitary_irreps_from_solvable_group_chain (gens : seq nat) : cres (seq arr * bool) :=
  cbind (clift (get_identity_index t)) (fun e =>
  cbind (chain_loop e (rev gens) ([:: e], [:: @Arr C 1 [:: const_mx 1]])) (fun st =>
  if st.1 == iota 0 (size t) then COk (st.2, true) else COk ([::], false))).
End Chain.
