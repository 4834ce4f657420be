(** Specification vocabulary for transform.py. *)
From Coq Require Import List Arith ZArith QArith Bool.
From Verif Require Import Py Mat3 MatQ.
Import ListNotations.

(** Conjugation by P keeps the rotation integral. *)
Definition conj_integral (P : qmat) (r : mat) : Prop :=
  qintegral (qmul (qmul (qinv P) (qofz r)) P).

(** Centring vectors of the conventional cells (International Tables A, Table 2.1.1.2). *)
Definition half := (1 # 2)%Q.
Definition centring_P : list vec := [vzero].
Definition centring_A : list vec := [vzero; Vec 0 half half].
Definition centring_B : list vec := [vzero; Vec half 0 half].
Definition centring_C : list vec := [vzero; Vec half half 0].
Definition centring_I : list vec := [vzero; Vec half half half].
Definition centring_F : list vec := [vzero; Vec 0 half half; Vec half 0 half; Vec half half 0].
(** obverse setting of the rhombohedral lattice on hexagonal axes *)
Definition centring_R : list vec :=
  [vzero; Vec (2#3) (1#3) (1#3); Vec (1#3) (2#3) (2#3)]%Q.

(** v is a lattice vector of the centred conventional lattice. *)
Definition in_lattice (cs : list vec) (v : vec) : Prop := exists c, In c cs /\ vint (vsub v c).

(** The columns of P are a basis of that lattice: integral coordinates iff lattice vector;
    the volume of the cell is 1/(number of lattice points per conventional cell). *)
Record is_primitive_basis (cs : list vec) (P : qmat) : Prop := {
  pb_det : (qdet P == / inject_Z (Z.of_nat (length cs)))%Q;
  pb_lat : forall v, vint (qvec (qinv P) v) <-> in_lattice cs v }.

(** Positions at which a rotation occurs for the first time. *)
Definition first_occurrences (rots : list mat) : list nat :=
  filter (fun i => negb (existsb (meqb (nth i rots mid)) (firstn i rots))) (seq 0 (length rots)).

(** All first occurrences come before all repetitions (spglib's order: the operations
    modulo centring translations first, then one copy of that block per centring vector). *)
Definition first_occurrences_first (rots : list mat) : Prop :=
  exists u, first_occurrences rots = seq 0 u.

(** Which centring a Hall number with its spglib [choice] and Hall symbol denotes. *)
Require Import String Ascii.
Definition centring_letter (hall_symbol : string) (c : ascii) : Prop :=
  (c <> "-"%char /\ exists rest, hall_symbol = String c rest) \/
  (exists rest, hall_symbol = String "-" (String c rest)).
Definition letter_centring (c : ascii) (cs : list vec) : Prop :=
  (c = "P"%char /\ cs = centring_P) \/ (c = "A"%char /\ cs = centring_A) \/
  (c = "B"%char /\ cs = centring_B) \/ (c = "C"%char /\ cs = centring_C) \/
  (c = "I"%char /\ cs = centring_I) \/ (c = "F"%char /\ cs = centring_F).
Definition trigonal_number (h : Z) : Prop := (430 <= h <= 461)%Z.
Inductive cell_centring (choice hall_symbol : string) (h : Z) : list vec -> Prop :=
| cc_hexagonal_axes : trigonal_number h -> choice = "H"%string ->
    cell_centring choice hall_symbol h centring_R
| cc_trigonal_primitive : trigonal_number h -> choice = ""%string \/ choice = "R"%string ->
    cell_centring choice hall_symbol h centring_P
| cc_other : forall c cs, (1 <= h <= 530)%Z -> ~ trigonal_number h ->
    centring_letter hall_symbol c -> letter_centring c cs ->
    cell_centring choice hall_symbol h cs.
