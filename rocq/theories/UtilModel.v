(** Model of the number helpers of src/spgrep/utils.py. *)
From Coq Require Import List Arith ZArith QArith Qabs Bool Reals.
From Verif Require Import Py.
Import ListNotations.

(** utils.py:18-21 [is_integer_array]: np.allclose(array_int, array, rtol, atol), which compares
    |array_int - array| with atol + rtol * |array|.  The array is flattened to the list of its
    values; values are exact rationals. *)
Definition is_integer_array (rtol atol : Q) (a : list Q) : bool :=
  forallb (fun x => isclose rtol atol (inject_Z (rint x)) x) a.

(** utils.py:24-28 [ndarray2d_to_integer_tuple]; a two-dimensional array is the list of its rows. *)
Definition ndarray2d_to_integer_tuple (a : list (list Q)) : list (list Z) := map (map rint) a.

(** range(lo, hi) *)
Definition zrange (lo hi : Z) : list Z := map (fun i => (lo + Z.of_nat i)%Z) (seq 0 (Z.to_nat (hi - lo))).

(** utils.py:49-54 [is_prime]: the first divisor found in range(2, n) answers False.
    Python's % on positive divisors is Z.modulo. *)
Fixpoint is_prime_loop (n : Z) (l : list Z) : bool :=
  match l with
  | [] => true
  | i :: l' => if (n mod i =? 0)%Z then false else is_prime_loop n l'
  end.
Definition is_prime (n : Z) : bool := is_prime_loop n (zrange 2 n).

(** * Complex numbers as pairs of reals, for utils.py:57-63.  Floating point rounding is not
    modelled. *)
Open Scope R_scope.
Definition cplx := (R * R)%type.
Definition cmul (a b : cplx) : cplx := (fst a * fst b - snd a * snd b, fst a * snd b + snd a * fst b).
Fixpoint cpow (a : cplx) (n : nat) : cplx := match n with O => (1, 0) | S m => cmul a (cpow a m) end.
(** np.absolute *)
Definition cabs (a : cplx) : R := sqrt (fst a * fst a + snd a * snd a).
(** r * np.exp(1j * t) for real r and t *)
Definition polar (r t : R) : cplx := (r * cos t, r * sin t).
(** np.angle: atan2(y, x), in (-pi, pi], and 0 at 0 *)
Definition cangle (a : cplx) : R :=
  if Req_EM_T (cabs a) 0 then 0
  else if Rle_dec 0 (snd a) then acos (fst a / cabs a) else - acos (fst a / cabs a).
(** z ** (1 / n) for a complex z: exp(log(z) / n) with the principal logarithm; 0 ** (1 / n) = 0. *)
Definition cpowinv (z : cplx) (n : nat) : cplx :=
  if Req_EM_T (cabs z) 0 then (0, 0)
  else polar (exp (ln (cabs z) / INR n)) (cangle z / INR n).
(** np.rint: nearest integer, ties to even *)
Definition rrint (x : R) : Z :=
  let k := Int_part (x + 1 / 2) in
  if Req_EM_T (x + 1 / 2) (IZR k) then (if Z.even k then k else (k - 1)%Z) else k.

(** utils.py:57-63 [nroot] *)
Definition nroot (z : cplx) (n : nat) : cplx :=
  let root := cpowinv z n in
  let r := cabs root in
  let angle := cangle root in
  let angle' := angle - IZR (rrint (angle * INR n / (2 * PI))) * 2 * PI / INR n in
  polar r angle'.
