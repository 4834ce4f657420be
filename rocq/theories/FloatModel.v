(** The lattice comparisons of group.py:142-181, group.py:205-264, irreps.py:128-131 and
    transform.py:41-51 as NumPy executes them, with every operation rounded.

    A float is modelled by its real value.  Infinities and NaNs do not occur: the theorems
    bound all magnitudes.  [fl] rounds the exact result of one elementary operation; [dot3]
    is one entry of NumPy's [@] on 3x3 matrices and 3-vectors, whose order of summation and
    use of fused operations depend on the BLAS library; [inv3] is numpy.linalg.inv. *)
From Coq Require Import List ZArith QArith Qreals Reals.
From Flocq Require Import Core.
From Verif Require Import Py Mat3 MatQ GroupModel.
Import ListNotations.
Open Scope R_scope.

Record rvec := RVec { x1 : R; x2 : R; x3 : R }.
Record rmat := RMat { row1 : rvec; row2 : rvec; row3 : rvec }.
Record arith := { fl : R -> R; dot3 : rvec -> rvec -> R; inv3 : rmat -> rmat }.

Definition rvmap (f : R -> R) (v : rvec) : rvec := RVec (f (x1 v)) (f (x2 v)) (f (x3 v)).
Definition rvmap2 (f : R -> R -> R) (u v : rvec) : rvec :=
  RVec (f (x1 u) (x1 v)) (f (x2 u) (x2 v)) (f (x3 u) (x3 v)).
Definition rvall (p : R -> bool) (v : rvec) : bool := p (x1 v) && p (x2 v) && p (x3 v).
Definition rtr (m : rmat) : rmat :=
  RMat (RVec (x1 (row1 m)) (x1 (row2 m)) (x1 (row3 m)))
       (RVec (x2 (row1 m)) (x2 (row2 m)) (x2 (row3 m)))
       (RVec (x3 (row1 m)) (x3 (row2 m)) (x3 (row3 m))).
(** An integer array used in a product with a float array is converted first. *)
Definition rofZ (m : mat) : rmat :=
  RMat (RVec (IZR (m11 m)) (IZR (m12 m)) (IZR (m13 m)))
       (RVec (IZR (m21 m)) (IZR (m22 m)) (IZR (m23 m)))
       (RVec (IZR (m31 m)) (IZR (m32 m)) (IZR (m33 m))).

Section Arith.
Variable A : arith.
(** [m @ v] and [a @ b]. *)
Definition fmv (m : rmat) (v : rvec) : rvec :=
  RVec (dot3 A (row1 m) v) (dot3 A (row2 m) v) (dot3 A (row3 m) v).
Definition fmm (a b : rmat) : rmat :=
  let bt := rtr b in
  RMat (fmv bt (row1 a)) (fmv bt (row2 a)) (fmv bt (row3 a)).
Definition fsub (u v : rvec) : rvec := rvmap2 (fun x y => fl A (x - y)) u v.
Definition fadd (u v : rvec) : rvec := rvmap2 (fun x y => fl A (x + y)) u v.

(** numpy.rint and numpy.around: nearest integer, ties to even. *)
Definition frint (x : R) : Z := ZnearestE x.
(** [v - np.rint(v)] *)
Definition fnear (v : rvec) : rvec := rvmap (fun x => fl A (x - IZR (frint x))) v.
(** [np.allclose(v, 0, atol=atol)]: the relative part of the tolerance vanishes. *)
Definition fclose0 (atol : R) (v : rvec) : bool := rvall (fun x => Rle_bool (Rabs x) atol) v.
(** numpy.remainder(x, 1): the C function fmod is exact; when its result is negative, 1 is added. *)
Definition fremainder (x : R) : R :=
  let m := x - IZR (Ztrunc x) in
  if Rlt_bool m 0 then fl A (m + 1) else m.

(** group.py:169-172 *)
Definition keeps_kpoint_fl (atol : R) (k : rvec) (r : mat) : bool :=
  fclose0 atol (fnear (fsub (fmv (rtr (rofZ r)) k) k)).
(** group.py:142-181 get_little_group.  The translations are only copied. *)
Definition get_little_group_fl (rots : list mat) (trans : list vec) (k : rvec) (atol : R)
  : list mat * list vec * list nat :=
  let l := filter (fun x => keeps_kpoint_fl atol k (fst (snd x))) (enumerate (combine rots trans)) in
  (map (fun x => fst (snd x)) l, map (fun x => snd (snd x)) l, map fst l).

(** irreps.py:128-131 *)
Definition two_k_integral_fl (atol : R) (k : rvec) : bool :=
  fclose0 atol (fnear (rvmap (fun x => fl A (2 * x)) k)).

(** group.py:205-264 decompose_by_maximal_space_subgroup; [atol] is NumPy's default 1e-8. *)
Definition fop := (mat * rvec * bool)%type.
Definition rvzero : rvec := RVec 0 0 0.
Definition same_mod_lattice_fl (atol : R) (u v : rvec) : bool :=
  fclose0 atol (fnear (rvmap fremainder (fsub u v))).
Definition tr_match_fl (atol : R) (new_rot : mat) (new_trans : rvec) (o : fop) : bool :=
  snd o && meqb new_rot (fst (fst o)) && same_mod_lattice_fl atol new_trans (snd (fst o)).
Definition decompose_fl (atol : R) (ops : list fop) : pyres (option (list nat * list nat * nat)) :=
  if forallb snd ops then Ret None
  else
    let xsg := map fst (filter (fun x => negb (snd (snd x))) (enumerate ops)) in
    match find_index snd ops with
    | None => Raise TypeError
    | Some a0 =>
        let o0 := nth a0 ops (mid, rvzero, false) in
        let tri := flat_map (fun i =>
            let o := nth i ops (mid, rvzero, false) in
            let new_rot := mmul (fst (fst o)) (fst (fst o0)) in
            let new_trans := fadd (fmv (rofZ (fst (fst o))) (snd (fst o0))) (snd (fst o)) in
            match find_index (tr_match_fl atol new_rot new_trans) ops with
            | Some j => [j] | None => [] end) xsg in
        Ret (Some (xsg, tri, a0))
    end.

(** transform.py:41-51 transform_symmetry_and_kpoint. *)
Definition fround (m : rmat) : mat :=
  Mat (frint (x1 (row1 m))) (frint (x2 (row1 m))) (frint (x3 (row1 m)))
      (frint (x1 (row2 m))) (frint (x2 (row2 m))) (frint (x3 (row2 m)))
      (frint (x1 (row3 m))) (frint (x2 (row3 m))) (frint (x3 (row3 m))).
Definition transform_fl (P : rmat) (rots : list mat) (trans : list rvec) (k : rvec)
  : list mat * list rvec * rvec :=
  let pinv := inv3 A P in
  (map (fun r => fround (fmm (fmm pinv (rofZ r)) P)) rots,
   map (fun t => fmv pinv t) trans,
   fmv (rtr P) k).
End Arith.
