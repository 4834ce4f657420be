(** C40 (mode_dot). *)
From Verif Require Import Py ModeModel ModeSpec ModeProofs.
From mathcomp Require Import all_ssreflect all_algebra.
Import GRing.Theory.
Set Implicit Arguments.
Unset Strict Implicit.
Unset Printing Implicit Defensive.
Local Open Scope ring_scope.

(** For a tensor of any rank and shape and matrices with as many rows as the axes they act on,
    mode_dot returns the array of shape (n_1, ..., n_p) with entries
    sum over i_1 .. i_p of coeffs[i_1, ..., i_p] m_1[i_1, a_1] ... m_p[i_p, a_p]. *)
Theorem C40_mode_dot : forall (R : comRingType) (coeffs : ndarray R) (ms : seq (ndarray R)) (ns : seq nat),
  size ms = size (nshape coeffs) -> size ns = size ms ->
  (forall k, (k < size ms)%N -> nshape (nth coeffs ms k) = [:: nth 0%N (nshape coeffs) k; nth 0%N ns k]) ->
  exists r, [/\ mode_dot coeffs ms = Ret r, nshape r = ns &
    forall a, in_shape ns a -> at_ r a =
      sum_indices (nshape coeffs) (fun i => at_ coeffs i *
        \prod_(k < size ms) at_ (nth coeffs ms k) [:: nth 0%N i k; nth 0%N a k])].
Proof.
move=> R c ms ns sz szn hm.
have cE : map (@cols R) ms = ns.
  apply: (@eq_from_nth _ 0%N); rewrite size_map // => k hk.
  by rewrite (nth_map c) // /cols hm.
have [k hk|r [h1 h2 h3]] := mode_dot_ok sz; first by exists (nth 0%N ns k); apply: hm.
exists r; split=> //; first by rewrite h2.
move=> a ha; rewrite h3 ?cE //; apply: sum_indices_eq => i hi.
by case/in_shapeP: hi => si _; case/in_shapeP: ha => sa _; rewrite (prod_entriesE c) ?sa ?si ?szn.
Qed.
Print Assumptions C40_mode_dot.

(** With fewer matrices than axes the remaining axes are left alone. *)
Theorem C40_fewer_matrices : forall (R : comRingType) (coeffs : ndarray R) (ms : seq (ndarray R)) (ns dims post : seq nat),
  nshape coeffs = dims ++ post -> size dims = size ms -> size ns = size ms ->
  (forall k, (k < size ms)%N -> nshape (nth coeffs ms k) = [:: nth 0%N dims k; nth 0%N ns k]) ->
  exists r, [/\ mode_dot coeffs ms = Ret r, nshape r = ns ++ post &
    forall a q, in_shape ns a -> in_shape post q -> at_ r (a ++ q) =
      sum_indices dims (fun i => at_ coeffs (i ++ q) *
        \prod_(k < size ms) at_ (nth coeffs ms k) [:: nth 0%N i k; nth 0%N a k])].
Proof.
move=> R c ms ns dims post hs szd szn hm.
have cE : map (@cols R) ms = ns.
  apply: (@eq_from_nth _ 0%N); rewrite size_map // => k hk.
  by rewrite (nth_map c) // /cols hm.
have [k hk|r [h1 h2 h3]] := @mode_dot_loop_ok R ms c [::] dims post hs szd; first by exists (nth 0%N ns k); apply: hm.
exists r; split=> //; first by rewrite h2 cE.
move=> a q ha hq; have := h3 [::] a q isT; rewrite cE => /(_ ha hq) /= ->; apply: sum_indices_eq => i hi.
by case/in_shapeP: hi => si _; case/in_shapeP: ha => sa _; rewrite (prod_entriesE c) ?sa ?si ?szn.
Qed.
Print Assumptions C40_fewer_matrices.

(** A first matrix whose row count fits neither the axis nor 1 raises ValueError. *)
Theorem C40_mismatch_raises : forall (R : comRingType) (coeffs m : ndarray R) ms d sh e n,
  nshape coeffs = d :: sh -> nshape m = [:: e; n] -> e != d -> e != 1%N -> d != 1%N ->
  mode_dot coeffs (m :: ms) = Raise ValueError.
Proof.
move=> R c m ms d sh e n hc hm e1 e2 e3.
by rewrite /mode_dot /= (@mode_dot1_mismatch R c m 0 e n) // hc.
Qed.
Print Assumptions C40_mismatch_raises.

(** The documented requirement on the shapes is not enforced: a matrix with one row is
    accepted for an axis of any size and is repeated along it. *)
Theorem C40_one_row_accepted_refuted : exists (coeffs m r : ndarray [comRingType of int]),
  [/\ nshape coeffs = [:: 2]%N, nshape m = [:: 1; 1]%N, mode_dot coeffs [:: m] = Ret r & at_ r [:: 0]%N = 7].
Proof.
exists (Nd [:: 2]%N (fun s => if nth 0%N s 0 == 0%N then 3 else 4)), (Nd [:: 1; 1]%N (fun s => (nth 0%N s 0 == 0%N)%:R)).
eexists; split; [by []|by []|reflexivity|].
by rewrite /= !big_ord_recl big_ord0.
Qed.
Print Assumptions C40_one_row_accepted_refuted.

(** A rank 2 tensor and two matrices of different widths meet the hypotheses. *)
Example C40_hypotheses_met :
  let c := Nd [:: 2; 3]%N (fun s => (nth 0%N s 0 + 2 * nth 0%N s 1)%:Z) in
  let m1 := Nd [:: 2; 1]%N (fun s => (nth 0%N s 0)%:Z) in
  let m2 := Nd [:: 3; 2]%N (fun s => (nth 0%N s 0 + nth 0%N s 1)%:Z) in
  [/\ size [:: m1; m2] = size (nshape c), size [:: 1; 2]%N = size [:: m1; m2],
    (forall k, (k < 2)%N -> nshape (nth c [:: m1; m2] k) = [:: nth 0%N (nshape c) k; nth 0%N [:: 1; 2]%N k]),
    in_shape [:: 1; 2]%N [:: 0; 1]%N &
    match mode_dot (R := [comRingType of int]) c [:: m1; m2] with Ret r => at_ r [:: 0; 1]%N = 22 | Raise _ => False end].
Proof.
move=> c m1 m2.
have H k : (k < 2)%N -> nshape (nth c [:: m1; m2] k) = [:: nth 0%N (nshape c) k; nth 0%N [:: 1; 2]%N k].
  by case: k => [|[|]].
split; [by []|by []|exact: H|by []|].
have [r [-> _ hr]] := @C40_mode_dot _ c [:: m1; m2] [:: 1; 2]%N erefl erefl H.
by rewrite hr //= !big_ord_recl !big_ord0.
Qed.
