(** Property C57: the character table.  Columns are orthogonal, and there are as many
    irreducible representations as conjugacy classes (of regular elements). *)
From Coq Require Import QArith ZArith List String Lia.
From mathcomp Require Import all_ssreflect all_algebra all_fingroup algC.
From Verif Require Import Py Mat3 MatQ GroupSpec GroupModel GroupProofs PointGroupData PointGroupModel ChainSpec
  RepSpec RepTheory IndexRepSpec RepModel IndexGroup CExpSpec ExpInstance ChainModel RepProofs GaugeTheory PurifyTheory RealDrop
  SmallModel SmallSpec SmallTheory SmallExamples ClaimsChain ClaimsRandom ClaimsSmall PointDims AgreeSpec ClaimsAgree
  SpinorModel SpinorSpec SpinorProofs ClaimsSpinor ClassSpec ClassTheory.
Import Order.TTheory GRing.Theory Num.Theory.
Set Implicit Arguments.
Unset Strict Implicit.
Unset Printing Implicit Defensive.
Local Open Scope ring_scope.

Lemma complete_fs (C : numClosedFieldType) n mul e (mu : nat -> nat -> C) N dim (D : forall k, nat -> 'M[C]_(dim k)) :
  group_law n mul e -> complete_irreps n mul e mu N D -> ifactor_system n mul e mu.
Proof.
move=> G ci; have N0 : (0 < N)%N.
  case: (posnP N) ci => // -> /ci_squares; rewrite big_ord0 => n0.
  by have := gl_e _ _ _ G; rewrite -n0 => /ssrnat.ltP.
exact: (rep_fs G (proj1 (ci_irreducible ci N0)) (ci_rep ci N0) (ci_unitary ci N0)).
Qed.

(* ---------- C57 ---------- *)
(** Second orthogonality relation, for any factor system. *)
Theorem C57_column_orthogonality : forall (C : numClosedFieldType) n mul e (mu : nat -> nat -> C) N dim (D : forall k, nat -> 'M[C]_(dim k)) i j,
  group_law n mul e -> complete_irreps n mul e mu N D -> (i < n)%N -> (j < n)%N ->
  \sum_(k < N) \tr (D k i) * (\tr (D k j))^* = \sum_(x < n | mul x i == mul j x) mu x i * (mu j x)^*.
Proof. move=> C n mul e mu N dim D i j G ci; exact: (icolumn G (complete_fs G ci) ci). Qed.
Print Assumptions C57_column_orthogonality.

(** The element i has a non-zero character exactly when it is regular, and then the squares
    of its characters add up to the order of its centraliser. *)
Theorem C57_regular_elements : forall (C : numClosedFieldType) n mul e (mu : nat -> nat -> C) N dim (D : forall k, nat -> 'M[C]_(dim k)) i,
  group_law n mul e -> complete_irreps n mul e mu N D -> (i < n)%N ->
  (mu_regular n mul mu i <-> exists2 k, (k < N)%N & \tr (D k i) != 0) /\
  (mu_regular n mul mu i -> \sum_(k < N) `|\tr (D k i)| ^+ 2 = (centraliser_order n mul i)%:R).
Proof.
move=> C n mul e mu N dim D i G ci hi; have fs := complete_fs G ci.
by split; [exact: (iregularP G fs ci) | exact: (iregular_col G fs ci)].
Qed.
Print Assumptions C57_regular_elements.

(** As many representations as classes of regular elements. *)
Theorem C57_number_of_irreps : forall (C : numClosedFieldType) n mul e (mu : nat -> nat -> C) N dim (D : forall k, nat -> 'M[C]_(dim k)) reps,
  group_law n mul e -> complete_irreps n mul e mu N D -> class_representatives n mul (mu_regular n mul mu) reps ->
  N = size reps.
Proof. by move=> C n mul e mu N dim D reps G ci cr; rewrite (iclasses G (complete_fs G ci) ci cr). Qed.
Print Assumptions C57_number_of_irreps.

(** The irreps of a point group: as many as conjugacy classes; their characters agree exactly
    on conjugate operations and are orthogonal on the others. *)
Theorem C57_pointgroup : forall (C : numClosedFieldType) (E : numpy C) rtol atol rots mul e method max_num L,
  numpy_ok E rtol atol -> Qle atol (Qmake 1 3) ->
  (size rots)%:R * (2%:R * qC C atol + qC C atol ^+ 2) < 2%:R^-1 ->
  lists_group rots -> multiplication rots mul e -> method_ok E rots method ->
  get_crystallographic_pointgroup_irreps_from_symmetry E rots false method rtol atol max_num = COk (L, true) ->
  (forall reps, class_representatives (size rots) mul (fun _ => True) reps -> size L = size reps) /\
  exists2 L', near_list (qC C atol) L L' & forall i j, (i < size rots)%N -> (j < size rots)%N ->
    let chi k g := \tr (aget (arr_nth L' k) g) in
    (conjugates (size rots) mul i j <-> forall k, (k < size L)%N -> chi k i = chi k j) /\
    (conjugates (size rots) mul i j -> \sum_(k < size L) chi k i * (chi k j)^* = (centraliser_order (size rots) mul i)%:R) /\
    (~ conjugates (size rots) mul i j -> \sum_(k < size L) chi k i * (chi k j)^* = 0).
Proof.
move=> C E rtol atol rots mul e method max_num L NO A3 sm LG M mok h.
have := C29_pointgroup_irreps max_num NO A3 sm LG M mok; cbv zeta; rewrite h.
case=> [[]//|[]//|[L1 [L' [[<-] [_ ci] nr]]]].
have G := mult_group_law LG M; have fs := complete_fs G ci; have [sL _] := nr.
have m1 x y : (x < size rots)%N -> (y < size rots)%N -> (fun _ _ => 1 : C) x y = 1 by [].
split=> [reps [h1 h2 h3]|].
  rewrite sL; apply/esym; apply: (iclasses G fs ci); split=> [i /h1 []|//|i hi _]; [by split|exact: h3].
exists L' => // i j hi hj; cbv zeta; rewrite sL.
have sep := linear_separate G fs ci m1 hi hj.
split; [exact: sep|split=> [/sep c|nc]]; last exact: (linear_column G fs ci m1 hi hj nc).
rewrite -(iregular_col G fs ci hi) // ; apply: eq_bigr => k _; by rewrite -c // normCK.
Qed.
Print Assumptions C57_pointgroup.

Lemma regular_kpoint (C : numClosedFieldType) (cexp : Q -> C) rots trans k mul i : exp_spec cexp ->
  mu_regular (size rots) mul (bloch_factor cexp rots trans k mul) i <-> kpoint_regular rots trans k mul i.
Proof.
move=> ce; split=> h x hx c.
  have := h x hx c; rewrite /bloch_factor => e1.
  have : cexp (vdot k (vsub (lattice_shift rots trans mul x i) (lattice_shift rots trans mul i x))) = 1.
    apply: (mulIf (x := cexp (Qopp (vdot k (lattice_shift rots trans mul x i))))); first by rewrite -normr_eq0 (ce_norm ce) oner_eq0.
    rewrite mul1r -(ce_add ce) [RHS]e1; apply: (ce_eq ce); rewrite vdot_sub_r; ring.
  by move/(ce_int ce).
have /(ce_int ce) e1 := h x hx c; rewrite /bloch_factor -[LHS]mul1r -e1 -(ce_add ce).
by apply: (ce_eq ce); rewrite vdot_sub_r; ring.
Qed.

(** The small representations of a little group: as many as classes of regular operations,
    a condition on rational numbers. *)
Theorem C57_small_representations : forall (C : numClosedFieldType) (E : numpy C) rots trans k mul e method rtol atol max_num L,
  returns_irreps E rots trans k mul e method rtol atol max_num L ->
  (forall reps, class_representatives (size rots) mul (kpoint_regular rots trans k mul) reps -> size L = size reps) /\
  exists2 L', near_list (qC C atol) L L' &
    forall i, (i < size rots)%N ->
      (kpoint_regular rots trans k mul i -> \sum_(j < size L) `|\tr (aget (arr_nth L' j) i)| ^+ 2 = (centraliser_order (size rots) mul i)%:R) /\
      (~ kpoint_regular rots trans k mul i -> forall j, (j < size L)%N -> \tr (aget (arr_nth L' j) i) = 0).
Proof.
move=> C E rots trans k mul e method rtol atol max_num L r.
have [L' [_ ci] nr] := returned_complete r; have G := mult_group_law (sg_rots _ _ (ri_group r)) (ri_mult r).
have ce := or_cexp (no_oracles (ri_numpy r)); have [sL _] := nr; have fs := complete_fs G ci.
split=> [reps [h1 h2 h3]|].
  rewrite sL; apply/esym; apply: (iclasses G fs ci); split=> [i /h1 [hi /(regular_kpoint _ _ _ _ _ ce)]|//|i hi /(regular_kpoint _ _ _ _ _ ce)]; [by split|exact: h3].
exists L' => // i hi; rewrite sL; split=> [/(regular_kpoint _ _ _ _ _ ce)|nr' j hj].
  exact: (iregular_col G fs ci hi).
have [//|t0] := eqVneq (\tr (aget (arr_nth L' j) i)) 0; case: nr'; apply/(regular_kpoint _ _ _ _ _ ce).
by apply/(iregularP G fs ci hi); exists j.
Qed.
Print Assumptions C57_small_representations.

(** Spinor irreps: the classes that are regular for the spinor factor system. *)
Theorem C57_spinor_pointgroup : forall (C : numClosedFieldType) (E : numpy C) (G : trig C) rtol atol L rots mul e method max_num X z U reps,
  numpy_ok E rtol atol -> eig_ok E -> trig_ok G -> lattice_ok L -> Qle atol (Qmake 1 3) ->
  (size rots)%:R * (2%:R * qC C atol + qC C atol ^+ 2) < 2%:R^-1 ->
  lists_group rots -> multiplication rots mul e -> (forall r, List.In r rots -> preserves_metric L r) ->
  method_ok E rots method ->
  get_crystallographic_pointgroup_spinor_irreps_from_symmetry E G L rots method rtol atol max_num = COk (X, z, U, true) ->
  class_representatives (size rots) mul (mu_regular (size rots) mul z) reps -> size X = size reps.
Proof.
move=> C E G rtol atol L rots mul e method max_num X z U reps NO EO GO LO A3 sm LG M PM mok h cr.
have := C35_pointgroup max_num NO EO GO LO A3 sm LG M PM mok; cbv zeta; rewrite h.
move=> [S [zeta [z' [ss zE]]]]; case=> [[]//|[[]//]|[X1 [X' [[e1 e2 _] [_ ci] [sX _]]]]]; subst X1 z'.
have Gl := mult_group_law LG M.
by rewrite sX -(iclasses Gl (complete_fs Gl ci) ci cr).
Qed.
Print Assumptions C57_spinor_pointgroup.

(** P2_12_12_1 at (1/2,0,0): only the identity is regular, so that every call that returns gives
    exactly one representation; the same group has four at the centre of the zone. *)
Example C57_one_at_boundary : class_representatives 4 p2_mul (kpoint_regular p2_rots p2_trans p2_k p2_mul) [:: 3%N].
Proof.
split.
- move=> i; rewrite inE => /eqP ->; split=> // -[|[|[|[|//]]]] _ _; exists Z0; rewrite /Qeq /=; lia.
- by move=> [|//] [|//].
move=> [|[|[|[|//]]]] _ r; try by exists 3%N; [rewrite inE|exists 3%N].
all: exfalso.
- by have [//|//|z] := r 1%N; rewrite /Qeq /= => hz; lia.
- by have [//|//|z] := r 0%N; rewrite /Qeq /= => hz; lia.
- by have [//|//|z] := r 0%N; rewrite /Qeq /= => hz; lia.
Qed.
Example C57_four_at_centre : class_representatives 4 p2_mul (kpoint_regular p2_rots p2_trans vzero p2_mul) [:: 0; 1; 2; 3]%N.
Proof.
split.
- move=> i hi; have hi4 : (i < 4)%N by move: hi; rewrite !inE; do ?[case/orP]; move/eqP ->.
  by split=> // x hx _; exists Z0; rewrite /vdot /=; ring.
- by move=> [|[|[|[|//]]]] [|[|[|[|//]]]] _ _ [] [|[|[|[|//]]]].
by move=> [|[|[|[|//]]]] _ _; [exists 0%N|exists 1%N|exists 2%N|exists 3%N] => //; exists 3%N.
Qed.
(** With the call on the inversion group of C56, which returns. *)
Example C57_hypotheses_met : exists L, returns_irreps inv_numpy inv_rots inv_trans (inv_k (Zpos xH)) (tget ex_z2) 0 "Neto" (inject_Z Z0) (inject_Z Z0) 2 L /\ size L = 2%N.
Proof.
have [[L r] _] := C56_hypotheses_met (Zpos xH); exists L; split=> //.
have [h _] := C57_small_representations r; apply: (h [:: 0; 1]%N).
have [_ _ _ _ W0] := inv_facts (Zpos xH).
split.
- move=> i hi; have hi2 : (i < 2)%N by move: hi; rewrite !inE; do ?[case/orP]; move/eqP ->.
  split=> // x hx _; exists Z0; rewrite /lattice_shift !W0 /vdot /=; destruct (List.nth x inv_rots mid), (List.nth i inv_rots mid); cbn -[Qmult Qplus Qminus inject_Z]; ring.
- by move=> [|[|//]] [|[|//]] _ _ [] [|[|//]].
by move=> [|[|//]] _ _; [exists 0%N|exists 1%N] => //; exists 0%N.
Qed.
Print Assumptions C57_hypotheses_met.
