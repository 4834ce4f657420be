(** Property theorem C28: from the conventional to the primitive cell and back
    (core.py:33-131, 694-732). *)
From Coq Require Import QArith ZArith List Lia String Sorted Permutation.
From mathcomp Require Import all_ssreflect all_algebra.
From Verif Require Import Py Mat3 MatQ GroupModel GroupSpec GroupProofs GroupProofs2 SpaceGroupProofs TransformModel TransformSpec
  TransformProofs RepSpec RepModel CExpSpec RepTheory IndexRepSpec ChainModel ChainTheory SmallModel PurifyTheory SmallSpec GaugeTheory
  SmallTheory CentringModel CentringSpec CentringProofs CentringTheory SmallExamples ClaimsChain ClaimsRandom ClaimsSmall.
Import Order.TTheory GRing.Theory Num.Theory.
Set Implicit Arguments.
Unset Strict Implicit.
Unset Printing Implicit Defensive.
Local Open Scope ring_scope.
Delimit Scope Z_scope with coqZ.

Lemma centred_check_ok rots trans : centred_check rots trans = true -> centred_space_group rots trans.
Proof.
move=> /centred_check_sound [h1 [h2 [h3 [h4 h5]]]]; split=> // i j m /ssrnat.ltP hi /ssrnat.ltP hj /ssrnat.ltP hm.
exact: h5.
Qed.

(* ---------- C28 ---------- *)
(** get_spacegroup_irreps for a space group listed in centring blocks (all coordinates below
    are those of the primitive basis P chosen by the code): the mapping lists, in increasing
    order, all operations whose rotation fixes k; apart from the reported failures the result
    is, entrywise up to atol + 1e-8, a complete list of unitary irreducible representations of
    these operations in which (E,t) is exp(-2 pi i k.t), centring translations included. *)
Theorem C28_conventional_cell : forall (C : numClosedFieldType) (E : numpy C) rtol atol D choice hall_symbol hall_number P
    rots trans k method max_num,
  numpy_ok E rtol atol -> Qle (inject_Z Z0) atol -> Qle atol (Qmake 1 3) -> Qlt (Qmult (inject_Z (Zpos D)) atol) (inject_Z 1%coqZ) ->
  get_primitive_transformation_matrix choice hall_symbol hall_number = Ret P ->
  let pr := List.map (transform_rotation P) rots in
  let pt := List.map (transform_translation P) trans in
  let pk := transform_kpoint P k in
  centred_space_group pr pt -> first_occurrences_first pr -> has_denominator D pk ->
  exists lm lr lt, [/\ StronglySorted Nat.lt lm,
    forall i, In i lm <-> (i < size rots)%N /\ fixes_kpoint pk (List.nth i pr mid),
    lists_space_group lr lt /\ representatives pr pt lr lt, forall r, In r lr <-> In r pr /\ fixes_kpoint pk r &
    method_ok E lr method ->
    let f := get_spacegroup_irreps E choice hall_symbol hall_number rots trans k method rtol atol max_num in
    [\/ f = CWarn /\ method = "Neto"%string /\ unlucky_samples (size lr) (np_rnd E) (qC C atol) max_num,
        f = COk ([::], lm, false) /\ method = "random"%string,
        f = CExn ValueError /\ exists A A' mul e mu L, [/\ multiplication lr mul e,
          mu = little_factor_system E lr lt pk \/ mu = bloch_factor (np_exp E) lr lt pk mul,
          complete_list lr mul e mu L, List.In A' L /\ near (qC C atol) A A' & 1 < np_int E (fs_number A)] |
        exists L L', [/\ f = COk (L, lm, true), near_list (qC C (Qmake 1 100000000) + qC C atol) L L',
          forall m, (m < size L')%N -> aorder (arr_nth L' m) = size lm &
          centred_irreps (np_exp E) (fun _ _ => 1) pr pt pk lm (size L') (fun m => aget (arr_nth L' m))]]].
Proof.
move=> C E rtol atol D choice hs hn P rots trans k method max_num NO Ap A3 Da HP pr pt pk CS BL HD.
have ce := or_cexp (no_oracles NO); have a0 := or_atol (no_oracles NO).
case HU: (unique_primitive_symmetry pr pt) => [[R T] M].
have len : List.length pt = List.length pr := cs_len CS.
have SG := unique_space_group pr pt len (cs_id CS) (cs_mul CS) (cs_inv CS) (clo' CS) R T M HU.
have W0 i : (i < size R)%N -> List.nth i R mid = mid -> veq (List.nth i T vzero) vzero.
  by move=> /ssrnat.ltP hi; apply: (unique_identity pr pt len (clo' CS) R T M HU).
have [lp [Hs [Hm [[mul [e MT]] out]]]] := C27_spacegroup_irreps method max_num NO Ap A3 Da SG HD W0.
set lr := List.map (fun i => List.nth i R mid) lp in MT out.
set lt := List.map (fun i => List.nth i T vzero) lp in out.
have [_ [_ [_ [_ [Hin _]]]]] := unique_spec pr pt R T M len HU.
have Hlr r : In r lr <-> In r pr /\ fixes_kpoint pk r.
  rewrite /lr in_map_iff -Hin; split=> [[x [<- /Hm [hx fx]]]|[hr fx]].
    by split=> //; apply: nth_In; apply/ssrnat.ltP.
  have [x [hx ex]] := In_nth_lt _ _ mid hr; exists x; split=> //; apply/Hm; rewrite ex; split=> //; exact/ssrnat.ltP.
have SGl : lists_space_group lr lt.
  case EL: (get_little_group R T pk atol) => [[lr0 lt0] lm0].
  have [SGl _] := little_is_space_group _ _ _ _ _ _ _ _ SG HD Ap Da EL.
  have [Hs0 [Hm0 [Er Et]]] := little_group_spec _ _ _ _ _ _ _ (sg_len _ _ SG) EL.
  suff e0 : lm0 = lp by rewrite /lr /lt -e0 -Er -Et.
  apply: sorted_unique => // i; rewrite Hm Hm0; split=> -[hi fx]; split.
  - exact/ssrnat.ltP.
  - exact: (proj1 (keeps_kpoint_exact D atol pk _ HD Ap Da) fx).
  - exact/ssrnat.ltP.
  - exact: (proj2 (keeps_kpoint_exact D atol pk _ HD Ap Da) fx).
have z1 x : (x < size lr)%N -> (fun _ _ => 1 : C) (List.nth x lr mid) mid = 1 by [].
exists (List.map fst (select_little pt T M lp)), lr, lt; split.
- exact: select_sorted.
- move=> i; have := lm2_iff CS HU BL Hs Hm i; rewrite -[size pr]/(List.length pr) map_length; exact.
- split=> // i; rewrite -[size lr]/(List.length lr) /lr map_length => /ssrnat.ltP hi.
  have hl : In (List.nth i lp 0%N) lp by apply: nth_In.
  have [hR _] := proj1 (Hm _) hl; have [x [hx [ex vx]]] := unique_representative _ _ _ _ _ len HU _ (elimT ssrnat.ltP hR).
  exists x; split; [exact/ssrnat.ltP| |].
  - by rewrite ex (nth_map_in _ _ _ 0%N).
  - by rewrite /lt (nth_map_in _ _ _ 0%N).
- exact: Hlr.
move=> mok; rewrite /get_spacegroup_irreps HP /=.
rewrite -/pr -/pt -/pk HU.
case: (out mul e MT mok) => [[-> h]|[-> h]|[-> h]|[L [L' [-> cl nr]]]] /=.
- exact: Or41.
- exact: Or42.
- by apply: Or43; split=> //; have [A [A' [mu [L0 [h4 h0 h1 h2 h3]]]]] := h; exists A, A', mul, e, mu, L0.
apply: Or44.
have cl' : complete_list lr mul e (fun x y => (fun _ _ => 1) (List.nth x lr mid) (List.nth y lr mid) *
    bloch_factor (np_exp E) lr lt pk mul x y) L'.
  case: cl => s1 s2; split=> //; apply: complete_eq s2 => [|i j _ _|//]; last by rewrite mul1r.
  exact: mult_group_law (sg_rots _ _ SGl) MT.
have [L2 [L2' [h1 h2 h3 h4]]] := adjust_correct (zeta := fun _ _ => 1) ce CS HU BL Hs Hm SGl z1 MT a0 cl' nr.
by case: h1 => h1; exists L2, L2'; split=> //; rewrite -h1.
Qed.
Print Assumptions C28_conventional_cell.

(** When the copies by the centring translation are listed next to each other the little
    group comes out incomplete.  The group I2 at k = 0: the third operation, the two-fold
    rotation, fixes k but is not in the mapping. *)
Theorem C28_interleaved_refuted :
  get_primitive_transformation_matrix "" "I 2y" 11 = Ret i_basis /\
  centred_space_group (List.map (transform_rotation i_basis) i2c_rots) (List.map (transform_translation i_basis) i2c_trans) /\
  forall (C : numClosedFieldType) (E : numpy C) method rtol atol max_num irreps lm ok,
    Qle (inject_Z Z0) atol ->
    get_spacegroup_irreps E "" "I 2y" 11 i2c_rots i2c_trans vzero method rtol atol max_num = COk (irreps, lm, ok) ->
    exists i, [/\ (i < size i2c_rots)%N, fixes_kpoint vzero (transform_rotation i_basis (List.nth i i2c_rots mid)) & ~ In i lm].
Proof.
have HP := i2c_basis; have [UR [UT [HU little]]] := i2c_little.
split; first exact HP.
split; first exact (centred_check_ok i2c_centred).
move=> C E method rtol atol max_num irreps lm ok a0; rewrite /get_spacegroup_irreps HP.
have E0 A B (x : A) (f : A -> cres B) : cbind (clift (Ret x)) f = f x by [].
rewrite E0 /transform_symmetry_and_kpoint -/i2c_prim_rots -/i2c_prim_trans HU /get_spacegroup_irreps_from_primitive_symmetry.
case: not_primitive; first by move=> h; discriminate h.
move: (little atol a0); case: get_little_group => [[lr lt] lp]; rewrite [snd _]/= => ->.
case: enumerate_small_representations => [[[L inds] b]|x| |]; last 3 first; try by move=> h; discriminate h.
rewrite ![cbind (COk _) _]/= => -[_ <- _].
exists 2%N; split; first by []; last by case=> [|[|[|]]].
by apply: vintb_sound; vm_compute.
Qed.
Print Assumptions C28_interleaved_refuted.

(** The hypotheses of the theorem are met by the same group in centring blocks, with an
    oracle for spglib, at k = (1,1,1), which is (1/2,1/2,1/2) in the primitive basis. *)
Example C28_hypotheses_met :
  let pr := List.map (transform_rotation i_basis) i2b_rots in
  let pt := List.map (transform_translation i_basis) i2b_trans in
  let pk := transform_kpoint i_basis (Vec (inject_Z 1%coqZ) (inject_Z 1%coqZ) (inject_Z 1%coqZ)) in
  [/\ get_primitive_transformation_matrix "" "I 2y" 11 = Ret i_basis, centred_space_group pr pt, first_occurrences_first pr,
      has_denominator 2 pk & ~ vint pk].
Proof.
have [h1 [h2 h3]] := i2b_hypotheses; split; [exact i2c_basis|exact (centred_check_ok h1)|exact h2|exact h3|].
by move=> [[z hz] _]; move: hz; rewrite /Qeq /= => hz; lia.
Qed.
