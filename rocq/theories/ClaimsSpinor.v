(** Property theorems C33, C34, C35, C48: spinors (spinor.py:15-218; core.py:89-93, 268-460,
    463-593, 596-686 without time reversal). *)
From Coq Require Import QArith ZArith List Lia String Sorted Permutation Field.
From mathcomp Require Import all_ssreflect all_algebra.
From mathcomp Require Import algC.
From Verif Require Import FieldTac Py Mat3 MatQ GroupModel GroupSpec GroupProofs GroupProofs2 SpaceGroupProofs TransformModel TransformSpec
  TransformProofs RepSpec RepModel CExpSpec RepTheory IndexRepSpec ChainModel ChainTheory SmallModel PurifyTheory SmallSpec GaugeTheory
  SmallTheory CentringModel CentringSpec CentringProofs CentringTheory SmallExamples SpinorModel SpinorSpec SpinorTheory SpinorProofs
  SpinorSmall SpinorConv SpinorData SpinorExamples ClaimsChain ClaimsRandom ClaimsSmall ClaimsCentring.
Import Order.TTheory GRing.Theory Num.Theory.
Set Implicit Arguments.
Unset Strict Implicit.
Unset Printing Implicit Defensive.
Local Open Scope ring_scope.
Delimit Scope Z_scope with coqZ.

(* ---------- C33 ---------- *)
(** For every rotation of a lattice get_spinor_unitary_rotation returns a matrix of SU(2)
    acting on the Pauli vector as the proper part of the Cartesian rotation. *)
Theorem C33_spin_rotation : forall (C : numClosedFieldType) (E : numpy C) (G : trig C) L r,
  eig_ok E -> trig_ok G -> lattice_ok L -> preserves_metric L r ->
  exists U, [/\ get_spinor_unitary_rotation E G L r = Ret U, spin_rotation L r U & exists R, is_cartesian L r R].
Proof.
move=> C E G L r EO GO LO h; exists (spin_of E G L r); split.
- exact: (proj1 (spin_total EO GO LO h)).
- exact: spin_rotation_of.
- have U : L^T \in unitmx by rewrite unitmx_tr; case: LO.
  by exists (L^T *m mC C r *m invmx L^T); rewrite /is_cartesian mulmxKV.
Qed.
Print Assumptions C33_spin_rotation.
(** The identity and the inversion give the identity matrix. *)
Theorem C33_identity_and_inversion : forall (C : numClosedFieldType) (E : numpy C) (G : trig C) L,
  trig_ok G -> lattice_ok L ->
  get_spinor_unitary_rotation E G L mid = Ret 1%:M /\ get_spinor_unitary_rotation E G L (mneg mid) = Ret 1%:M.
Proof. by move=> C E G L GO LO; rewrite (spin_id E GO LO) (spin_inversion E GO LO). Qed.
Print Assumptions C33_identity_and_inversion.

(* ---------- C34 ---------- *)
(** The factor system found by get_spinor_factor_system. *)
Theorem C34_factor_system : forall (C : numClosedFieldType) (E : numpy C) (G : trig C) L rots mul e,
  eig_ok E -> trig_ok G -> lattice_ok L -> lists_group rots -> multiplication rots mul e ->
  (forall r, In r rots -> preserves_metric L r) ->
  exists z U, [/\ get_spinor_factor_system E G L rots = Ret (z, U), size U = size rots,
    forall i, (i < size rots)%N -> spin_rotation L (List.nth i rots mid) (nth 0 U i),
    forall i j, (i < size rots)%N -> (j < size rots)%N ->
      (z i j = 1 \/ z i j = -1) /\ nth 0 U i *m nth 0 U j = z i j *: nth 0 U (mul i j) &
    (forall i, (i < size rots)%N -> z e i = 1 /\ z i e = 1) /\ ifactor_system (size rots) mul e z].
Proof.
move=> C E G L rots mul e EO GO LO LG M PM; have [z [hz zE]] := spinor_factor_system EO GO LO PM LG M.
have P := nth_preserves PM; exists z, (List.map (spin_of E G L) rots); split=> //.
- by rewrite -[size _]/(List.length _) map_length.
- by move=> i hi; rewrite (spin_nth E G L hi); apply: spin_rotation_of.
- move=> i j hi hj; rewrite (zE i j hi hj) (spin_nth E G L hi) (spin_nth E G L hj) (spin_nth E G L (mt_lt M hi hj)) (mt_mul M hi hj).
  exact: (spin_sign_ok EO GO LO (P i) (P j)).
- split; last exact: (spin_fs EO GO LO PM M zE).
  move=> i hi; rewrite (zE e i (mt_e M) hi) (zE i e hi (mt_e M)) (mt_id M).
  by split; [exact: (spin_sign_id_l EO GO LO (P i))|exact: (spin_sign_id_r EO GO LO (P i))].
Qed.
Print Assumptions C34_factor_system.

(* ---------- C48 ---------- *)
(** The k-point in the dual basis: the only coordinates of the Cartesian vector k B, the given
    ones when no reciprocal lattice is given; the phase k.t is the Cartesian scalar product. *)
Theorem C48_kpoint_conversion : forall (C : numClosedFieldType) (L : 'M[C]_3) B k, L \in unitmx ->
  let kc := convert_kpoint L B k in
  [/\ forall recip, B = Some recip -> kc *m dual_lattice L = k *m recip,
      forall recip k', B = Some recip -> k' *m dual_lattice L = k *m recip -> k' = kc,
      B = None -> kc = k &
      forall recip (t : 'rV[C]_3), B = Some recip -> kc *m t^T = (k *m recip) *m (t *m L)^T].
Proof.
move=> C L B k U kc; have UD : dual_lattice L \in unitmx by rewrite /dual_lattice unitmx_tr unitmx_inv.
have h1 recip : B = Some recip -> kc *m dual_lattice L = k *m recip by move=> hB; rewrite /kc /convert_kpoint hB mulmxKV.
split=> //.
- by move=> recip k' hB h; rewrite /kc /convert_kpoint hB -h mulmxK.
- by move=> hB; rewrite /kc /convert_kpoint hB mulmxK.
move=> recip t hB; rewrite -(h1 recip hB) /dual_lattice trmx_mul !mulmxA; congr (_ *m _).
by rewrite -mulmxA -trmx_mul mulmxV // trmx1 mulmx1.
Qed.
Print Assumptions C48_kpoint_conversion.
(** The primitive cell: the transformed rotation and k-point describe the same Cartesian
    rotation and the same Cartesian vector with respect to the lattice to_primitive.T @ lattice. *)
Theorem C48_primitive_cell : forall (C : numClosedFieldType) choice hall_symbol hall_number P (L : 'M[C]_3),
  get_primitive_transformation_matrix choice hall_symbol hall_number = Ret P -> lattice_ok L ->
  let PL := primitive_lattice P L in
  [/\ lattice_ok PL,
      forall k, vC C (transform_kpoint P k) *m dual_lattice PL = vC C k *m dual_lattice L,
      forall r, conj_integral P r -> preserves_metric L r -> preserves_metric PL (transform_rotation P r) &
      forall r R, conj_integral P r -> is_cartesian L r R <-> is_cartesian PL (transform_rotation P r) R].
Proof.
move=> C choice hs hn P L HP LO PL; have HD := primitive_det_neq0 HP; have U := qmC_unit C HD.
split; [exact: primitive_lattice_ok| |by move=> r; apply: primitive_preserves|by move=> r R; apply: primitive_cartesian].
move=> k; rewrite /transform_kpoint vC_qtvec /dual_lattice /PL /primitive_lattice.
have UL : L \in unitmx by case: LO.
have -> : invmx ((qmC C P)^T *m L) = invmx L *m invmx (qmC C P)^T.
  have UP : (qmC C P)^T *m L \in unitmx by rewrite unitmx_mul unitmx_tr U.
  apply: (can_inj (mulmxK UP)); rewrite mulVmx // mulmxA -[_ *m invmx _ *m _]mulmxA mulVmx ?unitmx_tr // mulmx1 mulVmx //.
by rewrite trmx_mul [(invmx (qmC C P)^T)^T]trmx_inv trmxK !mulmxA mulmxK.
Qed.
Print Assumptions C48_primitive_cell.

(* ---------- C35 ---------- *)
(** enumerate_spinor_small_representations and the whole path for a space group given in a
    primitive cell.  Apart from the reported failures the result is, entrywise up to atol, a
    complete list of unitary irreducible representations of the little group with factor
    system z(i,j) exp(-2 pi i k.(R_i w_j + w_i - w_ij)); z are the signs of the returned spin
    rotations. *)
Theorem C35_spinor_irreps : forall (C : numClosedFieldType) (E : numpy C) (G : trig C) rtol atol D L rots trans k method max_num,
  numpy_ok E rtol atol -> eig_ok E -> trig_ok G -> lattice_ok L ->
  Qle (inject_Z Z0) atol -> Qle atol (Qmake 1 3) -> Qlt (Qmult (inject_Z (Zpos D)) atol) (inject_Z 1%coqZ) ->
  lists_space_group rots trans -> has_denominator D k ->
  (forall r, In r rots -> preserves_metric L r) ->
  (forall i, (i < size rots)%N -> List.nth i rots mid = mid -> veq (List.nth i trans vzero) vzero) ->
  exists lm, StronglySorted Nat.lt lm /\
    (forall i, In i lm <-> (i < size rots)%N /\ fixes_kpoint k (List.nth i rots mid)) /\
    let lr := List.map (fun i => List.nth i rots mid) lm in
    let lt := List.map (fun i => List.nth i trans vzero) lm in
    (exists mul e, multiplication lr mul e) /\
    exists S zeta z, spin_system L lr S zeta /\
    (forall i j, (i < size lr)%N -> (j < size lr)%N -> z i j = zeta (List.nth i lr mid) (List.nth j lr mid)) /\
    forall mul e, multiplication lr mul e -> method_ok E lr method ->
    let f := get_spacegroup_spinor_irreps_from_primitive_symmetry E G L rots trans k method rtol atol max_num in
    let nu i j := z i j * bloch_factor (np_exp E) lr lt k mul i j in
    let U := List.map S lr in
    [\/ f = CWarn /\ method = "Neto"%string /\ unlucky_samples (size lr) (np_rnd E) (qC C atol) max_num,
        f = COk ([::], z, U, lm, false) /\ method = "random"%string,
        f = CExn ValueError /\ exists A A' L, [/\ complete_list lr mul e (fun i j => z i j * little_factor_system E lr lt k i j) L, List.In A' L, near (qC C atol) A A' &
          1 < np_int E (fs_number A)] |
        exists L L', [/\ f = COk (L, z, U, lm, true), complete_list lr mul e nu L' & near_list (qC C atol) L L']].
Proof.
move=> C E G rtol atol D L rots trans k method max_num NO EO GO LO Ap A3 Da SG HD PM W0.
case EL: (get_little_group rots trans k atol) => [[lr lt] lm].
have [SGl Hin] := little_is_space_group _ _ _ _ _ _ _ _ SG HD Ap Da EL.
have [Hs [Hm [Er Et]]] := little_group_spec _ _ _ _ _ _ _ (sg_len _ _ SG) EL.
exists lm; split=> //; split.
  move=> i; rewrite Hm; split=> -[/ssrnat.ltP hi hk]; split=> //.
    exact: (proj1 (keeps_kpoint_exact D atol k _ HD Ap Da) hk).
  exact: (proj2 (keeps_kpoint_exact D atol k _ HD Ap Da) hk).
move=> lr' lt'; rewrite -/lr' -/lt' in Er Et; subst lr lt.
have LGl := sg_rots _ _ SGl; have [mul0 [e0 M0]] := mult_exists LGl; split; first by exists mul0, e0.
have PMl r : In r lr' -> preserves_metric L r by move=> /Hin [/PM].
have [z [hz zs]] := spinor_factor_system EO GO LO PMl LGl M0.
exists (spin_of E G L), (spin_sign E G L), z; split; first exact: spin_system_of; split=> //.
move=> mul e M mok f nu.
have W0' : veq (List.nth e lt' vzero) vzero.
  have he : (e < List.length lm)%coq_nat by have /ssrnat.ltP := mt_e M; rewrite -[size _]/(List.length _) map_length.
  have := mt_id M; rewrite /lr' /lt' !nth_map_nth // => hid.
  have /Hm [hi _] := nth_In lm 0%N he; by apply: W0 => //; apply/ssrnat.ltP.
have NP : not_primitive atol rots trans = false.
  case: (boolP (not_primitive atol rots trans)) => [h|/negbTE //].
  have [i [/ssrnat.ltP hi ei []]] := proj1 (not_primitive_iff SG atol) h.
  by have [-> [-> ->]] := W0 i hi ei.
have FK : forall r, In r lr' -> fixes_kpoint k r by move=> r /Hin [].
rewrite /f /get_spacegroup_spinor_irreps_from_primitive_symmetry NP EL.
have [z' [hz' out]] := spinor_small_outcome NO A3 EO GO LO SGl FK PMl M W0' max_num mok.
have ez : z' = z by rewrite hz in hz'; case: hz' => ->.
clear zs; move: ez hz hz' out => -> _ _; clearbody f; clear f.
case=> [[-> h]|[-> h]|[-> h]|[X [X' [-> cl nr]]]].
- exact: Or41. - exact: Or42. - exact: Or43.
by apply: Or44; exists X, X'.
Qed.
Print Assumptions C35_spinor_irreps.

(** The public function for a structure, given in a conventional cell in centring blocks.  The
    returned irreps are those of the operations of the mapping, centring translations included;
    the signs and spin rotations returned are those of the little group of the primitive cell. *)
Theorem C35_conventional_cell : forall (C : numClosedFieldType) (E : numpy C) (G : trig C) rtol atol D choice hall_symbol hall_number P
    L rots trans k method max_num,
  numpy_ok E rtol atol -> eig_ok E -> trig_ok G -> lattice_ok L ->
  Qle (inject_Z Z0) atol -> Qle atol (Qmake 1 3) -> Qlt (Qmult (inject_Z (Zpos D)) atol) (inject_Z 1%coqZ) ->
  get_primitive_transformation_matrix choice hall_symbol hall_number = Ret P ->
  (forall r, In r rots -> conj_integral P r /\ preserves_metric L r) ->
  let pr := List.map (transform_rotation P) rots in
  let pt := List.map (transform_translation P) trans in
  let pk := transform_kpoint P k in
  let PL := primitive_lattice P L in
  centred_space_group pr pt -> first_occurrences_first pr -> has_denominator D pk ->
  exists lm lr lt, [/\ StronglySorted Nat.lt lm,
    forall i, In i lm <-> (i < size rots)%N /\ fixes_kpoint pk (List.nth i pr mid),
    lists_space_group lr lt /\ representatives pr pt lr lt, forall r, In r lr <-> In r pr /\ fixes_kpoint pk r &
    exists S zeta z, [/\ spin_system PL lr S zeta,
      forall i j, (i < size lr)%N -> (j < size lr)%N -> z i j = zeta (List.nth i lr mid) (List.nth j lr mid) &
    method_ok E lr method ->
    let f := get_spacegroup_spinor_irreps E G choice hall_symbol hall_number L rots trans k method rtol atol max_num in
    let U := List.map S lr in
    [\/ f = CWarn /\ method = "Neto"%string /\ unlucky_samples (size lr) (np_rnd E) (qC C atol) max_num,
        f = COk ([::], z, U, lm, false) /\ method = "random"%string,
        f = CExn ValueError /\ exists A A' mul e L, [/\ multiplication lr mul e,
          complete_list lr mul e (fun i j => z i j * little_factor_system E lr lt pk i j) L,
          List.In A' L, near (qC C atol) A A' & 1 < np_int E (fs_number A)] |
        exists X X', [/\ f = COk (X, z, U, lm, true), near_list (qC C (Qmake 1 100000000) + qC C atol) X X',
          forall m, (m < size X')%N -> aorder (arr_nth X' m) = size lm &
          centred_irreps (np_exp E) zeta pr pt pk lm (size X') (fun m => aget (arr_nth X' m))]]]].
Proof.
move=> C E G rtol atol D choice hs hn P L rots trans k method max_num NO EO GO LO Ap A3 Da HP PM pr pt pk PL CS BL HD.
have ce := or_cexp (no_oracles NO); have a0 := or_atol (no_oracles NO).
have HP0 := primitive_det_neq0 HP; have LO' : lattice_ok PL := primitive_lattice_ok HP0 LO.
case HU: (unique_primitive_symmetry pr pt) => [[R T] M].
have len : List.length pt = List.length pr := cs_len CS.
have SG := unique_space_group pr pt len (cs_id CS) (cs_mul CS) (cs_inv CS) (clo' CS) R T M HU.
have W0 i : (i < size R)%N -> List.nth i R mid = mid -> veq (List.nth i T vzero) vzero.
  by move=> /ssrnat.ltP hi; apply: (unique_identity pr pt len (clo' CS) R T M HU).
have [_ [_ [_ [_ [Hin _]]]]] := unique_spec pr pt R T M len HU.
have PMR r : In r R -> preserves_metric PL r.
  move=> /Hin /in_map_iff [s [<- /PM [h1 h2]]]; exact: primitive_preserves.
have [lp [Hs [Hm [[mul [e MT]] [S [zeta [z [SS [zE out]]]]]]]]] :=
  C35_spinor_irreps method max_num NO EO GO LO' Ap A3 Da SG HD PMR W0.
set lr := List.map (fun i => List.nth i R mid) lp in MT SS zE out.
set lt := List.map (fun i => List.nth i T vzero) lp in out.
have Hlr r : In r lr <-> In r pr /\ fixes_kpoint pk r.
  rewrite /lr in_map_iff -Hin; split=> [[x [<- /Hm [hx fx]]]|[hr fx]].
    by split=> //; apply: nth_In; apply/ssrnat.ltP.
  have [x [hx ex]] := In_nth_lt _ _ mid hr; exists x; split=> //; apply/Hm; rewrite ex; split=> //; exact/ssrnat.ltP.
have SGl : lists_space_group lr lt.
  case EL: (get_little_group R T pk atol) => [[lr0 lt0] lm0].
  have [SGl _] := little_is_space_group _ _ _ _ _ _ _ _ SG HD Ap Da EL.
  have [Hs0 [Hm0 [Er Et]]] := little_group_spec _ _ _ _ _ _ _ (sg_len _ _ SG) EL.
  suff e0 : lm0 = lp by rewrite /lr /lt -e0 -Er -Et.
  apply: sorted_unique => // i; rewrite Hm Hm0; split=> -[hi fx]; split.
  - exact/ssrnat.ltP.
  - exact: (proj1 (keeps_kpoint_exact D atol pk _ HD Ap Da) fx).
  - exact/ssrnat.ltP.
  - exact: (proj2 (keeps_kpoint_exact D atol pk _ HD Ap Da) fx).
have z1 x : (x < size lr)%N -> zeta (List.nth x lr mid) mid = 1.
  move=> hx; have hm : In mid lr by apply: lg_id (sg_rots _ _ SGl).
  have hr : In (List.nth x lr mid) lr by apply: nth_In; apply/ssrnat.ltP.
  have := ss_mul SS hr hm; rewrite (ss_id SS) mulmx1 mmul_1r; apply: scale_fix1.
  have hsr : spin_rotation PL (List.nth x lr mid) (S (List.nth x lr mid)) := ss_spin SS hr.
  exact: spin_rotation_neq0 LO' hsr.
exists (List.map fst (select_little pt T M lp)), lr, lt; split.
- exact: select_sorted.
- move=> i; have := lm2_iff CS HU BL Hs Hm i; rewrite -[size pr]/(List.length pr) map_length; exact.
- split=> // i; rewrite -[size lr]/(List.length lr) /lr map_length => /ssrnat.ltP hi.
  have hl : In (List.nth i lp 0%N) lp by apply: nth_In.
  have [hR _] := proj1 (Hm _) hl; have [x [hx [ex vx]]] := unique_representative _ _ _ _ _ len HU _ (elimT ssrnat.ltP hR).
  exists x; split; [exact/ssrnat.ltP| |].
  - by rewrite ex (nth_map_in _ _ _ 0%N).
  - by rewrite /lt (nth_map_in _ _ _ 0%N).
- exact: Hlr.
exists S, zeta, z; split=> //.
move=> mok; rewrite /get_spacegroup_spinor_irreps HP.
have E0 A B (x : A) (g : A -> cres B) : cbind (clift (Ret x)) g = g x by [].
rewrite E0 /transform_symmetry_and_kpoint -/pr -/pt -/pk HU -/PL.
case: (out mul e MT mok) => [[-> h]|[-> h]|[-> h]|[X [X' [-> cl nr]]]].
- exact: Or41.
- exact: Or42.
- by apply: Or43; split=> //; have [A [A' [L0 [h0 h1 h2 h3]]]] := h; exists A, A', mul, e, L0.
apply: Or44.
have cl' : complete_list lr mul e (fun x y => zeta (List.nth x lr mid) (List.nth y lr mid) *
    bloch_factor (np_exp E) lr lt pk mul x y) X'.
  case: cl => s1 s2; split=> //; apply: complete_eq s2 => [|i j hi hj|//]; last by rewrite zE.
  exact: mult_group_law (sg_rots _ _ SGl) MT.
have [L2 [L2' [h1 h2 h3 h4]]] := adjust_correct (zeta := zeta) ce CS HU BL Hs Hm SGl z1 MT a0 cl' nr.
have E1 A B (x : A) (g : A -> cres B) : cbind (COk x) g = g x by [].
by rewrite E1; move: h1; case: adjust_phase_for_centering_translations => a b [-> ->]; exists L2, L2'.
Qed.
Print Assumptions C35_conventional_cell.

(** Point groups: no failure besides an unlucky random draw. *)
Theorem C35_pointgroup : forall (C : numClosedFieldType) (E : numpy C) (G : trig C) rtol atol L rots mul e method max_num,
  numpy_ok E rtol atol -> eig_ok E -> trig_ok G -> lattice_ok L -> Qle atol (Qmake 1 3) ->
  (size rots)%:R * (2%:R * qC C atol + qC C atol ^+ 2) < 2%:R^-1 ->
  lists_group rots -> multiplication rots mul e -> (forall r, In r rots -> preserves_metric L r) -> method_ok E rots method ->
  let f := get_crystallographic_pointgroup_spinor_irreps_from_symmetry E G L rots method rtol atol max_num in
  exists S zeta z, [/\ spin_system L rots S zeta,
    forall i j, (i < size rots)%N -> (j < size rots)%N -> z i j = zeta (List.nth i rots mid) (List.nth j rots mid) &
    let U := List.map S rots in
    [\/ f = CWarn /\ method = "Neto"%string /\ unlucky_samples (size rots) (np_rnd E) (qC C atol) max_num,
        f = COk ([::], z, U, false) /\ method = "random"%string |
        exists X X', [/\ f = COk (X, z, U, true), complete_list rots mul e z X' & near_list (qC C atol) X X']]].
Proof.
move=> C E G rtol atol L rots mul e method max_num NO EO GO LO A3 small LG M PM mok f.
have [z [hz zs]] := spinor_factor_system EO GO LO PM LG M; have fs := spin_fs EO GO LO PM M zs.
have SS : spin_system L rots (spin_of E G L) (spin_sign E G L) by apply: spin_system_of.
exists (spin_of E G L), (spin_sign E G L), z; split=> // U.
rewrite /f /get_crystallographic_pointgroup_spinor_irreps_from_symmetry hz.
have E0 A B (x : A) (g : A -> cres B) : cbind (clift (Ret x)) g = g x by [].
rewrite E0 [(z, _).1]/= [(z, _).2]/= -/U.
have zr i j : (i < size rots)%N -> (j < size rots)%N -> z i j \is Num.real.
  move=> hi hj; rewrite zs //; have inr x : (x < size rots)%N -> In (List.nth x rots mid) rots by move=> hx; apply: nth_In; apply/ssrnat.ltP.
  by case: (ss_sign SS (inr i hi) (inr j hj)) => ->; rewrite ?rpredN rpred1.
clearbody U; clear f hz zs SS.
case: (C51_real_factor_system max_num NO A3 small LG M fs zr mok) => [[-> h]|[-> h]|[X [X' [inds [-> cl nr _ _]]]]] /=.
- exact: Or31.
- exact: Or32.
by apply: Or33; exists X, X'.
Qed.
Print Assumptions C35_pointgroup.

(* ---------- C53 ---------- *)
(** The spin rotations returned for a centred structure do not fit the returned little group.
    The group I2 at k = 0: four operations, two spin rotations. *)
Theorem C53_centred_structure_refuted : forall (C : numClosedFieldType) (E : numpy C) (G : trig C) L method rtol atol max_num X z U lm ok,
  Qle (inject_Z Z0) atol ->
  get_spacegroup_spinor_irreps E G "" "I 2y" 11 L i2b_rots i2b_trans vzero method rtol atol max_num = COk (X, z, U, lm, ok) ->
  size lm = 4%N /\ size U = 2%N.
Proof.
move=> C E G L method rtol atol max_num X z U lm ok a0.
have [UR [UT [HU [_ little]]]] := i2b_little; move: (little atol a0).
case HG: (get_little_group _ _ _ _) => [[lr lt] lp] [slr elp] h.
have [h1 h2] := conventional_parts i2c_basis HU HG h; rewrite elp i2b_select in h2.
by split; [rewrite h2|rewrite h1 slr].
Qed.
Print Assumptions C53_centred_structure_refuted.

(* ---------- hypotheses ---------- *)
(** Trigonometric functions, eigenvectors and the rest of NumPy as the theorems assume them. *)
Definition spin_numpy : numpy algCF :=
  {| np_around := np_around ex_numpy; np_powinv := np_powinv ex_numpy; np_nroot := np_nroot ex_numpy; np_rnd := np_rnd ex_numpy;
     np_exp := np_exp ex_numpy; np_eigh := np_eigh ex_numpy; np_qr := np_qr ex_numpy; np_hrnd := np_hrnd ex_numpy;
     np_key_le := np_key_le ex_numpy; np_int := np_int ex_numpy; np_eig := @ex_eig algCF;
     spglib_pointgroup := spglib_pointgroup ex_numpy |}.
Example C33_oracles_met : [/\ numpy_ok spin_numpy (inject_Z Z0) (inject_Z Z0), eig_ok spin_numpy & trig_ok (ex_trig algCF)].
Proof.
split; [by case: ex_numpy_ok => h1 h2 h3; split|by move=> n M; exact: ex_eig_ok|exact: ex_trig_ok].
Qed.
(** A hexagonal lattice and its three-fold rotation; the cubic lattice for the groups 222 and,
    in the conventional cell, I2. *)
Definition hex_lattice (C : numClosedFieldType) : 'M[C]_3 :=
  mx3 1 0 0 (- 2%:R^-1) (sqrtC 3%:R / 2%:R) 0 0 0 1.
Section Hex.
Variable C : numClosedFieldType.
Add Field FHex : (fth C).
Lemma hex_ok : lattice_ok (hex_lattice C) /\ preserves_metric (hex_lattice C) three.
Proof.
have r3 : sqrtC 3%:R * sqrtC 3%:R = 3%:R :> C by rewrite -expr2 sqrtCK.
have s0 : 0 < sqrtC 3%:R :> C by rewrite sqrtC_gt0 ltr0n.
have h0 : 2%:R != 0 :> C by rewrite pnatr_eq0.
split; first split.
- have rr : forall x : C, x \in [:: 1; 0; - 2%:R^-1; sqrtC 3%:R / 2%:R] -> x \is Num.real.
    move=> x; rewrite !inE => /or4P [] /eqP ->; rewrite ?rpred1 ?rpred0 ?rpredN ?rpredV ?realn //.
    by rewrite rpredM ?rpredV ?realn // ger0_real // ltW.
  by apply: ord3P => j; case: j => [[|[|[|//]]]] hj; rewrite mxE /=; apply: rr; rewrite !inE eqxx ?orbT.
- rewrite unitmxE unitfE det3 !mxE /= !(mul0r, mulr0, mul1r, mulr1, subr0, addr0).
  by rewrite mulf_neq0 ?invr_neq0 // gt_eqF.
set h := 2%:R^-1 : C; have hE : h + h = 1 by rewrite -mulr2n -mulr_natl mulfV.
have hE2 : (h + h) * (h + h) = 1 by rewrite hE mulr1.
have three3 : 3%:R = 1 + 1 + 1 :> C by rewrite -[1 in RHS]/(1%:R) -!natrD.
have metric : hex_lattice C *m (hex_lattice C)^T = mx3 1 (- h) 0 (- h) 1 0 0 0 1.
  have q : sqrtC 3%:R / 2%:R * (sqrtC 3%:R / 2%:R) = (1 + 1 + 1) * (h * h) :> C by rewrite mulf_div r3 invfM three3.
  apply: mx3P; split; rewrite mul3E !mxE /= ?(mulr0, mul0r, addr0, add0r, mulr1, mul1r) // -/h.
  rewrite q; apply: (lc2 (k1 := 1) (k2 := 0) hE2 hE2); to_field C; ring.
rewrite /preserves_metric metric.
have tE : mC C three = mx3 0 (-1) 0 1 (-1) 0 0 0 1.
  by rewrite /mC /=; apply: mx3P; split; rewrite !mxE.
clearbody h; rewrite tE; apply: mx3P; split; rewrite !mul3E !mxE /=;
  first [by to_field C; ring|by apply: (lc2 (k1 := 1) (k2 := 0) hE hE); to_field C; ring|
         by apply: (lc2 (k1 := -1) (k2 := 0) hE hE); to_field C; ring].
Qed.
End Hex.
Example C33_hypotheses_met : forall C : numClosedFieldType,
  lattice_ok (hex_lattice C) /\ preserves_metric (hex_lattice C) three.
Proof. exact: hex_ok. Qed.
Lemma cubic_involution (C : numClosedFieldType) r : mmul r r = mid -> (mC C r)^T = mC C r -> preserves_metric (1%:M : 'M[C]_3) r.
Proof. by move=> h1 h2; rewrite /preserves_metric h2 trmx1 !mulmx1 -mC_mul h1 mC_id. Qed.
Example C34_hypotheses_met : forall C : numClosedFieldType,
  [/\ lattice_ok (1%:M : 'M[C]_3), lists_group p2_rots, multiplication p2_rots p2_mul 3 &
      forall r, In r p2_rots -> preserves_metric (1%:M : 'M[C]_3) r].
Proof.
move=> C; have [SG _] := p2_space_group; have LG := sg_rots _ _ SG.
split=> //.
- by split; [move=> i j; rewrite mxE; case: eqP => _; rewrite ?rpred1 ?rpred0|exact: unitmx1].
- have [[_ _ h _ _] _] := C27_hypotheses_met; exact: h.
by move=> r [<-|[<-|[<-|[<-|[]]]]]; apply: cubic_involution; try reflexivity; apply: mx3P; split; rewrite !mxE.
Qed.
Example C35_hypotheses_met : forall C : numClosedFieldType,
  (forall r, In r i2b_rots -> conj_integral i_basis r /\ preserves_metric (1%:M : 'M[C]_3) r) /\
  let pr := List.map (transform_rotation i_basis) i2b_rots in
  let pt := List.map (transform_translation i_basis) i2b_trans in
  let pk := transform_kpoint i_basis (Vec (inject_Z 1%coqZ) (inject_Z 1%coqZ) (inject_Z 1%coqZ)) in
  [/\ get_primitive_transformation_matrix "" "I 2y" 11 = Ret i_basis, centred_space_group pr pt, first_occurrences_first pr,
      has_denominator 2 pk & ~ vint pk].
Proof.
move=> C; split; last exact: C28_hypotheses_met.
move=> r hr; split; first exact: i2b_integral.
by move: hr => [<-|[<-|[<-|[<-|[]]]]]; apply: cubic_involution; try reflexivity; apply: mx3P; split; rewrite !mxE.
Qed.
