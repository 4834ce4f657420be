(** Property theorems C11 (complex form), C27, C29/C51, C44, C45 (third checker), C47:
    small representations of little groups (irreps.py:28-240, 636-668, core.py:134-260,
    representation.py:294-325). *)
From Coq Require Import QArith ZArith List Lia String Sorted Permutation.
From mathcomp Require Import all_ssreflect all_algebra all_fingroup.
From mathcomp Require Import algC.
From Verif Require Import Py Mat3 MatQ GroupModel GroupSpec GroupProofs GroupProofs2 SpaceGroupProofs PointGroupModel PointGroupData
  PointGroupSpec ChainSpec RepSpec RepModel CExpSpec RepTheory IndexRepSpec IndexGroup ChainModel ChainTheory RandomModel ExpInstance
  RepProofs SmallModel PurifyTheory SmallSpec GaugeTheory SmallTheory SmallExamples ClaimsPointGroup ClaimsChain ClaimsRep ClaimsRandom.
Import Order.TTheory GRing.Theory Num.Theory.
Set Implicit Arguments.
Unset Strict Implicit.
Unset Printing Implicit Defensive.
Local Open Scope ring_scope.
Delimit Scope Z_scope with coqZ.

(* ---------- C11 ---------- *)
(** exp(-2 pi i (R_i^T k - k).w_j) is a normalised unitary 2-cocycle of the little co-group. *)
Theorem C11_factor_system : forall (C : numClosedFieldType) (E : numpy C) rots trans k mul e,
  exp_spec (np_exp E) -> lists_space_group rots trans -> (forall r, In r rots -> fixes_kpoint k r) ->
  multiplication rots mul e ->
  let mu := little_factor_system E rots trans k in
  ifactor_system (size rots) mul e mu /\
  forall i, (i < size rots)%N -> mu e i = 1 /\ mu i e = 1.
Proof.
move=> C E rots trans k mul e ce SG FK M mu; have fs := little_fs ce SG FK M; split=> // i hi.
have G := mult_group_law (sg_rots _ _ SG) M; have h := ifs_fs G fs.
have [x <-] := ival_surj G hi.
by have := mu1x h x; have := mux1 h x; rewrite /imu ival1.
Qed.
Print Assumptions C11_factor_system.

(* ---------- C27 ---------- *)
(** enumerate_small_representations (real = False) for a little group: apart from the
    reported failures, the result is entrywise within atol of a complete list of unitary
    irreducible pairwise inequivalent families with
    Gamma(R_i,w_i) Gamma(R_j,w_j) = exp(-2 pi i k.(R_i w_j + w_i - w_ij)) Gamma(R_ij,w_ij).
    The ValueError branch is the indicator check, see C51. *)
Theorem C27_small_representations : forall (C : numClosedFieldType) (E : numpy C) rtol atol rots trans k mul e method max_num,
  numpy_ok E rtol atol -> Qle atol (Qmake 1 3) ->
  lists_space_group rots trans -> (forall r, In r rots -> fixes_kpoint k r) ->
  multiplication rots mul e -> veq (List.nth e trans vzero) vzero -> method_ok E rots method ->
  let f := enumerate_small_representations E rots trans k false method rtol atol max_num in
  let nu := bloch_factor (np_exp E) rots trans k mul in
  [\/ f = CWarn /\ method = "Neto"%string /\ unlucky_samples (size rots) (np_rnd E) (qC C atol) max_num,
      f = COk ([::], [::], false) /\ method = "random"%string,
      f = CExn ValueError /\ exists A A' mu L, [/\ mu = little_factor_system E rots trans k \/ mu = nu, complete_list rots mul e mu L, List.In A' L, near (qC C atol) A A' &
        1 < np_int E (fs_number A)] |
      exists L L' inds, [/\ f = COk (L, inds, true), complete_list rots mul e nu L', near_list (qC C atol) L L' &
        inds = [seq np_int E (fs_number A) | A <- L]]].
Proof. by move=> C E rtol atol rots trans k mul e method max_num NO A3 SG FK M W0 mok; apply: small_outcome. Qed.
Print Assumptions C27_small_representations.

(** With atol = 0 the returned matrices themselves are the complete list. *)
Theorem C27_exact : forall (C : numClosedFieldType) (E : numpy C) rtol atol rots trans k mul e method max_num L inds,
  numpy_ok E rtol atol -> Qeq atol (inject_Z Z0) ->
  lists_space_group rots trans -> (forall r, In r rots -> fixes_kpoint k r) ->
  multiplication rots mul e -> veq (List.nth e trans vzero) vzero -> method_ok E rots method ->
  enumerate_small_representations E rots trans k false method rtol atol max_num = COk (L, inds, true) ->
  complete_list rots mul e (bloch_factor (np_exp E) rots trans k mul) L.
Proof.
move=> C E rtol atol rots trans k mul e method max_num L inds NO A0 SG FK M W0 mok h.
have A3 : Qle atol (Qmake 1 3) by rewrite A0.
have := C27_small_representations max_num NO A3 SG FK M W0 mok; cbv zeta; rewrite h.
case=> [[]//|[]//|[]//|[L1 [L2 [inds' [[<- _] cl nr _]]]]].
by rewrite (qC_eq C A0) qC0 in nr; rewrite (near_list0 nr).
Qed.
Print Assumptions C27_exact.

(** The same for the whole space group: the mapping lists, in increasing order, the
    operations whose rotation fixes k, and the irreps are those of these operations. *)
Theorem C27_spacegroup_irreps : forall (C : numClosedFieldType) (E : numpy C) rtol atol D rots trans k method max_num,
  numpy_ok E rtol atol -> Qle (inject_Z Z0) atol -> Qle atol (Qmake 1 3) -> Qlt (Qmult (inject_Z (Zpos D)) atol) (inject_Z 1%coqZ) ->
  lists_space_group rots trans -> has_denominator D k ->
  (forall i, (i < size rots)%N -> List.nth i rots mid = mid -> veq (List.nth i trans vzero) vzero) ->
  exists lm, StronglySorted Nat.lt lm /\
    (forall i, In i lm <-> (i < size rots)%N /\ fixes_kpoint k (List.nth i rots mid)) /\
    let lr := List.map (fun i => List.nth i rots mid) lm in
    let lt := List.map (fun i => List.nth i trans vzero) lm in
    (exists mul e, multiplication lr mul e) /\
    forall mul e, multiplication lr mul e -> method_ok E lr method ->
    let f := get_spacegroup_irreps_from_primitive_symmetry E rots trans k false method rtol atol max_num in
    let nu := bloch_factor (np_exp E) lr lt k mul in
    [\/ f = CWarn /\ method = "Neto"%string /\ unlucky_samples (size lr) (np_rnd E) (qC C atol) max_num,
        f = COk ([::], lm, false) /\ method = "random"%string,
        f = CExn ValueError /\ exists A A' mu L, [/\ mu = little_factor_system E lr lt k \/ mu = nu, complete_list lr mul e mu L, List.In A' L, near (qC C atol) A A' &
          1 < np_int E (fs_number A)] |
        exists L L', [/\ f = COk (L, lm, true), complete_list lr mul e nu L' & near_list (qC C atol) L L']].
Proof.
move=> C E rtol atol D rots trans k method max_num NO Ap A3 Da SG HD W0.
case EL: (get_little_group rots trans k atol) => [[lr lt] lm].
have [SGl Hin] := little_is_space_group _ _ _ _ _ _ _ _ SG HD Ap Da EL.
have [Hs [Hm [Er Et]]] := little_group_spec _ _ _ _ _ _ _ (sg_len _ _ SG) EL.
exists lm; split=> //; split.
  move=> i; rewrite Hm; split=> -[/ssrnat.ltP hi hk]; split=> //.
    exact: (proj1 (keeps_kpoint_exact D atol k _ HD Ap Da) hk).
  exact: (proj2 (keeps_kpoint_exact D atol k _ HD Ap Da) hk).
move=> lr' lt'; rewrite -/lr' -/lt' in Er Et; subst lr lt.
have LGl := sg_rots _ _ SGl; split; first exact: mult_exists LGl.
move=> mul e M mok f nu.
have W0' : veq (List.nth e lt' vzero) vzero.
  have he : (e < List.length lm)%coq_nat by have /ssrnat.ltP := mt_e M; rewrite -[size _]/(List.length _) map_length.
  have := mt_id M; rewrite /lr' /lt' !nth_map_nth // => hid.
  have /Hm [hi _] := nth_In lm 0%N he; by apply: W0 => //; apply/ssrnat.ltP.
have NP : not_primitive atol rots trans = false.
  case: (boolP (not_primitive atol rots trans)) => [h|/negbTE //].
  have [i [/ssrnat.ltP hi ei []]] := proj1 (not_primitive_iff SG atol) h.
  by have [-> [-> ->]] := W0 i hi ei.
have FK : forall r, In r lr' -> fixes_kpoint k r by move=> r /Hin [].
rewrite /f /get_spacegroup_irreps_from_primitive_symmetry NP EL.
case: (C27_small_representations max_num NO A3 SGl FK M W0' mok) => [[-> h]|[-> h]|[-> h]|[L [L' [inds [-> cl nr _]]]]] /=.
- exact: Or41. - exact: Or42. - exact: Or43.
by apply: Or44; exists L, L'.
Qed.
Print Assumptions C27_spacegroup_irreps.

(* ---------- C47 ---------- *)
(** An operation with identity rotation and a translation component larger than atol makes
    the call fail with ValueError; if there is none, every identity rotation has translation
    zero. *)
Theorem C47_primitive_cell_check : forall (C : numClosedFieldType) (E : numpy C) rots trans k real method rtol atol max_num,
  lists_space_group rots trans ->
  let bad i := (i < size rots)%N /\ List.nth i rots mid = mid /\
    ~ (Qle (Qabs.Qabs (v1 (List.nth i trans vzero))) atol /\ Qle (Qabs.Qabs (v2 (List.nth i trans vzero))) atol /\
       Qle (Qabs.Qabs (v3 (List.nth i trans vzero))) atol) in
  ((exists i, bad i) ->
   get_spacegroup_irreps_from_primitive_symmetry E rots trans k real method rtol atol max_num = CExn ValueError) /\
  ((forall i, ~ bad i) -> Qlt atol (inject_Z 1%coqZ) ->
   forall i, (i < size rots)%N -> List.nth i rots mid = mid -> veq (List.nth i trans vzero) vzero).
Proof.
move=> C E rots trans k real method rtol atol max_num SG bad; split.
  move=> [i [hi [ei hw]]]; rewrite /get_spacegroup_irreps_from_primitive_symmetry.
  by rewrite (proj2 (not_primitive_iff SG atol)) //; exists i; split=> //; apply/ssrnat.ltP.
move=> nb a1 i hi ei; apply: (primitive_zero SG a1) => //; last exact/ssrnat.ltP.
case: (boolP (not_primitive atol rots trans)) => [h|/negbTE //].
by have [j [hj ej wj]] := proj1 (not_primitive_iff SG atol) h; case: (nb j); split=> //; apply/ssrnat.ltP.
Qed.
Print Assumptions C47_primitive_cell_check.

(* ---------- C22-C25 through the public function ---------- *)
(** enumerate_unitary_irreps for every group and every factor system: apart from the reported
    failures the returned arrays are, entrywise within atol, a complete list of unitary irreps
    with the factor system of the caller, and the numbers returned with them are those of
    frobenius_schur_indicator. *)
Theorem C24_enumerate_unitary_irreps : forall (C : numClosedFieldType) (E : numpy C) rtol atol rots mul e (mu : nat -> nat -> C)
    method max_num,
  numpy_ok E rtol atol -> Qle atol (Qmake 1 3) ->
  lists_group rots -> multiplication rots mul e -> ifactor_system (size rots) mul e mu -> method_ok E rots method ->
  let f := enumerate_unitary_irreps E rots mu false method rtol atol max_num in
  [\/ f = CWarn /\ method = "Neto"%string /\ unlucky_samples (size rots) (np_rnd E) (qC C atol) max_num,
      f = COk ([::], [::], false) /\ method = "random"%string,
      f = CExn ValueError /\ exists A A' L, [/\ complete_list rots mul e mu L, List.In A' L, near (qC C atol) A A' &
        frobenius_schur_indicator (np_int E) A = Raise ValueError] |
      exists L L' inds, [/\ f = COk (L, inds, true), complete_list rots mul e mu L', near_list (qC C atol) L L', size inds = size L &
        forall m, (m < size L)%N -> frobenius_schur_indicator (np_int E) (arr_nth L m) = Ret (nth 0 inds m)]].
Proof.
move=> C E rtol atol rots mul e mu method max_num NO A3 LG M fs mok f.
have ind A : frobenius_schur_indicator (np_int E) A =
    if 1 < np_int E (fs_number A) then Raise ValueError else Ret (np_int E (fs_number A)) by exact: indicatorE.
case: (unitary_outcome NO A3 LG M max_num fs mok) => [h|h|[L [cl [nr [[fE h]|[fE [m [hm h]]]]]]]].
- exact: Or41.
- exact: Or42.
- apply: Or44; set P := [seq purify_irrep_value E (qC C atol) A | A <- L] in nr fE h *.
  exists P, L, [seq np_int E (fs_number A) | A <- P]; split=> //; first by rewrite size_map.
  move=> m hm; rewrite ind (nth_map (@Arr C 0 [::])) // -/(arr_nth P m).
  by rewrite ltNge h.
apply: Or43; split=> //; set P := [seq purify_irrep_value E (qC C atol) A | A <- L] in nr fE h hm *.
case: nr => sz nr; exists (arr_nth P m), (arr_nth L m), L; split=> //.
- by apply: arr_nth_in; rewrite -sz.
- exact: nr.
- by rewrite ind h.
Qed.
Print Assumptions C24_enumerate_unitary_irreps.
(** Any other name of a method is refused. *)
Theorem C24_unknown_method : forall (C : numClosedFieldType) (E : numpy C) rots (mu : nat -> nat -> C) real method rtol atol max_num,
  method <> "Neto"%string -> method <> "random"%string ->
  enumerate_unitary_irreps E rots mu real method rtol atol max_num = CExn ValueError.
Proof.
move=> C E rots mu real method rtol atol max_num h1 h2; rewrite /enumerate_unitary_irreps /raw_irreps.
by case: String.eqb_spec => // _; case: String.eqb_spec.
Qed.
Print Assumptions C24_unknown_method.

(* ---------- C29, C51 ---------- *)
(** For a real factor system (point groups, spin) enumerate_unitary_irreps never raises, and
    the numbers it returns are the Frobenius-Schur indicators. *)
Theorem C51_real_factor_system : forall (C : numClosedFieldType) (E : numpy C) rtol atol rots mul e (mu : nat -> nat -> C)
    method max_num,
  numpy_ok E rtol atol -> Qle atol (Qmake 1 3) ->
  (size rots)%:R * (2%:R * qC C atol + qC C atol ^+ 2) < 2%:R^-1 ->
  lists_group rots -> multiplication rots mul e -> ifactor_system (size rots) mul e mu ->
  (forall i j, (i < size rots)%N -> (j < size rots)%N -> mu i j \is Num.real) ->
  method_ok E rots method ->
  let f := enumerate_unitary_irreps E rots mu false method rtol atol max_num in
  [\/ f = CWarn /\ method = "Neto"%string /\ unlucky_samples (size rots) (np_rnd E) (qC C atol) max_num,
      f = COk ([::], [::], false) /\ method = "random"%string |
      exists L L' inds, [/\ f = COk (L, inds, true), complete_list rots mul e mu L', near_list (qC C atol) L L',
        size inds = size L &
        forall m, (m < size L)%N -> fs_meaning (size rots) (aget (arr_nth L' m)) (nth 0 inds m)]].
Proof.
by move=> C E rtol atol rots mul e mu method max_num NO A3 small LG M fs mr mok; apply: unitary_real_outcome.
Qed.
Print Assumptions C51_real_factor_system.

(** Point groups, through the public function. *)
Theorem C29_pointgroup_irreps : forall (C : numClosedFieldType) (E : numpy C) rtol atol rots mul e method max_num,
  numpy_ok E rtol atol -> Qle atol (Qmake 1 3) ->
  (size rots)%:R * (2%:R * qC C atol + qC C atol ^+ 2) < 2%:R^-1 ->
  lists_group rots -> multiplication rots mul e -> method_ok E rots method ->
  let f := get_crystallographic_pointgroup_irreps_from_symmetry E rots false method rtol atol max_num in
  [\/ f = CWarn /\ method = "Neto"%string /\ unlucky_samples (size rots) (np_rnd E) (qC C atol) max_num,
      f = COk ([::], false) /\ method = "random"%string |
      exists L L', [/\ f = COk (L, true), complete_list rots mul e (fun _ _ => 1) L' & near_list (qC C atol) L L']].
Proof.
move=> C E rtol atol rots mul e method max_num NO A3 small LG M mok f.
have fs : ifactor_system (size rots) mul e (fun _ _ => 1 : C) by split=> *; rewrite ?normr1.
rewrite /f /get_crystallographic_pointgroup_irreps_from_symmetry.
case: (C51_real_factor_system max_num NO A3 small LG M fs _ mok) => [i j _ _|[-> h]|[-> h]|[L [L' [inds [-> cl nr _ _]]]]] /=.
- exact: rpred1.
- exact: Or31.
- exact: Or32.
by apply: Or33; exists L, L'.
Qed.
Print Assumptions C29_pointgroup_irreps.

(** The claim that every valid little group gets its irreps is false.  The group I2_12_12_1
    in its primitive cell with the origin moved to (1/8,1/8,1/8), at the k-point
    (1/4,1/4,1/4), which all operations fix: whatever NumPy returns, no irreps come back; the
    call fails with ValueError or, for unlucky random numbers, with a warning. *)
Definition i2_mul (i j : nat) : nat := tget ex_t i j.
Lemma i2_group : multiplication i2_rots i2_mul 0.
Proof. by split=> //; [move=> [|[|[|[|//]]]] [|[|[|[|//]]]]|move=> [|[|[|[|//]]]] [|[|[|[|//]]]]]. Qed.
Theorem C51_valid_little_group_refuted : forall (C : numClosedFieldType) (E : numpy C) rtol atol method max_num,
  numpy_ok E rtol atol -> Qle atol (Qmake 1 100) -> method_ok E i2_rots method ->
  [\/ enumerate_small_representations E i2_rots i2_trans i2_k false method rtol atol max_num = CExn ValueError,
      enumerate_small_representations E i2_rots i2_trans i2_k false method rtol atol max_num = CWarn /\
        unlucky_samples 4 (np_rnd E) (qC C atol) max_num |
      enumerate_small_representations E i2_rots i2_trans i2_k false method rtol atol max_num = COk ([::], [::], false) /\
        method = "random"%string].
Proof.
move=> C E rtol atol method max_num NO A1 mok; have [SG FK] := i2_space_group; have M := i2_group.
have ce := or_cexp (no_oracles NO).
have A3 : Qle atol (Qmake 1 3) by apply: Qle_trans A1 _.
have fs := little_fs ce SG FK M; have LG := sg_rots _ _ SG.
rewrite /enumerate_small_representations.
case: (unitary_outcome NO A3 LG M max_num fs mok) => [[-> [_ h]]|[-> h]|[L [cl [nr hh]]]] /=.
- exact: Or32.
- exact: Or33.
apply: Or31; case: hh => [[_ h]|[-> //]].
exfalso; set lfs := little_factor_system E i2_rots i2_trans i2_k in fs cl.
have diag i : (i < 4)%N -> lfs i i = 1.
  by case: i => [|[|[|[|//]]]] _; rewrite /lfs /little_factor_system -(cexp0 ce); apply: (ce_eq ce); vm_compute.
have anti : lfs 1%N 2%N = - lfs 2%N 1%N.
  have h2 : np_exp E (Qmake 1 2) = -1.
    have: np_exp E (Qmake 1 2) ^+ 2 = 1 by rewrite (cexpX ce); apply/(ce_int ce); exists 1%coqZ; vm_compute.
    move/eqP; rewrite sqrf_eq1 => /orP [/eqP /(ce_int ce) [z]|/eqP //].
    by rewrite /Qeq /= => hz; exfalso; lia.
  by rewrite -mulN1r -h2 /lfs /little_factor_system -(ce_add ce); apply: (cexp_diff ce); exists (-1)%coqZ; vm_compute.
have [sz ci] := cl; have sL : (0 < size L)%N.
  by have := ci_squares ci; case: (L) => // /eqP; rewrite big_ord0.
set A := arr_nth L 0 in cl sz ci *.
have [p1 p2] : iprojrep 4 i2_mul 0 lfs (aget A) := ci_rep ci sL.
have u : iunitary 4 (aget A) := ci_unitary ci sL.
have [d0 _] := ci_irreducible ci sL; rewrite -/A in d0.
have d2 : (1 < adim A)%N.
  rewrite ltn_neqAle d0 andbT; apply/negP => /eqP d1.
  have comm (X Y : 'M[C]_(adim A)) : X *m Y = Y *m X by case: (adim A) / d1 X Y => X Y; rewrite [X]mx11_scalar scalar_mxC.
  have e12 := p2 1%N 2%N isT isT; rewrite comm p2 // anti in e12.
  have {e12} : (lfs 2%N 1%N *+ 2) *: aget A 3 = 0.
    by rewrite mulr2n scalerDl; apply/eqP; rewrite addr_eq0 -scaleNr; apply/eqP.
  move/eqP; rewrite scaler_eq0 mulrn_eq0 /= -normr_eq0 (ifs_norm fs) // oner_eq0 /= => /eqP a3.
  have := u 3%N isT; rewrite a3 mul0mx => /(congr1 mxtrace); rewrite mxtrace0 mxtrace1 => /eqP.
  by rewrite eq_sym pnatr_eq0 -d1.
have sA : aorder A = 4%N := sz 0%N sL.
have fsA : fs_number A = ((adim A)%:Z)%:~R.
  rewrite /fs_number sA (big_nth 0) big_mkord -/(aorder A) sA.
  rewrite (eq_bigr (fun=> (adim A)%:R)).
    by rewrite sumr_const card_ord -mulr_natr mulfK ?pnatr_eq0 // natz.
  move=> g _; have := p2 g g (ltn_ord g) (ltn_ord g); rewrite /aget => ->; rewrite diag // scale1r.
  have -> : i2_mul g g = 0%N by case: g => -[|[|[|[|//]]]].
  by have := p1; rewrite /aget => ->; rewrite mxtrace1.
have sP : (0 < size [seq purify_irrep_value E (qC C atol) A | A <- L])%N by rewrite size_map.
have := h 0%N sP; suff -> : np_int E (fs_number (arr_nth [seq purify_irrep_value E (qC C atol) A0 | A0 <- L] 0)) = (adim A)%:Z.
  by rewrite -[1]/(1%:Z) lez_nat leqNgt d2.
apply: (round_near (no_int NO)); rewrite -fsA.
have [d [ms [ns [EA EB szz hh]]]] := nr.2 0%N sP; rewrite EA.
have EB' : A = Arr ns := EB.
have sq : (adim A ^ 2 <= 4)%N.
  by have := ci_squares ci; rewrite (bigD1 (Ordinal sL)) //= -/A => hs; rewrite -hs leq_addr.
rewrite EB' /aget /aorder /= in sA u sq; rewrite EB'.
have a0 := or_atol (no_oracles NO).
have a1 : qC C atol <= 100%:R^-1 by have := qC_le C A1; rewrite qC_inv.
apply: le_lt_trans (fs_near (isT : (0 < 4)%N) a0 _ sA u hh) _; first by rewrite szz.
apply: (@le_lt_trans _ _ (4%:R * (2%:R * 100%:R^-1 + 100%:R^-1))).
  apply: ler_pmul; rewrite ?ler0n ?ler_nat //.
    by apply: addr_ge0; [apply: mulr_ge0; rewrite ?ler0n|rewrite exprn_ge0].
  apply: ler_add; first by apply: ler_wpmul2l; rewrite ?ler0n.
  apply: le_trans a1; rewrite expr2 ler_pimulr //; apply: le_trans (qC_le C A1) _.
  by rewrite qC_inv invf_le1 ?ltr0n // ler1n.
rewrite -{2}[100%:R^-1]mul1r -mulrDl -(natrD _ 2 1) mulrA -natrM ltr_pdivr_mulr ?ltr0n //.
by rewrite mulrC ltr_pdivl_mulr ?ltr0n // -natrM ltr_nat.
Qed.
Print Assumptions C51_valid_little_group_refuted.

(* ---------- C44 ---------- *)
(** Purification, entry by entry: nothing moves by atol or more, special values stay, entries
    at distance atol or more from all special values stay, an entry closer than atol to one
    becomes one, and a second application changes nothing. *)
Definition purified (C : numClosedFieldType) (atol : C) (values : seq C) (A A' A'' : arr C) : Prop :=
  exists d (ms ms' : seq 'M[C]_d), [/\ A = Arr ms, A' = Arr ms', A'' = Arr ms', size ms' = size ms &
    forall g i j, (g < size ms)%N -> let x := nth 0 ms g i j in let y := nth 0 ms' g i j in
      [/\ y = x \/ `|y - x| < atol, x \in values -> y = x,
          (forall v, v \in values -> atol <= `|x - v|) -> y = x &
          (exists2 v, v \in values & `|x - v| < atol) -> y \in values]].
Lemma purifiedP (C : numClosedFieldType) (atol : C) values A :
  {in values &, forall u v, u != v -> atol <= `|u - v|} ->
  let f := amap (snap atol values) in purified atol values A (f A) (f (f A)).
Proof.
move=> sep f; case: A => d ms; exists d, ms, [seq map_mx (snap atol values) X | X <- ms].
split=> //; last 2 first.
- by rewrite size_map.
- move=> g i j hg x y; have -> : y = snap atol values x by rewrite /y (nth_map 0) // mxE.
  split; [|exact: snap_value|exact: snap_far|].
    by case: (snap_moves sep x) => [->|h]; [left|right; rewrite distrC].
  by move=> [v vv h]; have [w [h1 _ ->]] := snap_near sep vv h.
rewrite /f /amap /=; congr Arr; rewrite -map_comp; apply: eq_map => X /=.
by apply/matrixP => i j; rewrite !mxE snap_idem.
Qed.
Theorem C44_purify : forall (C : numClosedFieldType) (E : numpy C) (atol : C) A,
  exp_spec (np_exp E) -> atol <= 3%:R^-1 ->
  let u q p := np_exp E (Qmake q p) in
  purified atol [:: 0; 1; u 1%coqZ 6%positive; u 1%coqZ 4%positive; u 1%coqZ 3%positive; -1; u 2%coqZ 3%positive;
                    u 3%coqZ 4%positive; u 5%coqZ 6%positive] A
    (purify_irrep_value E atol A) (purify_irrep_value E atol (purify_irrep_value E atol A)).
Proof. by move=> C E atol A ce a3 u; apply: purifiedP; apply: special_sep. Qed.
Theorem C44_purify_real : forall (C : numClosedFieldType) (atol : C) A, atol <= 8%:R^-1 ->
  purified atol [:: 0; 1; 2%:R^-1; sqrtC 3%:R / 2%:R; - 2%:R^-1; - (sqrtC 3%:R / 2%:R); -1] A
    (purify_real_irrep_value atol A) (purify_real_irrep_value atol (purify_real_irrep_value atol A)).
Proof. by move=> C atol A a8; apply: purifiedP; apply: real_sep. Qed.
Print Assumptions C44_purify.
Print Assumptions C44_purify_real.
(** An entry that moves: 1/100 becomes 0 with atol = 1/10. *)
Example C44_moves (C : numClosedFieldType) (E : numpy C) : exp_spec (np_exp E) ->
  snap 10%:R^-1 (special_values E) 100%:R^-1 = 0.
Proof.
move=> ce; have a3 : 10%:R^-1 <= 3%:R^-1 :> C by rewrite lef_pinv ?posrE ?ltr0n // ler_nat.
have h : `|100%:R^-1 - 0 : C| < 10%:R^-1 by rewrite subr0 normfV normr_nat ltf_pinv ?posrE ?ltr0n // ltr_nat.
have z : 0 \in special_values E by rewrite inE eqxx.
have [w [wv hw ->]] := snap_near (special_sep ce a3) z h.
apply/eqP; case: (boolP (w == 0)) => // nz.
have h3 := special_sep ce (lexx 3%:R^-1) wv z nz.
have h4 : `|w - 0| < 10%:R^-1 + 10%:R^-1.
  apply: le_lt_trans (ler_dist_add 100%:R^-1 w 0) _.
  by rewrite distrC; apply: ltr_add hw h.
have := le_lt_trans h3 h4.
rewrite -mulr2n -(mulr_natl 10%:R^-1) -ltr_pdivr_mulr ?invr_gt0 ?ltr0n // invrK -(ltr_pmul2l (_ : 0 < 3%:R)) ?ltr0n //.
by rewrite mulrA mulfV ?pnatr_eq0 // mul1r -natrM ltr_nat.
Qed.

(* ---------- C45 ---------- *)
(** check_spacegroup_representation with exact comparison: True exactly when all products of
    rotations are present and the multiplication law holds for all pairs; [first i j] is the
    first position at which the product of the i-th and j-th rotation is listed. *)
Theorem C45_check_spacegroup_representation_iff : forall (C : numClosedFieldType) (E : numpy C) rots trans k (A : arr C)
    (z : nat -> nat -> C),
  size trans = size rots -> aorder A = size rots ->
  let n := size rots in
  let is_first i j m := [/\ (m < n)%N, List.nth m rots mid = mmul (List.nth i rots mid) (List.nth j rots mid) &
    forall m', (m' < m)%N -> List.nth m' rots mid <> mmul (List.nth i rots mid) (List.nth j rots mid)] in
  check_spacegroup_representation E (@exact C) rots trans k A z = Ret true <->
  forall i j, (i < n)%N -> (j < n)%N -> exists m, is_first i j m /\
    aget A i *m aget A j = (z i j * np_exp E (Qopp (vdot k (vsub (vadd (mvec (List.nth i rots mid) (List.nth j trans vzero))
        (List.nth i trans vzero)) (List.nth m trans vzero))))) *: aget A m.
Proof.
move=> C E rots trans k A z st sA n is_first.
have firstP i j m : index_or_raise (meqb (mmul (List.nth i rots mid) (List.nth j rots mid))) rots = Ret m <-> is_first i j m.
  rewrite index_or_raise_Ret; split=> [h|[h1 h2 h3]].
    have [[x [h1 /meqb_eq h2]] h3] := proj1 (find_index_Some _ _ _) h.
    split; first by apply/ssrnat.ltP; apply: find_index_lt h.
      by rewrite h2; exact: nth_error_nth h1.
    move=> m' /ssrnat.ltP hm' e; have hl := find_index_lt _ _ _ h.
    have: meqb (mmul (List.nth i rots mid) (List.nth j rots mid)) (List.nth m' rots mid) = false.
      by apply: (h3 m' _ hm'); apply: nth_error_nth'; lia.
    by rewrite e meqb_refl.
  apply: (proj2 (find_index_Some _ _ _)); split.
    exists (List.nth m rots mid); split; first by apply: nth_error_nth'; exact/ssrnat.ltP.
    by rewrite h2 meqb_refl.
  move=> m' y hm' hy; have e := nth_error_nth _ _ mid hy.
  by case E': meqb => //; case: (h3 m' (introT ssrnat.ltP hm')); rewrite e; symmetry; apply/meqb_eq.
rewrite /check_spacegroup_representation -[List.length trans]/(size trans) st sA -[List.length rots]/n -/n !minnn allM_true; split.
  move=> h i j hi hj; have := h (i, j); rewrite in_prod_iff !in_seq => hh.
  move: hh; rewrite /check_pair; case e: index_or_raise => [m|x] /=; last first.
    by move=> /(_ _) hh; have: Raise x = Ret true; [apply: hh; split; split; try exact/ssrnat.ltP; lia|].
  move=> hh; exists m; split; first exact/firstP.
  have: Ret (exact ((z i j * np_exp E (Qopp (vdot k (vsub (vadd (mvec (List.nth i rots mid) (List.nth j trans vzero))
        (List.nth i trans vzero)) (List.nth m trans vzero))))) *: aget A m) (aget A i *m aget A j)) = Ret true.
    by apply: hh; split; split; try exact/ssrnat.ltP; lia.
  by case=> /eqP ->.
move=> h [i j]; rewrite in_prod_iff !in_seq => -[[_ hi] [_ hj]].
have [||m [fm law]] := h i j; try by apply/ssrnat.ltP.
by rewrite /check_pair (proj2 (firstP i j m) fm) /= /exact law eqxx.
Qed.
Print Assumptions C45_check_spacegroup_representation_iff.

(* ---------- the hypotheses can be met ---------- *)
(** Over the algebraic numbers there are functions with the properties assumed of NumPy and
    spglib, here with spglib answering for P2_12_12_1. *)
Definition algCF : numClosedFieldType := Algebraics.Implementation.numClosedFieldType.
Definition ex_numpy : numpy algCF :=
  {| np_around := id; np_powinv := fun z m => m.-root z; np_nroot := fun z m => m.-root z; np_rnd := fun _ d => 1%:M;
     np_exp := @cexp_inst algCF; np_eigh := @ex_eigh algCF; np_qr := fun _ _ A => A; np_hrnd := @ex_hrnd algCF;
     np_key_le := fun _ _ => true; np_int := fun z => floorC ('Re z + 2%:R^-1); np_eig := fun n _ => ([::], 0);
     spglib_pointgroup := fun _ => ("222"%string, qid) |}.
Example ex_numpy_ok : numpy_ok ex_numpy (inject_Z Z0) (inject_Z Z0).
Proof.
split=> /=; rewrite ?qC0; [exact: C22_oracles_exist|exact: C25_numerics_exist|].
move=> z m; rewrite real_ltr_norml ?rpredB ?Creal_Re ?realz // => /andP [h1 h2]; apply: floorC_def; apply/andP; split.
  by move: h1; rewrite -(ltr_add2r m%:~R) subrK addrC => h1; rewrite -ler_subl_addr; apply: ltW.
have one : 1 = 2%:R^-1 + 2%:R^-1 :> algCF by rewrite -mulr2n -[_ *+ 2]mulr_natl mulfV // pnatr_eq0.
have -> : (m + 1)%:~R = m%:~R + (2%:R^-1 + 2%:R^-1) :> algCF by rewrite -one intrD.
by rewrite addrA; apply: ltr_le_add => //; rewrite -ltr_subl_addl.
Qed.
Definition p2_mul (i j : nat) : nat := 3 - tget ex_t (3 - i) (3 - j).
Example C27_hypotheses_met :
  [/\ lists_space_group p2_rots p2_trans, forall r, In r p2_rots -> fixes_kpoint p2_k r, multiplication p2_rots p2_mul 3,
      veq (List.nth 3 p2_trans vzero) vzero & method_ok ex_numpy p2_rots "Neto"] /\
  bloch_factor (np_exp ex_numpy) p2_rots p2_trans p2_k p2_mul 0 0 != 1.
Proof.
have [SG [FK _]] := p2_space_group; split.
  split=> //.
    by split=> //; [move=> [|[|[|[|//]]]] [|[|[|[|//]]]]|move=> [|[|[|[|//]]]] [|[|[|[|//]]]]].
  by left; split=> //; have [_ [h1 [h2 [s [std [h3 [h4 h5]]]]]]] := p2_setting; split=> //; exists s, std.
apply/eqP => /(ce_int (cexp_inst_spec algCF)) [z].
by rewrite /Qeq /= => hz; exfalso; lia.
Qed.
Print Assumptions ex_numpy_ok.
Print Assumptions C27_hypotheses_met.
