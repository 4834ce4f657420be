(** Property C68: counting with the Frobenius-Schur indicators, and the number of physically
    irreducible representations (irreps.py:144-240, core.py:218-260). *)
From Verif Require CorepBridge.
From Coq Require Import QArith ZArith List Lia String.
From mathcomp Require Import all_ssreflect all_algebra.
From mathcomp Require Import algC zify.
From Verif Require Import Py Mat3 MatQ GroupModel GroupSpec GroupProofs GroupProofs2 PointGroupModel PointGroupData RepSpec RepModel
  IndexRepSpec IndexGroup ChainModel SmallModel SmallSpec SmallTheory SmallExamples RealSpec RealTheory
  PairTheory RealOutcome CExpSpec RepTheory ClaimsChain ClaimsRandom ClaimsSmall ClaimsReal
  ClassSpec ClassTheory ClassCompute IndicatorSpec IndicatorTheory DimTheory ClaimsDim AgreeSpec.
Import Order.TTheory GRing.Theory Num.Theory.
Set Implicit Arguments.
Unset Strict Implicit.
Unset Printing Implicit Defensive.
Local Open Scope ring_scope.
Delimit Scope Z_scope with coqZ.

Lemma diag_count ps : (2 * size ps = size (members ps) + size [seq p <- ps | p.1 == p.2])%N.
Proof.
elim: ps => // -[i j] ps IH; rewrite members_cons size_cat /= mulnS IH; case: eqP => _ /=; lia.
Qed.
Lemma diag_uniq ps : uniq (members ps) -> uniq [seq p.1 | p <- ps & p.1 == p.2].
Proof.
elim: ps => // -[i j] ps IH; rewrite members_cons cat_uniq => /and3P [_ h /IH u] /=.
case: eqP h => //= ij /hasPn h; rewrite u andbT; apply/negP => /mapP [[a b]]; rewrite mem_filter => /andP [/= /eqP ab hp] ia.
have im : i \in members ps.
  apply/flattenP; eexists; first by apply/mapP; exists (a, b).
  by rewrite /= ab eqxx ia ab inE.
by have /negP := h i im; apply; rewrite /= inE.
Qed.

(* ---------- C68 ---------- *)
(** The sum of the indicators times the dimensions. *)
Theorem C68_sum_rule : forall (C : numClosedFieldType) (E : numpy C) rtol atol rots mul e (mu : nat -> nat -> C) method max_num L inds,
  numpy_ok E rtol atol -> Qle atol (Qmake 1 3) ->
  (size rots)%:R * (2%:R * qC C atol + qC C atol ^+ 2) < 2%:R^-1 ->
  lists_group rots -> multiplication rots mul e -> ifactor_system (size rots) mul e mu ->
  (forall i j, (i < size rots)%N -> (j < size rots)%N -> mu i j \is Num.real) ->
  method_ok E rots method ->
  enumerate_unitary_irreps E rots mu false method rtol atol max_num = COk (L, inds, true) ->
  size inds = size L /\
  \sum_(m < size L) (nth 0 inds m)%:~R * (adim (arr_nth L m))%:R = \sum_(i < size rots | mul i i == e) mu i i.
Proof.
move=> C E rtol atol rots mul e mu method max_num L inds NO A3 small LG M fs mr mok h.
have := C51_real_factor_system max_num NO A3 small LG M fs mr mok; cbv zeta; rewrite h; case=> [[]//|[]//|[L1 [L' [i1 [[<- <-] [_ ci] nr si mi]]]]].
split=> //; have [sL _] := nr; have G := mult_group_law LG M.
rewrite -(indicator_rule G fs mr ci (v := fun m => nth 0 inds m)); last by move=> k; rewrite -sL; exact: mi.
by rewrite sL; apply: eq_bigr => m _; have [|_ ->] := near_dims (k := m) nr; rewrite ?sL.
Qed.
Print Assumptions C68_sum_rule.

(** Point groups: the number of rotations whose square is the identity. *)
Theorem C68_involutions : forall (C : numClosedFieldType) (E : numpy C) rtol atol rots method max_num L inds,
  numpy_ok E rtol atol -> Qle atol (Qmake 1 3) ->
  (size rots)%:R * (2%:R * qC C atol + qC C atol ^+ 2) < 2%:R^-1 ->
  lists_group rots -> method_ok E rots method ->
  enumerate_unitary_irreps E rots (fun _ _ => 1) false method rtol atol max_num = COk (L, inds, true) ->
  \sum_(m < size L) nth 0 inds m * (adim (arr_nth L m))%:Z = (count (fun r => meqb (mmul r r) mid) rots)%:Z.
Proof.
move=> C E rtol atol rots method max_num L inds NO A3 small LG mok h; have [mul [e M]] := mult_exists LG.
have fs : ifactor_system (size rots) mul e (fun _ _ => 1 : C) by split=> *; rewrite ?normr1.
have [_ hs] := C68_sum_rule NO A3 small LG M fs (fun _ _ _ _ => rpred1 _) mok h.
apply/eqP; rewrite -(eqr_int C); apply/eqP; rewrite rmorph_sum /=.
under eq_bigr do rewrite intrM; rewrite hs sumr_const -pmulrn; congr (_%:R).
rewrite -sum1_card -sum1_count (big_nth mid) big_mkord; apply: eq_bigl => i.
rewrite -[in RHS]CorepBridge.nthE unfold_in.
have he := mt_e M; have hi := ltn_ord i; have mm := mt_mul M hi hi.
apply/eqP/idP => [ei|].
  by rewrite -mm ei (mt_id M); apply/meqbP.
move=> /meqbP ei; have nd := lg_nodup _ LG.
apply: (proj1 (List.NoDup_nth rots mid) nd); [by apply/ssrnat.ltP; exact: (mt_lt M)|by apply/ssrnat.ltP|].
by rewrite mm ei (mt_id M).
Qed.
Print Assumptions C68_involutions.

(** The irreps with indicator different from 0 are as many as the classes that contain the
    inverses of their elements. *)
Theorem C68_self_conjugate : forall (C : numClosedFieldType) (E : numpy C) rtol atol rots mul e method max_num L inds reps,
  numpy_ok E rtol atol -> Qle atol (Qmake 1 3) ->
  (size rots)%:R * (2%:R * qC C atol + qC C atol ^+ 2) < 2%:R^-1 ->
  lists_group rots -> multiplication rots mul e -> method_ok E rots method ->
  enumerate_unitary_irreps E rots (fun _ _ => 1) false method rtol atol max_num = COk (L, inds, true) ->
  class_representatives (size rots) mul (ambivalent (size rots) mul e) reps ->
  count (fun v => v != 0) inds = size reps.
Proof.
move=> C E rtol atol rots mul e method max_num L inds reps NO A3 small LG M mok h cr.
have fs : ifactor_system (size rots) mul e (fun _ _ => 1 : C) by split=> *; rewrite ?normr1.
have := C51_real_factor_system max_num NO A3 small LG M fs (fun _ _ _ _ => rpred1 _) mok; cbv zeta; rewrite h; case=> [[]//|[]//|[L1 [L' [i1 [[<- <-] [_ ci] nr si mi]]]]].
have [sL _] := nr; have G := mult_group_law LG M.
rewrite -(self_conjugate_count G ci (b := fun k => nth 0 inds k != 0)) //; last first.
  by move=> k kN; rewrite (conj_indicator ci kN (v := nth 0 inds k)) //; apply: mi; rewrite sL.
by rewrite -sum1_count (big_nth 0) big_mkord si sL big_mkcond; apply: eq_bigr => k _; case: ifP.
Qed.
Print Assumptions C68_self_conjugate.

(** Real mode: one representation for each class up to inversion, that is, twice the number is
    the number of classes plus the number of classes closed under inversion. *)
Theorem C68_physically_irreducible : forall (C : numClosedFieldType) (E : numpy C) rtol atol rots mul e method max_num Rs reps amb,
  numpy_ok E rtol atol -> Qle atol (Qmake 1 8) ->
  (forall (z : C) (k : nat), `|z - k%:R| < 2%:R^-1 -> np_around E z = k%:R) ->
  (size rots * size rots)%:R * (2%:R * qC C atol + qC C atol ^+ 2) < 2%:R^-1 ->
  lists_group rots -> multiplication rots mul e -> method_ok E rots method ->
  get_crystallographic_pointgroup_irreps_from_symmetry E rots true method rtol atol max_num = COk (Rs, true) ->
  class_representatives (size rots) mul (fun _ => True) reps ->
  class_representatives (size rots) mul (ambivalent (size rots) mul e) amb ->
  (2 * size Rs = size reps + size amb)%N.
Proof.
move=> C E rtol atol rots mul e method max_num Rs reps amb NO A8 ar small LG M mok h cr ca.
have fs : ifactor_system (size rots) mul e (fun _ _ => 1 : C) by split=> *; rewrite ?normr1.
move: h; rewrite /get_crystallographic_pointgroup_irreps_from_symmetry.
case: (C32_real_mode max_num NO A8 ar small LG M fs (fun _ _ _ _ => rpred1 _) mok) => [[-> //]|[-> //]|].
move=> [L [inds [L' [ps [_ [_ ci] nr pm [ip [[-> //]|[Rs' [vs [-> sR _ _]]]]]]]]]] /= [<-].
have [sL _] := nr; have G := mult_group_law LG M.
have -> : size reps = size L.
  rewrite sL; apply: (iclasses G fs ci); case: cr => h1 h2 h3; split=> //.
    by move=> i /h1 [].
  by move=> i hi _; exact: h3.
have up : uniq (members ps) by rewrite (perm_uniq pm) iota_uniq.
rewrite -(self_conjugate_count G ci (b := fun k => (k, k) \in ps)) //; last first.
  move=> k kN; split=> [/(ip k k) [_ _]|h]; first exact.
  by apply/(ip k k); rewrite leqnn sL.
rewrite sR diag_count (perm_size pm) size_iota; congr (_ + _)%N.
rewrite -(size_map fst) -[RHS](big_mkord xpredT (fun k => ((k, k) \in ps : nat))) /index_iota subn0.
rewrite -big_mkcond /= sum1_count -size_filter; apply: perm_size; apply: uniq_perm.
- exact: diag_uniq.
- by rewrite filter_uniq // iota_uniq.
move=> k; rewrite mem_filter mem_iota /= add0n; apply/mapP/andP => [[[a b]]|[kp _]].
  rewrite mem_filter => /andP [/= /eqP ab hp] ->; rewrite -ab in hp; split=> //.
  by have /(ip a a) [_ + _] := hp; rewrite sL.
by exists (k, k) => //; rewrite mem_filter eqxx.
Qed.
Print Assumptions C68_physically_irreducible.
