(** Property C69: the physically irreducible representations of the point groups
    (irreps.py:204-240, 562-624, core.py:218-260). *)
From Verif Require CorepBridge CorepCover AgreeTheory.
From Coq Require Import QArith ZArith List Lia String.
From mathcomp Require Import all_ssreflect all_algebra.
From mathcomp Require Import algC zify.
From Verif Require Import Py Mat3 MatQ GroupModel GroupSpec GroupProofs GroupProofs2 PointGroupModel PointGroupData RepSpec RepModel
  IndexRepSpec IndexGroup ChainModel SmallModel SmallSpec SmallTheory SmallExamples RealSpec RealTheory
  PairTheory RealOutcome RealSuccess CExpSpec RepTheory ClaimsChain ClaimsRandom ClaimsSmall ClaimsReal
  ClassSpec ClassTheory ClassCompute IndicatorSpec IndicatorTheory DimTheory DimList ClaimsDim AgreeSpec TextbookSpec PhysicalSpec PhysicalCompute
  ClaimsTextbook RobustTheory ClaimsRobust ClaimsIndicator.
Import Order.TTheory GRing.Theory Num.Theory.
Set Implicit Arguments.
Unset Strict Implicit.
Unset Printing Implicit Defensive.
Local Open Scope ring_scope.

(* ---------- C69 ---------- *)
(** When the draws are bounded by B, real mode fails only by an unlucky draw. *)
Theorem C69_real_outcome : forall (C : numClosedFieldType) (E : numpy C) rtol atol rots mul e (mu : nat -> nat -> C) method max_num B,
  numpy_ok E rtol atol -> Qle atol (Qmake 1 8) ->
  (forall (z : C) (k : nat), `|z - k%:R| < 2%:R^-1 -> np_around E z = k%:R) ->
  let n := size rots in let eps := qC C atol in
  (n * n)%:R * (2%:R * eps + eps ^+ 2) < 2%:R^-1 ->
  lists_group rots -> multiplication rots mul e -> ifactor_system n mul e mu ->
  (forall i j, (i < n)%N -> (j < n)%N -> mu i j \is Num.real) ->
  method_ok E rots method -> 0 <= B ->
  (forall trial d (a b : 'I_d), (trial < max_num)%N -> `|np_rnd E trial d a b| <= B) ->
  let f := enumerate_unitary_irreps E rots mu true method rtol atol max_num in
  [\/ f = CWarn /\ unlucky_samples n (np_rnd E) (eps + (n ^ 2)%:R * (B * (2%:R * eps + eps ^+ 2))) max_num,
      f = COk ([::], [::], false) /\ method = "random"%string |
      exists Rs vs, f = COk (Rs, vs, true)].
Proof.
move=> C E rtol atol rots mul e mu method max_num B NO A8 ar n eps small LG M fs mr mok B0 hB f.
have e0 : 0 <= eps := or_atol (no_oracles NO).
have w : eps <= eps + (n ^ 2)%:R * (B * (2%:R * eps + eps ^+ 2)).
  rewrite ler_addl; apply: mulr_ge0; rewrite ?ler0n //; apply: mulr_ge0 => //; apply: addr_ge0; last exact: exprn_ge0.
  by apply: mulr_ge0; rewrite ?ler0n.
case: (C32_real_mode max_num NO A8 ar small LG M fs mr mok) => [[h [_ u]]|h|[L [inds [L' [ps [h1 cl nr pm [ip h]]]]]]].
- by apply: Or31; split=> //; apply: CorepCover.unlucky_weaken u.
- exact: Or32.
case: h => [[fW _]|[Rs [vs [h _ _ _]]]]; last by apply: Or33; exists Rs, vs.
apply: Or31; split=> //; have [i [hi v1 miss]] := warn_cause h1 fW.
have A3 : Qle atol (Qmake 1 3) by apply: Qle_trans A8 _.
have small' : (size rots)%:R * (2%:R * eps + eps ^+ 2) < 2%:R^-1.
  have n0 : (0 < size rots)%N by apply: leq_ltn_trans (mt_e M).
  apply: le_lt_trans small; apply: ler_wpmul2r; last by rewrite ler_nat leq_pmulr.
  by apply: addr_ge0; [apply: mulr_ge0; rewrite ?ler0n|rewrite exprn_ge0].
have := C51_real_factor_system max_num NO A3 small' LG M fs mr mok; cbv zeta; rewrite h1.
case=> [[]//|[]//|[L1 [L1' [i1 [[<- <-] [o1 ci] nr1 si mean]]]]].
have [sL nk] := nr1; have hi' : (i < size L1')%N by rewrite -sL.
have rt := mean i hi; rewrite v1 in rt.
apply: (missed_real e0 (mult_group_law LG M) fs mr (o1 i hi') (ci_rep ci hi') (ci_unitary ci hi') (ci_irreducible ci hi') rt (nk i hi) _ hB miss).
by rewrite -(ci_squares ci) (bigD1 (Ordinal hi')) //= leq_addr.
Qed.
Print Assumptions C69_real_outcome.

(** The method "Neto" on a point group therefore returns. *)
Theorem C69_pointgroup_returns : forall (C : numClosedFieldType) (E : numpy C) rtol atol rots max_num B,
  numpy_ok E rtol atol -> Qle atol (Qmake 1 8) ->
  (forall (z : C) (k : nat), `|z - k%:R| < 2%:R^-1 -> np_around E z = k%:R) ->
  let n := size rots in let eps := qC C atol in
  (n * n)%:R * (2%:R * eps + eps ^+ 2) < 2%:R^-1 ->
  lists_group rots -> spglib_ok E rots -> 0 <= B ->
  (forall trial d (a b : 'I_d), (trial < max_num)%N -> `|np_rnd E trial d a b| <= B) ->
  ~ unlucky_samples n (np_rnd E) (eps + (n ^ 2)%:R * (B * (2%:R * eps + eps ^+ 2))) max_num ->
  exists Rs, get_crystallographic_pointgroup_irreps_from_symmetry E rots true "Neto" rtol atol max_num = COk (Rs, true).
Proof.
move=> C E rtol atol rots max_num B NO A8 ar n eps small LG sp B0 hB lucky; have [mul [e M]] := mult_exists LG.
have fs : ifactor_system (size rots) mul e (fun _ _ => 1 : C) by split=> *; rewrite ?normr1.
rewrite /get_crystallographic_pointgroup_irreps_from_symmetry.
have mok : method_ok E rots "Neto" by left.
by case: (C69_real_outcome NO A8 ar small LG M fs (fun _ _ _ _ => rpred1 _) mok B0 hB) => [[_ /lucky]|[]|[Rs [vs ->]]] //; exists Rs.
Qed.
Print Assumptions C69_pointgroup_returns.

(** No irrep of a point group has indicator -1, and those with indicator 0 are one-dimensional. *)
Theorem C69_indicators : forall (C : numClosedFieldType) (E : numpy C) rtol atol rots method max_num L inds,
  numpy_ok E rtol atol -> Qle atol (Qmake 1 3) ->
  (size rots)%:R * (2%:R * qC C atol + qC C atol ^+ 2) < 2%:R^-1 ->
  lists_group rots -> method_ok E rots method -> spglib_ok E rots ->
  enumerate_unitary_irreps E rots (fun _ _ => 1) false method rtol atol max_num = COk (L, inds, true) ->
  forall m, (m < size L)%N -> nth 0 inds m = 1 \/ nth 0 inds m = 0 /\ adim (arr_nth L m) = 1%N.
Proof.
move=> C E rtol atol rots method max_num L inds NO A3 small LG mok sp h; have [mul [e M]] := mult_exists LG.
have fs : ifactor_system (size rots) mul e (fun _ _ => 1 : C) by split=> *; rewrite ?normr1.
have G := mult_group_law LG M.
have [s [P sP]] : exists s P, spglib_pointgroup E rots = (s, P) by case: spglib_pointgroup => s P; exists s, P.
have sp' := sp; move: sp'; rewrite /spglib_ok sP => -[dP iP [settings [std [hs hstd pm]]]].
have [amb [ca ls sm _]] := point_physical LG M hs hstd dP iP pm.
have [si rule] := C68_sum_rule NO A3 small LG M fs (fun _ _ _ _ => rpred1 _) mok h.
have {}rule : \sum_(m < size L) nth 0 inds m * (adim (arr_nth L m))%:Z = (involutions (size rots) mul e)%:Z.
  apply/eqP; rewrite -(eqr_int C); apply/eqP; rewrite rmorph_sum /=.
  under eq_bigr do rewrite intrM; rewrite rule sumr_const -pmulrn; congr (_%:R).
  have iE : iota 0 (size rots) = index_iota 0 (size rots) by rewrite /index_iota subn0.
  by rewrite -sum1_card /involutions -sum1_count iE big_mkord; apply: eq_bigl => i.
have cnt := C68_self_conjugate NO A3 small LG M mok h ca.
have hp : get_crystallographic_pointgroup_irreps_from_symmetry E rots false method rtol atol max_num = COk (L, true).
  by rewrite /get_crystallographic_pointgroup_irreps_from_symmetry h.
have [ds hds pe] := C58_pointgroup NO A3 small LG M mok sp sP hp.
have dsE : ds = dims_of single_valued s.
  by move: hds; rewrite /dims_of; do 32 (case=> [[<- <-] //|]).
have [L' [i1 [vm d0]]] : exists (L' : seq (arr C)) (i1 : seq int), (forall m, (m < size L)%N -> fs_meaning (size rots) (aget (arr_nth L' m)) (nth 0 inds m)) /\
    forall m, (m < size L)%N -> (0 < adim (arr_nth L m))%N.
  have := C51_real_factor_system max_num NO A3 small LG M fs (fun _ _ _ _ => rpred1 _) mok; cbv zeta; rewrite h.
  case=> [[]//|[]//|[L1 [L1' [i1 [[<- <-] [_ ci] nr _ mi]]]]]; exists L1', i1; split=> // m hm.
  have [sL _] := nr; have [|_ ->] := near_dims (k := m) nr => //.
  by apply: (ci_irreducible ci _).1; rewrite -sL.
pose v (m : 'I_(size L)) := nth 0 inds m; pose d (m : 'I_(size L)) := (adim (arr_nth L m))%:Z.
pose t (m : 'I_(size L)) := d m - v m * d m - (eq_op (v m) 0)%:Z.
have v3 (m : 'I_(size L)) : [\/ v m = 1, v m = -1 | v m = 0].
  by case: (vm m (ltn_ord m)) => [[]|[]|[]] => hv _; [apply: Or31|apply: Or32|apply: Or33].
have t0 m : 0 <= t m.
  have := d0 m (ltn_ord m); rewrite /t /d; case: (v3 m) => ->; rewrite ?eqxx ?mul1r ?mulN1r ?mul0r /=; lia.
have sd : \sum_m d m = (\sum_(x <- ds) x)%N.
  rewrite -(perm_big _ pe) /= big_map (big_nth (@Arr C 0 [::])) big_mkord /d.
  by rewrite (big_morph Posz PoszD (id1 := 0%:Z)).
have sv : \sum_m ((eq_op (v m) 0)%:Z : int) = (size L)%:Z - (size amb)%:Z.
  have hc := count_predC (pred1 (0 : int)) inds; rewrite cnt si in hc.
  have -> : \sum_m ((eq_op (v m) 0)%:Z : int) = (count (pred1 (0 : int)) inds)%:Z; last by rewrite -hc PoszD addrK.
  rewrite -(big_morph Posz PoszD (id1 := 0%:Z) (id2 := 0%N)) // -sum1_count (big_nth 0) big_mkord si; congr Posz.
  by rewrite [RHS]big_mkcond; apply: eq_bigr => m _; rewrite /v /=; case: eqP.
have sL : size L = size (dims_of single_valued s) by rewrite -dsE -(perm_size pe) size_map.
have st : \sum_m t m = 0.
  rewrite /t sumrB sumrB sd sv rule dsE sm -sL; move: ls; rewrite -sL; lia.
have tz i : true -> t i = 0 by move: i; apply: psumr_eq0P => // i _.
move=> m hm; have := tz (Ordinal hm) isT.
have := d0 m hm; rewrite /t /d /v /=; case: (v3 (Ordinal hm)); rewrite /v /= => ->; rewrite ?eqxx ?mul1r ?mulN1r ?mul0r /=; [by left|lia|right; split=> //; lia].
Qed.
Print Assumptions C69_indicators.

Definition off_diag (p : nat * nat) : bool := ~~ eq_op p.1 p.2.
Lemma pair_dims (d : nat -> nat) (g : nat * nat -> nat) ps :
  (forall p, p \in ps -> g p = if eq_op p.1 p.2 then d p.1 else 2%N) ->
  (forall p, p \in ps -> off_diag p -> d p.1 = 1%N /\ d p.2 = 1%N) ->
  perm_eq (map g ps ++ nseq (2 * count off_diag ps) 1%N) (map d (members ps) ++ nseq (count off_diag ps) 2%N).
Proof.
move=> h1 h2; apply/seq.permP => a; rewrite !count_cat !count_nseq; elim: ps h1 h2 => [|[i j] ps IH] h1 h2; first by rewrite /= !muln0.
have {}IH := IH (fun p hp => h1 p (mem_behead (s := _ :: _) hp)) (fun p hp => h2 p (mem_behead (s := _ :: _) hp)).
have := h1 _ (mem_head _ _); have := h2 _ (mem_head _ _).
rewrite members_cons map_cat count_cat /= /off_diag /=; case: eqP => /= [_ _ ->|_ [//|e1 e2] ->].
  by rewrite -/off_diag !add0n addn0; move: IH; rewrite -/off_diag; set c := count off_diag ps; case: (a 1%N); case: (a 2%N) => /= IH; lia.
rewrite e1 e2 -/off_diag; move: IH; set c := count off_diag ps; case: (a 1%N); case: (a 2%N) => /= IH; lia.
Qed.

(** The dimensions are the tabulated ones of the irreps over the real numbers. *)
Theorem C69_physical_dimensions : forall (C : numClosedFieldType) (E : numpy C) rtol atol rots method max_num Rs s P,
  numpy_ok E rtol atol -> Qle atol (Qmake 1 8) ->
  (forall (z : C) (k : nat), `|z - k%:R| < 2%:R^-1 -> np_around E z = k%:R) ->
  (size rots * size rots)%:R * (2%:R * qC C atol + qC C atol ^+ 2) < 2%:R^-1 ->
  lists_group rots -> method_ok E rots method -> spglib_ok E rots -> spglib_pointgroup E rots = (s, P) ->
  get_crystallographic_pointgroup_irreps_from_symmetry E rots true method rtol atol max_num = COk (Rs, true) ->
  exists2 ds, List.In (s, ds) physical & perm_eq [seq adim A | A <- Rs] ds.
Proof.
move=> C E rtol atol rots method max_num Rs s P NO A8 ar small LG mok sp sP h; have [mul [e M]] := mult_exists LG.
have fs : ifactor_system (size rots) mul e (fun _ _ => 1 : C) by split=> *; rewrite ?normr1.
have G := mult_group_law LG M.
have n0 : (0 < size rots)%N by apply: leq_ltn_trans (mt_e M).
have A3 : Qle atol (Qmake 1 3) by apply: Qle_trans A8 _.
have small' : (size rots)%:R * (2%:R * qC C atol + qC C atol ^+ 2) < 2%:R^-1.
  have e0 := or_atol (no_oracles NO).
  apply: le_lt_trans small; apply: ler_wpmul2r; last by rewrite ler_nat leq_pmulr.
  by apply: addr_ge0; [apply: mulr_ge0; rewrite ?ler0n|rewrite exprn_ge0].
have sp' := sp; move: sp'; rewrite /spglib_ok sP => -[dP iP [settings [std [hs hstd pm]]]].
have [amb [ca ls sm tbl]] := point_physical LG M hs hstd dP iP pm.
have [reps [cr sr _ _]] := PointClasses.point_single LG M hs hstd dP iP pm.
have number := C68_physically_irreducible NO A8 ar small LG M mok h cr ca.
move: h; rewrite /get_crystallographic_pointgroup_irreps_from_symmetry.
case: (C32_real_mode max_num NO A8 ar small LG M fs (fun _ _ _ _ => rpred1 _) mok) => [[-> //]|[-> //]|].
move=> [L [inds [L' [ps [h1 [o' ci] nr pm' [ip [[-> //]|[Rs' [vs [-> sR sv info]]]]]]]]]] ; cbn [cbind fst snd] => -[eR]; subst Rs'.
have IN := C69_indicators NO A3 small' LG mok sp h1; have [sL _] := nr.
have hp : get_crystallographic_pointgroup_irreps_from_symmetry E rots false method rtol atol max_num = COk (L, true).
  by rewrite /get_crystallographic_pointgroup_irreps_from_symmetry h1.
have [ds hds pe] := C58_pointgroup NO A3 small' LG M mok sp sP hp.
have dsE : ds = dims_of single_valued s.
  by move: hds; rewrite /dims_of; do 32 (case=> [[<- <-] //|]).
pose d i := adim (arr_nth L i).
have dE i : (i < size L)%N -> d i = adim (arr_nth L' i) by move=> hi; have [_ h2] := near_dims nr hi; exact: h2.
have inP p : p \in ps -> (p.1 < size L)%N /\ (p.2 < size L)%N.
  by case: p => i j /(ip i j) [ij jL _]; split=> //; exact: leq_ltn_trans jL.
have diag p : p \in ps -> fs_meaning (size rots) (aget (arr_nth L' p.1)) (nth 0 inds p.1) -> eq_op p.1 p.2 = (nth 0 inds p.1 != 0).
  move=> hp' mean; have [hi hj] := inP p hp'; rewrite sL in hi hj.
  have ind := conj_indicator ci hi mean; apply/eqP/idP => [e12|nz].
    by apply/ind; have := hp'; rewrite [p]surjective_pairing -e12 => /(ip p.1 p.1) [].
  have {ind}sc := proj2 ind nz.
  have : p \in ps by []. rewrite {1}[p]surjective_pairing => /(ip p.1 p.2) [_ _ eq].
  have [e12|ne] := eqVneq p.1 p.2; first by [].
  case: (ci_inequivalent ci hi hj (elimN eqP ne)); exact: (AgreeTheory.iequivalent_trans (iequivalent_sym sc) eq).
have at_ k : (k < size ps)%N -> nth (0, 0)%N ps k \in ps by move=> hk; exact: mem_nth.
have mean p : p \in ps -> fs_meaning (size rots) (aget (arr_nth L' p.1)) (nth 0 inds p.1).
  move=> hp'; have hk : (index p ps < size ps)%N by rewrite index_mem.
  by have := info _ hk; rewrite nth_index //; cbv zeta => -[_ <-].
have dd p : p \in ps -> eq_op p.1 p.2 -> nth 0 inds p.1 = 1.
  move=> hp'; rewrite (diag p hp' (mean p hp')); have [hi _] := inP p hp'.
  by case: (IN _ hi) => [-> //|[-> _]].
have oo p : p \in ps -> off_diag p -> nth 0 inds p.1 = 0 /\ d p.1 = 1%N.
  move=> hp'; rewrite /off_diag (diag p hp' (mean p hp')) negbK => /eqP v0; split=> //.
  by have [hi _] := inP p hp'; case: (IN _ hi) => [v1|[]//]; rewrite v1 in v0.
pose g (p : nat * nat) := if eq_op p.1 p.2 then d p.1 else 2%N.
have rE : [seq adim A | A <- Rs] = map g ps.
  apply: (@eq_from_nth _ 0%N) => [|k]; rewrite !size_map // => hk; rewrite (nth_map (@Arr C 0 [::])) // (nth_map (0, 0)%N); last by rewrite -sR.
  rewrite sR in hk; have [_ vE _ [f1 f2]] := info k hk; rewrite -/(arr_nth Rs k) /g; case: ifP => [eq|/negbT ne].
    by rewrite (dd _ (at_ k hk) eq) in vE; have [] := f2 vE.
  have [v0 d1] := oo _ (at_ k hk) ne; rewrite v0 in vE; have ne1 : nth 0 vs k <> 1 by rewrite vE.
  have [d' [m1 [m2 [e1 e2 _ _]]]] := f1 ne1; rewrite e1 /=.
  by have := congr1 (@adim C) e2; rewrite /= => <-; move: d1; rewrite /d => ->.
have pd : perm_eq (map g ps ++ nseq (2 * count off_diag ps) 1%N) (map d (members ps) ++ nseq (count off_diag ps) 2%N).
  apply: pair_dims => // p hp' op; have [_ d1] := oo p hp' op; split=> //.
  have [hi hj] := inP p hp'; move: hp'; rewrite [p]surjective_pairing => /(ip p.1 p.2) [_ _ eq].
  by rewrite /= dE // -(AgreeTheory.iequivalent_dim eq) -dE.
have cE : perm_eq (map d (members ps)) ds.
  apply: perm_trans pe; rewrite -(mkseq_nth (@Arr C 0 [::]) L) -map_comp; exact: perm_map.
have sN : size (members ps) = size ds by rewrite -(perm_size cE) size_map.
have offE : (size ds - size amb = 2 * count off_diag ps)%N.
  have e1 := diag_count ps; rewrite sR in number; rewrite sr -dsE in number.
  have e2 : (size [seq p <- ps | eq_op p.1 p.2] + count off_diag ps = size ps)%N.
    by rewrite size_filter; exact: count_predC.
  move: e1 e2 number; rewrite sN; set x := size [seq p <- ps | _]; lia.
rewrite -dsE offE mul2n doubleK -mul2n in tbl.
apply: dims_of_In; last first.
  by rewrite size_map sR; case: (ps) pm' => //; rewrite /= => /perm_size; rewrite size_iota /= => /esym z; rewrite -(ci_squares ci) -sL z big_ord0 in n0.
rewrite rE -(perm_cat2r (nseq (2 * count off_diag ps) 1%N)); apply: (perm_trans pd).
rewrite perm_sym; apply: (perm_trans tbl); rewrite perm_cat2r perm_sym; exact: cE.
Qed.
Print Assumptions C69_physical_dimensions.

(** The group 23: both modes return.  Two of the four irreps have indicator 0, the indicators
    times the dimensions add up to 4 (the identity and three twofold rotations), and the
    physically irreducible representations have dimensions 1, 2, 3. *)
Definition real_tet_numpy : numpy algCF :=
  {| np_around := ex_around; np_powinv := np_powinv ex_numpy; np_nroot := np_nroot ex_numpy; np_rnd := @unit_draw algCF;
     np_exp := np_exp ex_numpy; np_eigh := np_eigh ex_numpy; np_qr := np_qr ex_numpy; np_hrnd := np_hrnd ex_numpy;
     np_key_le := np_key_le ex_numpy; np_int := np_int ex_numpy; np_eig := np_eig ex_numpy;
     spglib_pointgroup := fun _ => ("23"%string, qid) |}.
Lemma physical_In s ds : List.In (s, ds) physical -> ds = dims_of physical s.
Proof. by rewrite /dims_of; do 32 (case=> [[<- <-] //|]). Qed.
Example C68_C69_hypotheses_met : let E := real_tet_numpy in let q0 := inject_Z Z0 in
  [/\ numpy_ok E q0 q0, forall (z : algCF) (k : nat), `|z - k%:R| < 2%:R^-1 -> np_around E z = k%:R,
      lists_group tet_rots & spglib_ok E tet_rots] /\
  exists L inds Rs,
  [/\ enumerate_unitary_irreps E tet_rots (fun _ _ => 1) false "Neto" q0 q0 12 = COk (L, inds, true),
      \sum_(m < size L) nth 0 inds m * (adim (arr_nth L m))%:Z = 4,
      get_crystallographic_pointgroup_irreps_from_symmetry E tet_rots true "Neto" q0 q0 12 = COk (Rs, true) &
      perm_eq [seq adim A | A <- Rs] [:: 1; 2; 3]%N].
Proof.
move=> E q0; have [mul [e [[LG M sp _ _] _]]] := C55_three_attained.
have RO : rounds ex_around by have [] := C61_hypotheses_met.
have near_ (z : algCF) (k : nat) : `|z - k%:R| < 2%:R^-1 -> np_around E z = k%:R by exact: rounds_near.
have NO : numpy_ok E q0 q0.
  have ex_nat (m : nat) : ex_around m%:R = m%:R by apply: near_; rewrite subrr normr0 invr_gt0 ltr0n.
  have [[h1 h2 h3 h4 h5] [k1 k2 k3 k4] h] := ex_numpy_ok; by split.
have sp' : spglib_ok E tet_rots by exact: sp.
split=> //; have s12 : size tet_rots = 12%N by vm_compute.
have q00 : qC algCF q0 = 0 by exact: qC0.
have small : (size tet_rots)%:R * (2%:R * qC algCF q0 + qC algCF q0 ^+ 2) < 2%:R^-1.
  by rewrite q00 mulr0 expr0n addr0 mulr0 invr_gt0 ltr0n.
have small2 : (size tet_rots * size tet_rots)%:R * (2%:R * qC algCF q0 + qC algCF q0 ^+ 2) < 2%:R^-1.
  by rewrite q00 mulr0 expr0n addr0 mulr0 invr_gt0 ltr0n.
have lucky : ~ unlucky_samples (size tet_rots) (np_rnd E) 0 12 by rewrite s12; exact: unit_draw_lucky.
have mok : method_ok E tet_rots "Neto" by left.
have q3 : Qle q0 (Qmake 1 3) by []. have q8 : Qle q0 (Qmake 1 8) by [].
have fs : ifactor_system (size tet_rots) mul e (fun _ _ => 1 : algCF) by split=> *; rewrite ?normr1.
have [L [L' [inds [h _ _ _ _]]]] : exists L L' inds, [/\ enumerate_unitary_irreps E tet_rots (fun _ _ => 1) false "Neto" q0 q0 12 = COk (L, inds, true),
   complete_list tet_rots mul e (fun _ _ => 1) L', near_list (qC algCF q0) L L', size inds = size L & forall m, (m < size L)%N -> fs_meaning (size tet_rots) (aget (arr_nth L' m)) (nth 0 inds m)].
  case: (C51_real_factor_system 12 NO _ small LG M fs (fun _ _ _ _ => rpred1 _) mok) => // [[_ [_]]|[]//].
  by rewrite q00.
have [Rs hR] : exists Rs, get_crystallographic_pointgroup_irreps_from_symmetry E tet_rots true "Neto" q0 q0 12 = COk (Rs, true).
  have bnd : forall trial d (a b : 'I_d), (trial < 12)%N -> `|np_rnd E trial d a b| <= 1.
    by move=> tr d a b _; rewrite mxE; case: (eq_op _ _); rewrite ?normr1 ?normr0 //; exact: ler01.
  apply: (@C69_pointgroup_returns _ E q0 q0 tet_rots 12 1 NO q8 near_ small2 LG sp' ler01 bnd).
  by rewrite q00 mulr0 expr0n addr0 !mulr0 addr0.
have cnt : count (fun r => meqb (mmul r r) mid) tet_rots = 4%N by vm_compute.
exists L, inds, Rs; split; [exact: h|by rewrite (C68_involutions NO q3 small LG mok h) cnt|exact: hR|].
have [ds hds pe] := C69_physical_dimensions NO q8 near_ small2 LG mok sp' (s := "23"%string) (P := qid) erefl hR.
by rewrite (physical_In hds) in pe.
Qed.
Print Assumptions C68_C69_hypotheses_met.
