(** Property C66: number and dimensions of the small representations returned for space groups,
    in a primitive cell (core.py:134-215) and in a conventional cell (core.py:33-131). *)
From Coq Require Import QArith ZArith List String Lia Permutation Sorted.
From mathcomp Require Import all_ssreflect all_algebra all_fingroup algC.
From Verif Require ChainLoop CorepBridge.
From Verif Require Import Py Mat3 MatQ GroupSpec GroupModel GroupProofs PointGroupData PointGroupModel PointGroupProofs ChainSpec
  RepSpec RepTheory IndexRepSpec RepModel IndexGroup CExpSpec ChainModel RepProofs
  SmallModel SmallSpec SmallTheory SmallExamples SpaceGroupProofs GroupProofs2 TransformModel TransformSpec TransformProofs ClaimsChain ClaimsRandom ClaimsSmall DimTheory ClaimsDim AgreeSpec ClaimsAgree
  CentringModel CentringSpec CentringProofs CentringTheory ClaimsCentring ClassSpec ClassTheory ClaimsClass TextbookSpec DimList ClaimsTextbook.
Import Order.TTheory GRing.Theory Num.Theory.
Set Implicit Arguments.
Unset Strict Implicit.
Unset Printing Implicit Defensive.
Local Open Scope ring_scope.
Delimit Scope Z_scope with coqZ.

(** A successful call is a successful call of enumerate_small_representations on the operations
    that fix k. *)
Lemma returned_little (C : numClosedFieldType) (E : numpy C) rtol atol D rots trans k method max_num L lm :
  numpy_ok E rtol atol -> Qle (inject_Z Z0) atol -> Qle atol (Qmake 1 3) -> Qlt (Qmult (inject_Z (Zpos D)) atol) (inject_Z 1%coqZ) ->
  lists_space_group rots trans -> has_denominator D k ->
  get_spacegroup_irreps_from_primitive_symmetry E rots trans k false method rtol atol max_num = COk (L, lm, true) ->
  let lr := List.map (fun i => List.nth i rots mid) lm in let lt := List.map (fun i => List.nth i trans vzero) lm in
  [/\ StronglySorted Nat.lt lm, forall i, In i lm <-> (i < size rots)%N /\ fixes_kpoint k (List.nth i rots mid),
      lists_space_group lr lt &
      forall mul e, multiplication lr mul e -> method_ok E lr method -> returns_irreps E lr lt k mul e method rtol atol max_num L].
Proof.
move=> NO Ap A3 Da SG HD res lr lt; move: res; rewrite /get_spacegroup_irreps_from_primitive_symmetry.
case NP: (not_primitive atol rots trans) => //.
case EL: (get_little_group rots trans k atol) => [[lr0 lt0] lm0].
case EN: (enumerate_small_representations _ _ _ _ _ _ _ _ _) => [[[L0 inds] b]| | |] //= [e1 e2 e3].
have [SGl Hin] := little_is_space_group _ _ _ _ _ _ _ _ SG HD Ap Da EL.
have [Hs [Hm [Er Et]]] := little_group_spec _ _ _ _ _ _ _ (sg_len _ _ SG) EL.
rewrite e1 e3 in EN; rewrite e2 in Hs Hm Er Et; rewrite -/lr in Er; rewrite -/lt in Et.
rewrite Er Et in SGl EN; rewrite Er in Hin.
split=> //.
  move=> i; rewrite Hm; split=> -[/ssrnat.ltP hi hk]; split=> //.
    exact: (proj1 (keeps_kpoint_exact D atol k _ HD Ap Da) hk).
  exact: (proj2 (keeps_kpoint_exact D atol k _ HD Ap Da) hk).
move=> mul e M mok; split=> //.
- by move=> r /Hin [].
- have he : (e < List.length lm)%coq_nat by have /ssrnat.ltP := mt_e M; rewrite -[size _]/(List.length _) map_length.
  have := mt_id M; rewrite /lr /lt !nth_map_nth // => hid.
  have /Hm [hi _] := nth_In lm 0%N he.
  have a1 : Qlt atol (inject_Z 1%coqZ) by apply: Qle_lt_trans A3 _.
  exact: (primitive_zero SG a1 NP hi hid).
by exists inds.
Qed.

Lemma iota_strong a n : StronglySorted Nat.lt (iota a n).
Proof.
elim: n a => [|n IH] a /=; first by constructor.
constructor=> //; apply/Forall_forall => x /(ChainLoop.InP _ _); rewrite mem_iota => /andP [h _]; exact/ssrnat.ltP.
Qed.
Lemma map_nth_iota T (x0 : T) l n : n = List.length l -> List.map (fun i => List.nth i l x0) (iota 0 n) = l.
Proof.
move=> ->; elim: l => //= x l IH; congr (_ :: _); rewrite -[RHS]IH -[1%N]/(1 + 0)%N iotaDl -[LHS]/(map _ (map _ _)) -map_comp.
exact: eq_map.
Qed.

Lemma mtvec_zero r : veq (mtvec r vzero) vzero.
Proof. by rewrite /veq /mtvec /=; repeat split; ring. Qed.
Lemma fixing_zero rots lm : StronglySorted Nat.lt lm ->
  (forall i, In i lm <-> (i < size rots)%N /\ fixes_kpoint vzero (List.nth i rots mid)) -> lm = iota 0 (size rots).
Proof.
move=> h1 h2; have fixes0 r : fixes_kpoint vzero r.
  have q0 a : Qeq a (inject_Z Z0) -> qint (Qplus a (Qopp (inject_Z Z0))) by move=> h; exists Z0; rewrite h.
  by case: (mtvec_zero r) => a1 [a2 a3]; split; [exact: q0 | split; exact: q0].
apply: sorted_unique => //; first exact: iota_strong.
move=> i; rewrite h2; split=> [[hi _]|/(ChainLoop.InP _ _)]; first by apply/ChainLoop.InP; rewrite mem_iota.
rewrite mem_iota => /andP [_ hi]; split=> //; exact: fixes0.
Qed.

(* ---------- C66 ---------- *)
(** What is said of the list of representations L of the operations lr, lt at k. *)
Definition small_counts (C : numClosedFieldType) (E : numpy C) (lr : list mat) (lt : list vec) (k : vec) (L : seq (arr C)) : Prop :=
  [/\ (\sum_(A <- L) adim A ^ 2)%N = size lr,
      spglib_ok E lr -> forall A, List.In A L -> List.In (adim A) [:: 1; 2; 3; 4; 6]%N,
      forall mul e reps, multiplication lr mul e -> class_representatives (size lr) mul (kpoint_regular lr lt k mul) reps ->
        size L = size reps &
      forall s P, spglib_ok E lr -> spglib_pointgroup E lr = (s, P) ->
        (forall r, List.In r lr -> veq (mtvec r k) k) \/ (forall w, List.In w lt -> veq w vzero) ->
        exists2 ds, List.In (s, ds) single_valued & perm_eq [seq adim A | A <- L] ds].
Lemma counts_of_returned (C : numClosedFieldType) (E : numpy C) lr lt k method rtol atol max_num L :
  lists_space_group lr lt ->
  (forall mul e, multiplication lr mul e -> returns_irreps E lr lt k mul e method rtol atol max_num L) -> small_counts E lr lt k L.
Proof.
move=> SG ret; have [mul [e M]] := mult_exists (sg_rots _ _ SG); have r := ret mul e M; split.
- have [L' cl nr] := returned_complete r; have [_ sq _ _] := dims_list nr cl.
  by move: sq; rewrite /sumsq big_map.
- move=> sp A /(In_nth_lt _ _ (@Arr C 0 [::])) [j [/ssrnat.ltP hj <-]].
  have [NO A3 SG' FK M' W0 mok [inds res]] := r.
  have := C55_small_representations NO A3 SG' FK M' W0 mok sp res hj; by rewrite /arr_nth CorepBridge.nthE.
- by move=> mul' e' reps M'; have [h _] := C57_small_representations (ret mul' e' M'); exact: h.
move=> s P sp sP [fk|w0]; first exact: (C58_interior r sp sP fk).
apply: (C58_symmorphic r sp sP) => i; case: (Nat.lt_ge_cases i (List.length lt)) => hi.
  by apply: w0; exact: List.nth_In.
by rewrite List.nth_overflow.
Qed.
Theorem C66_primitive_cell : forall (C : numClosedFieldType) (E : numpy C) rtol atol D rots trans k method max_num L lm,
  numpy_ok E rtol atol -> Qle (inject_Z Z0) atol -> Qle atol (Qmake 1 3) -> Qlt (Qmult (inject_Z (Zpos D)) atol) (inject_Z 1%coqZ) ->
  lists_space_group rots trans -> has_denominator D k ->
  get_spacegroup_irreps_from_primitive_symmetry E rots trans k false method rtol atol max_num = COk (L, lm, true) ->
  let lr := List.map (fun i => List.nth i rots mid) lm in let lt := List.map (fun i => List.nth i trans vzero) lm in
  method_ok E lr method ->
  (forall i, In i lm <-> (i < size rots)%N /\ fixes_kpoint k (List.nth i rots mid)) /\ StronglySorted Nat.lt lm /\
  small_counts E lr lt k L.
Proof.
move=> C E rtol atol D rots trans k method max_num L lm NO Ap A3 Da SG HD res lr lt mok.
have [h1 h2 h3 h4] := returned_little NO Ap A3 Da SG HD res; split=> //; split=> //.
by apply: (counts_of_returned h3) => mul e M; exact: h4.
Qed.
Print Assumptions C66_primitive_cell.

(** At k = 0 the dimensions are those of the point group of the crystal. *)
Theorem C66_zone_centre : forall (C : numClosedFieldType) (E : numpy C) rtol atol rots trans method max_num L lm s P,
  numpy_ok E rtol atol -> Qle (inject_Z Z0) atol -> Qle atol (Qmake 1 3) ->
  lists_space_group rots trans -> method_ok E rots method -> spglib_ok E rots -> spglib_pointgroup E rots = (s, P) ->
  get_spacegroup_irreps_from_primitive_symmetry E rots trans vzero false method rtol atol max_num = COk (L, lm, true) ->
  lm = iota 0 (size rots) /\ exists2 ds, List.In (s, ds) single_valued & perm_eq [seq adim A | A <- L] ds.
Proof.
move=> C E rtol atol rots trans method max_num L lm s P NO Ap A3 SG mok sp sP res.
have HD : has_denominator 1 vzero by repeat split; exists Z0.
have Da : Qlt (Qmult (inject_Z 1%coqZ) atol) (inject_Z 1%coqZ) by rewrite Qmult_1_l; apply: Qle_lt_trans A3 _.
have [h1 h2 h3 h4] := returned_little NO Ap A3 Da SG HD res.
have lE := fixing_zero h1 h2; split=> //.
have rE : List.map (fun i => List.nth i rots mid) lm = rots by rewrite lE; exact: map_nth_iota.
have tE : List.map (fun i => List.nth i trans vzero) lm = trans by rewrite lE; apply: map_nth_iota; rewrite (sg_len _ _ SG).
rewrite rE tE in h3 h4.
have [_ _ _ tb] := counts_of_returned h3 (fun mul e M => h4 mul e M mok).
apply: (tb s P sp sP); left => r _; exact: mtvec_zero.
Qed.
Print Assumptions C66_zone_centre.

(** In the conventional cell. *)
Theorem C66_conventional_cell : forall (C : numClosedFieldType) (E : numpy C) rtol atol D choice hall_symbol hall_number P
    rots trans k method max_num L lm,
  numpy_ok E rtol atol -> Qle (inject_Z Z0) atol -> Qle atol (Qmake 1 3) -> Qlt (Qmult (inject_Z (Zpos D)) atol) (inject_Z 1%coqZ) ->
  get_primitive_transformation_matrix choice hall_symbol hall_number = Ret P ->
  let pr := List.map (transform_rotation P) rots in
  let pt := List.map (transform_translation P) trans in
  let pk := transform_kpoint P k in
  centred_space_group pr pt -> has_denominator D pk ->
  get_spacegroup_irreps E choice hall_symbol hall_number rots trans k method rtol atol max_num = COk (L, lm, true) ->
  exists lr lt, [/\ lists_space_group lr lt, representatives pr pt lr lt, forall r, In r lr <-> In r pr /\ fixes_kpoint pk r &
    method_ok E lr method -> small_counts E lr lt pk L].
Proof.
move=> C E rtol atol D choice hs hn P rots trans k method max_num L lm NO Ap A3 Da HP pr pt pk CS HD.
rewrite /get_spacegroup_irreps HP /= -/pr -/pt -/pk.
case HU: (unique_primitive_symmetry pr pt) => [[R T] M].
case EN: (get_spacegroup_irreps_from_primitive_symmetry _ _ _ _ _ _ _ _ _) => [[[L0 lp] b]| | |] //= [e1 e2 e3]; rewrite {}e3 in EN.
have len : List.length pt = List.length pr := cs_len CS.
have SG := unique_space_group pr pt len (cs_id CS) (cs_mul CS) (cs_inv CS) (clo' CS) R T M HU.
have [Hs Hm SGl ret] := returned_little NO Ap A3 Da SG HD EN.
set lr := List.map _ lp in SGl ret; set lt := List.map _ lp in SGl ret.
have [_ [_ [_ [_ [Hin _]]]]] := unique_spec pr pt R T M len HU.
exists lr, lt; split=> //.
- move=> i; rewrite -[size lr]/(List.length lr) /lr map_length => /ssrnat.ltP hi.
  have hl : In (List.nth i lp 0%N) lp by apply: nth_In.
  have [hR _] := proj1 (Hm _) hl; have [x [hx [ex vx]]] := unique_representative _ _ _ _ _ len HU _ (elimT ssrnat.ltP hR).
  exists x; split; [exact/ssrnat.ltP| |].
  - by rewrite ex (nth_map_in _ _ _ 0%N).
  - by rewrite /lt (nth_map_in _ _ _ 0%N).
- move=> r; rewrite /lr in_map_iff -Hin; split=> [[x [<- /Hm [hx fx]]]|[hr fx]].
    by split=> //; apply: nth_In; apply/ssrnat.ltP.
  have [x [hx ex]] := In_nth_lt _ _ mid hr; exists x; split=> //; apply/Hm; rewrite ex; split=> //; exact/ssrnat.ltP.
move=> mok; have [h1 h2 h3 h4] := counts_of_returned SGl (fun mul e M0 => ret mul e M0 mok).
have dE : [seq adim A | A <- L] = [seq adim A | A <- L0] by rewrite -e1 -map_comp; apply: eq_map.
have sE : size L = size L0 by rewrite -(size_map (@adim C) L) dE size_map.
split.
- by rewrite -h1 -[RHS](big_map (@adim C) xpredT (fun d => d ^ 2)%N) -dE big_map.
- move=> sp A; rewrite -e1 => /in_map_iff [A0 [<- hA]]; exact: (h2 sp A0 hA).
- by move=> mul e reps; rewrite sE; exact: h3.
by move=> s Q; rewrite dE; exact: h4.
Qed.
Print Assumptions C66_conventional_cell.

(** P23 at the zone centre: the call returns, and the dimensions are 1, 1, 1, 3. *)
Example C66_hypotheses_met : exists L,
  [/\ numpy_ok tet_numpy (inject_Z Z0) (inject_Z Z0), lists_space_group tet_rots (List.repeat vzero 12),
      method_ok tet_numpy tet_rots "Neto" /\ spglib_ok tet_numpy tet_rots,
      get_spacegroup_irreps_from_primitive_symmetry tet_numpy tet_rots (List.repeat vzero 12) vzero false "Neto"
        (inject_Z Z0) (inject_Z Z0) 12 = COk (L, iota 0 12, true) &
      perm_eq [seq adim A | A <- L] [:: 1; 1; 1; 3]%N].
Proof.
have [mul [e [L [r sp sP pe]]]] := C58_hypotheses_met; exists L.
have [NO _ SG _ M _ mok [inds res]] := r; split=> //.
rewrite /get_spacegroup_irreps_from_primitive_symmetry.
have -> : not_primitive (inject_Z Z0) tet_rots (List.repeat vzero 12) = false by vm_compute.
have -> : get_little_group tet_rots (List.repeat vzero 12) vzero (inject_Z Z0) = (tet_rots, List.repeat vzero 12, iota 0 12) by vm_compute.
by rewrite res.
Qed.
Print Assumptions C66_hypotheses_met.
