(** Property C67: number and dimensions of the spinor small representations returned for space
    groups without time reversal (core.py:268-460, 463-595). *)
From Coq Require Import QArith ZArith List String Lia Permutation Sorted.
From mathcomp Require Import all_ssreflect all_algebra all_fingroup algC.
From Verif Require ChainLoop CorepBridge.
From Verif Require Import Py Mat3 MatQ GroupSpec GroupModel GroupProofs PointGroupData PointGroupModel PointGroupProofs ChainSpec
  RepSpec RepTheory IndexRepSpec RepModel IndexGroup CExpSpec ExpInstance ChainModel RepProofs GaugeTheory PurifyTheory
  SmallModel SmallSpec SmallTheory SmallExamples SpaceGroupProofs GroupProofs2 TransformModel TransformSpec TransformProofs
  ClaimsChain ClaimsRandom ClaimsSmall DimTheory PointDims ClaimsDim AgreeSpec ClaimsAgree
  SpinorModel SpinorSpec SpinorTheory SpinorProofs SpinorSmall SpinorExamples SpinorConv CentringModel CentringSpec CentringProofs CentringTheory ClaimsCentring ClaimsSpinor
  ClassSpec ClassTheory ClaimsClass TextbookSpec DimList ClassCompute PointClasses SpinRegular ClaimsTextbook ClaimsApi
  CorepModel CorepSpec ClaimsCorep ClaimsCorep3.
Import Order.TTheory GRing.Theory Num.Theory.
Set Implicit Arguments.
Unset Strict Implicit.
Unset Printing Implicit Defensive.
Local Open Scope ring_scope.
Delimit Scope Z_scope with coqZ.

(** The dimensions of a full list of irreps with the spin factor system. *)
Lemma spinor_dims_list (C : numClosedFieldType) (E : numpy C) (L : 'M[C]_3) rots mul e S zeta z s P N dim (D : forall k, nat -> 'M[C]_(dim k)) xs :
  lattice_ok L -> (forall r, List.In r rots -> preserves_metric L r) -> spin_system L rots S zeta ->
  (forall i j, (i < size rots)%N -> (j < size rots)%N -> z i j = zeta (List.nth i rots mid) (List.nth j rots mid)) ->
  lists_group rots -> multiplication rots mul e -> spglib_ok E rots -> spglib_pointgroup E rots = (s, P) ->
  complete_irreps (size rots) mul e z N D -> size xs = N -> sumsq xs = size rots -> (0 < size xs)%N ->
  (forall d, d \in xs -> exists2 k, (k < N)%N & d = dim k) -> exists2 ds, List.In (s, ds) double_valued & perm_eq xs ds.
Proof.
move=> LO PM ss zE LG M sp sP ci e1 e2 e3 e4.
have sp' := sp; move: sp'; rewrite /spglib_ok sP => -[dP iP [settings [std [hs hstd pm]]]].
have [reps [cr sr hd u]] := point_double LG M hs hstd dP iP pm.
have Gl := mult_group_law LG M; have fs := complete_fs Gl ci.
have inr x : (x < size rots)%N -> List.In (List.nth x rots mid) rots by exact: nth_ltE.
have com x i : (x < size rots)%N -> (i < size rots)%N -> mul x i = mul i x -> mmul (List.nth x rots mid) (List.nth i rots mid) = mmul (List.nth i rots mid) (List.nth x rots mid).
  by move=> hx hi c; rewrite -(mt_mul M hx hi) -(mt_mul M hi hx) c.
have rg i : (i < size rots)%N -> spin_regular rots mul i <-> mu_regular (size rots) mul z i.
  move=> hi; split=> r x hx c.
    by rewrite !zE //; apply/(spin_commute LO PM ss LG (inr _ hx) (inr _ hi) (com _ _ hx hi c)); exact: r.
  by apply/(spin_commute LO PM ss LG (inr _ hx) (inr _ hi) (com _ _ hx hi c)); rewrite -!zE //; exact: r.
have sN : size xs = size (dims_of double_valued s).
  rewrite e1 -sr; apply: esym; apply: (iclasses Gl fs ci); case: cr => h1 h2 h3; split=> //.
    by move=> i /h1 [hi /(rg i hi)].
  by move=> i hi /(rg i hi); exact: h3.
have sub4 : {subset xs <= [:: 1; 2; 3; 4]%N}.
  move=> d /e4 [k kl ->].
  suff : List.In (dim k) [:: 1; 2; 3; 4]%N by move=> [<-|[<-|[<-|[<-|[]]]]]; rewrite !inE.
  have fs' := rep_fs Gl (proj1 (ci_irreducible ci kl)) (ci_rep ci kl) (ci_unitary ci kl).
  apply: (point_inversion_dims LG M sp fs' _ (ci_rep ci kl) (ci_irreducible ci kl)) => i j hi hj ei.
  rewrite !zE // ei; have hI : List.In (mneg mid) rots by rewrite -ei; exact: inr.
  exact: (ClaimsDim.spin_inversion LO ss hI (inr j hj) (lg_mul _ LG _ _ hI (inr j hj))).
apply: dims_of_In => //.
case: u => [u|[u [x [i [hx hi c tp]]]]].
  by apply: (unique_tuple_sound (al := [:: 1; 2; 3; 4]%N) (N := size (dims_of double_valued s)) (n := size rots)).
apply: (unique_tuple_sound (al := [:: 2; 4]%N) (N := size (dims_of double_valued s)) (n := size rots)) => //.
  by move=> y; rewrite !inE => /orP [] ->; rewrite ?orbT.
move=> d hd'; have ev : ~~ odd d.
  have [k kl ->] := e4 d hd'; have [_ mm] := ci_rep ci kl.
  have ne : z x i <> z i x.
    by rewrite !zE // => /(spin_commute LO PM ss LG (inr _ hx) (inr _ hi) (com _ _ hx hi c)).
  have zn : z x i = - z i x.
    move: ne; rewrite !zE //; case: (ss_sign ss (inr _ hx) (inr _ hi)) (ss_sign ss (inr _ hi) (inr _ hx)) => -> [] -> //; by rewrite opprK.
  have e5 : D k x *m D k i = - (D k i *m D k x) by rewrite !mm // zn c scaleNr.
  have det0 y : (y < size rots)%N -> \det (D k y) != 0.
    move=> hy; have := congr1 determinant (ci_unitary ci kl hy); rewrite det_mulmx det1 => h1.
    by apply/eqP => h0; move: h1; rewrite h0 mul0r => /eqP; rewrite eq_sym oner_eq0.
  have := congr1 determinant e5; rewrite -scaleN1r detZ !det_mulmx [\det (D k i) * _]mulrC -[LHS]mul1r.
  move/(mulIf (mulf_neq0 (det0 x hx) (det0 i hi))) => h1; apply/negP => od.
  by move: h1; rewrite -signr_odd od expr1 => /eqP; rewrite -subr_eq0 opprK -(natrD _ 1 1) pnatr_eq0.
have := sub4 d hd'; rewrite !inE => /orP [|/orP [|/orP []]] /eqP dE; by rewrite dE in ev *.
Qed.

(* ---------- C67 ---------- *)
(** What is said of the list X of representations of the operations lr, lt at k, returned with
    the signs z. *)
Definition spinor_counts (C : numClosedFieldType) (E : numpy C) (lr : list mat) (lt : list vec) (k : vec) (z : nat -> nat -> C) (X : seq (arr C)) : Prop :=
  [/\ (\sum_(A <- X) adim A ^ 2)%N = size lr,
      spglib_ok E lr -> forall A, List.In A X -> List.In (adim A) [:: 1; 2; 3; 4; 6]%N,
      forall mul e reps, multiplication lr mul e ->
        class_representatives (size lr) mul (mu_regular (size lr) mul (fun i j => z i j * bloch_factor (np_exp E) lr lt k mul i j)) reps ->
        size X = size reps &
      forall s P, spglib_ok E lr -> spglib_pointgroup E lr = (s, P) ->
        (forall r, List.In r lr -> veq (mtvec r k) k) \/ (forall w, List.In w lt -> veq w vzero) ->
        exists2 ds, List.In (s, ds) double_valued & perm_eq [seq adim A | A <- X] ds].

Lemma spinor_counts_of (C : numClosedFieldType) (E : numpy C) (L : 'M[C]_3) lr lt k S zeta z eps X :
  exp_spec (np_exp E) -> lattice_ok L -> (forall r, List.In r lr -> preserves_metric L r) -> spin_system L lr S zeta ->
  (forall i j, (i < size lr)%N -> (j < size lr)%N -> z i j = zeta (List.nth i lr mid) (List.nth j lr mid)) ->
  lists_space_group lr lt -> (forall e mul, multiplication lr mul e -> veq (List.nth e lt vzero) vzero) ->
  (forall mul e, multiplication lr mul e -> exists2 X', near_list eps X X' &
     complete_list lr mul e (fun i j => z i j * bloch_factor (np_exp E) lr lt k mul i j) X') ->
  spinor_counts E lr lt k z X.
Proof.
move=> ce LO PM ss zE SG W0 ret; have LG := sg_rots _ _ SG; have [mul [e M]] := mult_exists LG; have [X' nr cl] := ret mul e M.
have ci := proj2 cl; have Gl := mult_group_law LG M; have [e1 e2 e3 e4] := dims_list nr cl.
have n0 : (0 < size lr)%N by exact: (leq_ltn_trans _ (mt_e M)).
split.
- by move: e2; rewrite /sumsq big_map.
- move=> sp A hA; have [kk kl ->] : exists2 kk, (kk < size X')%N & adim A = adim (arr_nth X' kk).
    by apply: e4; apply/CorepBridge.In_mem; exact: (List.in_map (@adim C)).
  have fs := rep_fs Gl (proj1 (ci_irreducible ci kl)) (ci_rep ci kl) (ci_unitary ci kl).
  exact: (point_any_dims LG M sp fs (ci_rep ci kl) (ci_irreducible ci kl)).
- move=> mul' e' reps M' cr; have [Y nr' [_ ci']] := ret mul' e' M'; have G' := mult_group_law LG M'.
  by have [-> _] := nr'; rewrite -(iclasses G' (complete_fs G' ci') ci' cr).
move=> s P sp sP hk.
have [g hg] : exists g : nat -> Q, forall i j, (i < size lr)%N -> (j < size lr)%N -> exists z : Z,
     Qeq (Qminus (Qplus (g i) (g j)) (Qplus (g (mul i j)) (vdot k (lattice_shift lr lt mul i j)))) (inject_Z z).
  case: hk => [fk|w0].
    exists (fun i => vdot k (List.nth i lt vzero)) => i j hi hj; exists Z0.
    have [f1 [f2 f3]] := fk _ (nth_ltE hi).
    rewrite /lattice_shift; move: f1 f2 f3; move: (List.nth i lr mid) (List.nth i lt vzero) (List.nth j lt vzero) (List.nth (mul i j) lt vzero) => R u v w.
    rewrite /vdot; cbn -[Qmult Qplus Qminus inject_Z] => f1 f2 f3.
    set l := Qminus _ _.
    have -> : Qeq l (vdot (vsub k (mtvec R k)) v) by rewrite /l /vdot; cbn -[Qmult Qplus Qminus inject_Z]; ring.
    by rewrite /vdot; cbn -[Qmult Qplus Qminus inject_Z]; rewrite f1 f2 f3; ring.
  have W i : veq (List.nth i lt vzero) vzero.
    case: (Nat.lt_ge_cases i (List.length lt)) => hi; first by apply: w0; exact: List.nth_In.
    by rewrite List.nth_overflow.
  exists (fun _ => inject_Z Z0) => i j _ _; exists Z0.
  rewrite /lattice_shift /vdot; have [a1 [a2 a3]] := W i; have [b1 [b2 b3]] := W j; have [c1 [c2 c3]] := W (mul i j).
  by cbn -[Qmult Qplus Qminus inject_Z List.nth] in *; rewrite a1 a2 a3 b1 b2 b3 c1 c2 c3; ring.
pose c i := np_exp E (g i).
have ee : mul e e = e by exact: (gl_1l _ _ _ Gl _ (gl_e _ _ _ Gl)).
have c1 : c e = 1.
  rewrite -(cexp0 ce); apply: (cexp_diff ce); have [y hy] := hg e e (mt_e M) (mt_e M); exists y; rewrite -hy ee.
  have -> : Qeq (vdot k (lattice_shift lr lt mul e e)) (inject_Z Z0); last by ring.
  have := W0 e mul M; rewrite /lattice_shift ee (mt_id M); move: (List.nth e _ _) => [a b c'] [h1 [h2 h3]].
  by rewrite /vdot; cbn -[Qmult Qplus Qminus inject_Z] in *; rewrite h1 h2 h3; ring.
have nuE i j : (i < size lr)%N -> (j < size lr)%N -> z i j * c (mul i j) = c i * c j * (z i j * bloch_factor (np_exp E) lr lt k mul i j).
  move=> hi hj; rewrite [RHS]mulrCA; congr (_ * _); rewrite /c /bloch_factor -!(ce_add ce); apply: (cexp_diff ce).
  have [y hy] := hg i j hi hj; exists (Z.opp y); rewrite inject_Z_opp -hy; ring.
have ci' := gauge_complete (mt_lt M) c1 (fun i _ => ce_norm ce _) nuE ci.
by apply: (spinor_dims_list LO PM ss zE LG M sp sP ci') => //; rewrite size_map; exact: e3.
Qed.

Lemma spinor_returned (C : numClosedFieldType) (E : numpy C) (G : trig C) rtol atol D L rots trans k method max_num X z U lm :
  numpy_ok E rtol atol -> eig_ok E -> trig_ok G -> lattice_ok L ->
  Qle (inject_Z Z0) atol -> Qle atol (Qmake 1 3) -> Qlt (Qmult (inject_Z (Zpos D)) atol) (inject_Z 1%coqZ) ->
  lists_space_group rots trans -> has_denominator D k -> (forall r, In r rots -> preserves_metric L r) ->
  get_spacegroup_spinor_irreps_from_primitive_symmetry E G L rots trans k method rtol atol max_num = COk (X, z, U, lm, true) ->
  let lr := List.map (fun i => List.nth i rots mid) lm in let lt := List.map (fun i => List.nth i trans vzero) lm in
  [/\ StronglySorted Nat.lt lm, forall i, In i lm <-> (i < size rots)%N /\ fixes_kpoint k (List.nth i rots mid),
      lists_space_group lr lt &
      method_ok E lr method -> spinor_counts E lr lt k z X].
Proof.
move=> NO EO GO LO Ap A3 Da SG HD PM res lr lt.
have NP : not_primitive atol rots trans = false.
  by move: res; rewrite /get_spacegroup_spinor_irreps_from_primitive_symmetry; case: not_primitive.
have a1 : Qlt atol (inject_Z 1%coqZ) by apply: Qle_lt_trans A3 _.
have W0 i : (i < size rots)%N -> List.nth i rots mid = mid -> veq (List.nth i trans vzero) vzero.
  by move=> /ssrnat.ltP hi hid; exact: (primitive_zero SG a1 NP hi hid).
have [lm' [Hs [Hm [[mul [e M]] [S [zeta [z' [ss [zE out]]]]]]]]] := C35_spinor_irreps method max_num NO EO GO LO Ap A3 Da SG HD PM W0.
case EL: (get_little_group rots trans k atol) => [[lr0 lt0] lm0].
have [SGl Hin] := little_is_space_group _ _ _ _ _ _ _ _ SG HD Ap Da EL.
have [Hs0 [Hm0 [Er Et]]] := little_group_spec _ _ _ _ _ _ _ (sg_len _ _ SG) EL.
have lmE : lm = lm0.
  move: res; rewrite /get_spacegroup_spinor_irreps_from_primitive_symmetry NP EL.
  by case: enumerate_spinor_small_representations => [[[[? ?] ?] ?]| | |] //= [].
have lmE' : lm' = lm.
  rewrite lmE; apply: sorted_unique => // i; rewrite Hm Hm0; split=> -[hi fx]; split.
  - exact/ssrnat.ltP.
  - exact: (proj2 (keeps_kpoint_exact D atol k _ HD Ap Da) fx).
  - exact/ssrnat.ltP.
  - exact: (proj1 (keeps_kpoint_exact D atol k _ HD Ap Da) fx).
rewrite lmE' -/lr -/lt in Hs Hm M ss zE out; rewrite -lmE -/lr -/lt in Er Et; rewrite Er Et in SGl; rewrite Er in Hin.
split=> // mok.
have PMl r : In r lr -> preserves_metric L r by move=> /Hin [/PM].
have zz : z' = z.
  by have := out mul e M mok; cbv zeta; rewrite res; case=> [[]//|[[]//]|[]//|[X1 [X' [[]]]]].
rewrite {}zz in zE out.
apply: (spinor_counts_of (or_cexp (no_oracles NO)) LO PMl ss zE SGl (eps := qC C atol)).
  move=> e1 mul1 M1; have he : (e1 < List.length lm)%coq_nat by have /ssrnat.ltP := mt_e M1; rewrite -[size _]/(List.length _) map_length.
  have := mt_id M1; rewrite /lr /lt !nth_map_nth // => hid.
  by have /Hm [hi _] := nth_In lm 0%N he; exact: W0.
move=> mul1 e1 M1; have := out mul1 e1 M1 mok; cbv zeta; rewrite res; case=> [[]//|[[]//]|[]//|[X1 [X' [[<- _] cl nr]]]].
by exists X'.
Qed.

Theorem C67_primitive_cell : forall (C : numClosedFieldType) (E : numpy C) (G : trig C) rtol atol D L rots trans k method max_num X z U lm,
  numpy_ok E rtol atol -> eig_ok E -> trig_ok G -> lattice_ok L ->
  Qle (inject_Z Z0) atol -> Qle atol (Qmake 1 3) -> Qlt (Qmult (inject_Z (Zpos D)) atol) (inject_Z 1%coqZ) ->
  lists_space_group rots trans -> has_denominator D k -> (forall r, In r rots -> preserves_metric L r) ->
  get_spacegroup_spinor_irreps_from_primitive_symmetry E G L rots trans k method rtol atol max_num = COk (X, z, U, lm, true) ->
  let lr := List.map (fun i => List.nth i rots mid) lm in let lt := List.map (fun i => List.nth i trans vzero) lm in
  method_ok E lr method ->
  (forall i, In i lm <-> (i < size rots)%N /\ fixes_kpoint k (List.nth i rots mid)) /\ StronglySorted Nat.lt lm /\
  spinor_counts E lr lt k z X.
Proof.
move=> C E G rtol atol D L rots trans k method max_num X z U lm NO EO GO LO Ap A3 Da SG HD PM res lr lt mok.
by have [h1 h2 h3 h4] := spinor_returned NO EO GO LO Ap A3 Da SG HD PM res; split=> //; split=> //; exact: h4.
Qed.
Print Assumptions C67_primitive_cell.

(** At k = 0 the dimensions are those of the double-valued representations of the point group of
    the crystal. *)
Theorem C67_zone_centre : forall (C : numClosedFieldType) (E : numpy C) (G : trig C) rtol atol L rots trans method max_num X z U lm s P,
  numpy_ok E rtol atol -> eig_ok E -> trig_ok G -> lattice_ok L -> Qle (inject_Z Z0) atol -> Qle atol (Qmake 1 3) ->
  lists_space_group rots trans -> (forall r, In r rots -> preserves_metric L r) ->
  method_ok E rots method -> spglib_ok E rots -> spglib_pointgroup E rots = (s, P) ->
  get_spacegroup_spinor_irreps_from_primitive_symmetry E G L rots trans vzero method rtol atol max_num = COk (X, z, U, lm, true) ->
  lm = iota 0 (size rots) /\ exists2 ds, List.In (s, ds) double_valued & perm_eq [seq adim A | A <- X] ds.
Proof.
move=> C E G rtol atol L rots trans method max_num X z U lm s P NO EO GO LO Ap A3 SG PM mok sp sP res.
have HD : has_denominator 1 vzero by repeat split; exists Z0.
have Da : Qlt (Qmult (inject_Z 1%coqZ) atol) (inject_Z 1%coqZ) by rewrite Qmult_1_l; apply: Qle_lt_trans A3 _.
have [h1 h2 h3 h4] := spinor_returned NO EO GO LO Ap A3 Da SG HD PM res.
have lE := fixing_zero h1 h2; split=> //.
have rE : List.map (fun i => List.nth i rots mid) lm = rots by rewrite lE; exact: map_nth_iota.
have tE : List.map (fun i => List.nth i trans vzero) lm = trans by rewrite lE; apply: map_nth_iota; rewrite (sg_len _ _ SG).
rewrite rE tE in h3 h4.
have [_ _ _ tb] := h4 mok.
apply: (tb s P sp sP); left => r _; exact: mtvec_zero.
Qed.
Print Assumptions C67_zone_centre.

(** In the conventional cell. *)
Theorem C67_conventional_cell : forall (C : numClosedFieldType) (E : numpy C) (G : trig C) rtol atol D choice hall_symbol hall_number P
    L rots trans k method max_num X z U lm,
  numpy_ok E rtol atol -> eig_ok E -> trig_ok G -> lattice_ok L ->
  Qle (inject_Z Z0) atol -> Qle atol (Qmake 1 3) -> Qlt (Qmult (inject_Z (Zpos D)) atol) (inject_Z 1%coqZ) ->
  get_primitive_transformation_matrix choice hall_symbol hall_number = Ret P ->
  (forall r, In r rots -> conj_integral P r /\ preserves_metric L r) ->
  let pr := List.map (transform_rotation P) rots in
  let pt := List.map (transform_translation P) trans in
  let pk := transform_kpoint P k in
  centred_space_group pr pt -> has_denominator D pk ->
  get_spacegroup_spinor_irreps E G choice hall_symbol hall_number L rots trans k method rtol atol max_num = COk (X, z, U, lm, true) ->
  exists lr lt, [/\ lists_space_group lr lt, representatives pr pt lr lt, forall r, In r lr <-> In r pr /\ fixes_kpoint pk r &
    method_ok E lr method -> spinor_counts E lr lt pk z X].
Proof.
move=> C E G rtol atol D choice hs hn P L rots trans k method max_num X z U lm NO EO GO LO Ap A3 Da HP PM pr pt pk CS HD.
have HP0 := primitive_det_neq0 HP; have LO' : lattice_ok (primitive_lattice P L) := primitive_lattice_ok HP0 LO.
case HU: (unique_primitive_symmetry pr pt) => [[R T] M].
have len : List.length pt = List.length pr := cs_len CS.
have SG := unique_space_group pr pt len (cs_id CS) (cs_mul CS) (cs_inv CS) (clo' CS) R T M HU.
have [_ [_ [_ [_ [Hin _]]]]] := unique_spec pr pt R T M len HU.
have PMR r : In r R -> preserves_metric (primitive_lattice P L) r.
  move=> /Hin /in_map_iff [s [<- /PM [h1 h2]]]; exact: primitive_preserves.
rewrite /get_spacegroup_spinor_irreps HP.
have E0 A B (x : A) (g : A -> cres B) : cbind (clift (Ret x)) g = g x by [].
rewrite E0 /transform_symmetry_and_kpoint -/pr -/pt -/pk HU.
case EN: (get_spacegroup_spinor_irreps_from_primitive_symmetry _ _ _ _ _ _ _ _ _ _) => [[[[[X0 z0] U0] lp] b]| | |] //.
rewrite /=; move=> [e1 e2 _ _ e5]; subst b z0.
have [Hs Hm SGl ret] := spinor_returned NO EO GO LO' Ap A3 Da SG HD PMR EN.
set lr := List.map _ lp in SGl ret; set lt := List.map _ lp in SGl ret.
exists lr, lt; split=> //.
- move=> i; rewrite -[size lr]/(List.length lr) /lr map_length => /ssrnat.ltP hi.
  have hl : In (List.nth i lp 0%N) lp by apply: nth_In.
  have [hR _] := proj1 (Hm _) hl; have [x [hx [ex vx]]] := unique_representative _ _ _ _ _ len HU _ (elimT ssrnat.ltP hR).
  exists x; split; [exact/ssrnat.ltP| |].
  - by rewrite ex (nth_map_in _ _ _ 0%N).
  - by rewrite /lt (nth_map_in _ _ _ 0%N).
- move=> r; rewrite /lr in_map_iff -Hin; split=> [[x [<- /Hm [hx fx]]]|[hr fx]].
    by split=> //; apply: nth_In; apply/ssrnat.ltP.
  have [x [hx ex]] := In_nth_lt _ _ mid hr; exists x; split=> //; apply/Hm; rewrite ex; split=> //; exact/ssrnat.ltP.
move=> mok; have [h1 h2 h3 h4] := ret mok.
have dE : [seq adim A | A <- X] = [seq adim A | A <- X0] by rewrite -e1 -map_comp; apply: eq_map.
have sE : size X = size X0 by rewrite -(size_map (@adim C) X) dE size_map.
split.
- by rewrite -h1 -[RHS](big_map (@adim C) xpredT (fun d => d ^ 2)%N) -dE big_map.
- move=> sp A; rewrite -e1 => /in_map_iff [A0 [<- hA]]; exact: (h2 sp A0 hA).
- by move=> mul e reps; rewrite sE; exact: h3.
by move=> s Q; rewrite dE; exact: h4.
Qed.
Print Assumptions C67_conventional_cell.

(** At the zone centre, the ValueError of C35 does not occur: the call fails only by an unlucky
    draw. *)
Theorem C67_zone_centre_outcome : forall (C : numClosedFieldType) (E : numpy C) (G : trig C) rtol atol L rots trans method max_num,
  numpy_ok E rtol atol -> eig_ok E -> trig_ok G -> lattice_ok L -> Qle (inject_Z Z0) atol -> Qle atol (Qmake 1 3) ->
  (size rots)%:R * (2%:R * qC C atol + qC C atol ^+ 2) < 2%:R^-1 ->
  lists_space_group rots trans -> (forall r, In r rots -> preserves_metric L r) ->
  (forall i, (i < size rots)%N -> List.nth i rots mid = mid -> veq (List.nth i trans vzero) vzero) ->
  method_ok E rots method ->
  let f := get_spacegroup_spinor_irreps_from_primitive_symmetry E G L rots trans vzero method rtol atol max_num in
  [\/ f = CWarn /\ method = "Neto"%string /\ unlucky_samples (size rots) (np_rnd E) (qC C atol) max_num,
      method = "random"%string /\ exists z U, f = COk ([::], z, U, iota 0 (size rots), false) |
      exists X z U, f = COk (X, z, U, iota 0 (size rots), true)].
Proof.
move=> C E G rtol atol L rots trans method max_num NO EO GO LO Ap A3 small SG PM W0 mok f.
have HD : has_denominator 1 vzero by repeat split; exists Z0.
have Da : Qlt (Qmult (inject_Z 1%coqZ) atol) (inject_Z 1%coqZ) by rewrite Qmult_1_l; apply: Qle_lt_trans A3 _.
case EL: (get_little_group rots trans vzero atol) => [[lr lt] lm].
have [Hs [Hm [Er Et]]] := little_group_spec _ _ _ _ _ _ _ (sg_len _ _ SG) EL.
have lE : lm = iota 0 (size rots).
  apply: (fixing_zero (rots := rots)) => // i; rewrite Hm; split=> -[/ssrnat.ltP hi hk]; split=> //.
    exact: (proj1 (keeps_kpoint_exact 1 atol vzero _ HD Ap Da) hk).
  exact: (proj2 (keeps_kpoint_exact 1 atol vzero _ HD Ap Da) hk).
rewrite lE map_nth_iota // in Er; rewrite lE map_nth_iota ?(sg_len _ _ SG) // in Et; subst lr lt lm.
have NP : not_primitive atol rots trans = false.
  case: (boolP (not_primitive atol rots trans)) => [h|/negbTE //].
  have [i [/ssrnat.ltP hi ei []]] := proj1 (not_primitive_iff SG atol) h.
  by have [-> [-> ->]] := W0 i hi ei.
rewrite /f /get_spacegroup_spinor_irreps_from_primitive_symmetry NP EL /enumerate_spinor_small_representations.
have LG := sg_rots _ _ SG; have [mul [e M]] := mult_exists LG.
have [z [hz zs]] := spinor_factor_system EO GO LO PM LG M; have fs := spin_fs EO GO LO PM M zs.
have SS : spin_system L rots (spin_of E G L) (spin_sign E G L) by apply: spin_system_of.
have E0 A B (x : A) (g : A -> cres B) : cbind (clift (Ret x)) g = g x by [].
rewrite hz E0 [(z, _).1]/= [(z, _).2]/=; set U := List.map _ _; clearbody U.
have ce := or_cexp (no_oracles NO).
have l1 i j : little_factor_system E rots trans vzero i j = 1.
  rewrite -(cexp0 ce); apply: (ce_eq ce); rewrite /factor_phase.
  move: (List.nth i rots mid) (List.nth j trans vzero) => R w.
  by rewrite /vdot; cbn -[Qmult Qplus Qminus inject_Z]; ring.
have zr i j : (i < size rots)%N -> (j < size rots)%N -> z i j * little_factor_system E rots trans vzero i j \is Num.real.
  move=> hi hj; rewrite l1 mulr1 zs //.
  by case: (ss_sign SS (nth_ltE hi) (nth_ltE hj)) => ->; rewrite ?rpredN rpred1.
have FK r : In r rots -> fixes_kpoint vzero r.
  move=> _; have q0 a : Qeq a (inject_Z Z0) -> qint (Qplus a (Qopp (inject_Z Z0))) by move=> h; exists Z0; rewrite h.
  by case: (mtvec_zero r) => a1 [a2 a3]; split; [exact: q0 | split; exact: q0].
have fs' := fs_mul fs (little_fs ce SG FK M).
case: (C51_real_factor_system max_num NO A3 small LG M fs' zr mok) => [[-> h]|[-> h]|[X [X' [inds [-> cl nr _ _]]]]] /=.
- exact: Or31.
- by apply: Or32; split=> //; exists z, U.
by apply: Or33; eexists _, z, U.
Qed.
Print Assumptions C67_zone_centre_outcome.

(** P2_12_12_1 on a cubic lattice at the zone centre: the call returns, with a single
    representation, of dimension two. *)
Example C67_hypotheses_met :
  [/\ numpy_ok grey_numpy (inject_Z Z0) (inject_Z Z0), eig_ok grey_numpy & trig_ok (ex_trig algCF)] /\
  [/\ lattice_ok (1%:M : 'M[algCF]_3), lists_space_group p2_rots p2_trans, forall r, In r p2_rots -> preserves_metric (1%:M : 'M[algCF]_3) r,
      method_ok grey_numpy p2_rots "Neto" & spglib_ok grey_numpy p2_rots] /\
  exists X z U, get_spacegroup_spinor_irreps_from_primitive_symmetry grey_numpy (ex_trig algCF) 1%:M p2_rots p2_trans vzero
      "Neto" (inject_Z Z0) (inject_Z Z0) 4 = COk (X, z, U, iota 0 4, true) /\ [seq adim A | A <- X] = [:: 2]%N.
Proof.
have [[NO _ EO _] _] := C62_C63_hypotheses_met.
have [LO _ M PM] := C34_hypotheses_met algCF; have [SG _] := p2_space_group.
have SP : spglib_ok grey_numpy p2_rots by have [[_ _ _ _ [[_ h]//|//]] _] := C27_hypotheses_met.
have mok : method_ok grey_numpy p2_rots "Neto" by left.
have GO := ex_trig_ok algCF.
split=> //; split=> //.
have q0 : qC algCF (inject_Z Z0) = 0 by exact: qC0.
have sm : (size p2_rots)%:R * (2%:R * qC algCF (inject_Z Z0) + qC algCF (inject_Z Z0) ^+ 2) < 2%:R^-1.
  by rewrite q0 mulr0 expr2 mulr0 addr0 mulr0 invr_gt0 ltr0n.
have Ap : Qle (inject_Z Z0) (inject_Z Z0) by exact: Qle_refl.
have A3 : Qle (inject_Z Z0) (Qmake 1 3) by [].
have W0 i : (i < size p2_rots)%N -> List.nth i p2_rots mid = mid -> veq (List.nth i p2_trans vzero) vzero.
  by case: i => [|[|[|[|//]]]] //= _ _; repeat split.
case: (C67_zone_centre_outcome 4 NO EO GO LO Ap A3 sm SG PM W0 mok) => [[_ [_ h]]|[//]|[X [z [U h]]]].
  by rewrite q0 in h; case: (@unit_draw_lucky algCF 4 h).
exists X, z, U; split=> //.
have [_ [ds hd pe]] := C67_zone_centre NO EO GO LO Ap A3 SG PM mok SP erefl h.
have dE : ds = [:: 2]%N by move: hd; rewrite /double_valued /=; intuition congruence.
by move: pe; rewrite dE => /perm_small_eq; apply.
Qed.
Print Assumptions C67_hypotheses_met.
