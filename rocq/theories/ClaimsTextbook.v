(** Property C58: for each of the 32 crystallographic point groups the dimensions of the
    returned irreps are those of the textbook character tables. *)
From Coq Require Import QArith ZArith List String Lia Permutation.
From mathcomp Require Import all_ssreflect all_algebra all_fingroup algC.
From Verif Require Import Py Mat3 MatQ GroupSpec GroupModel GroupProofs PointGroupData PointGroupModel PointGroupProofs ChainSpec
  RepSpec RepTheory IndexRepSpec RepModel IndexGroup CExpSpec ExpInstance ChainModel RepProofs GaugeTheory PurifyTheory RealDrop
  SmallModel SmallSpec SmallTheory SmallExamples ClaimsChain ClaimsRandom ClaimsSmall DimTheory PointDims ClaimsDim AgreeSpec ClaimsAgree
  SpinorModel SpinorSpec SpinorProofs ClaimsSpinor ClassSpec ClassTheory ClaimsClass TextbookSpec DimList ClassCompute PointClasses SpinRegular.
Import Order.TTheory GRing.Theory Num.Theory.
Set Implicit Arguments.
Unset Strict Implicit.
Unset Printing Implicit Defensive.
Local Open Scope ring_scope.

Lemma dims_of_In tbl s xs : perm_eq xs (dims_of tbl s) -> (0 < size xs)%N -> exists2 ds, List.In (s, ds) tbl & perm_eq xs ds.
Proof.
move=> p x0; move: p; rewrite /dims_of; case E: dict_get => [ds|er] p; first by exists ds => //; exact: dict_get_In.
by rewrite (perm_size p) in x0.
Qed.
Lemma dims_list (C : numClosedFieldType) (eps : C) rots mul e mu L L' : near_list eps L L' -> complete_list rots mul e mu L' ->
  [/\ size [seq adim A | A <- L] = size L', sumsq [seq adim A | A <- L] = size rots, (0 < size rots)%N -> (0 < size L)%N &
    forall d, d \in [seq adim A | A <- L] -> exists2 k, (k < size L')%N & d = adim (arr_nth L' k)].
Proof.
move=> nr [_ ci]; have [sL _] := nr.
have sq : sumsq [seq adim A | A <- L] = size rots.
  rewrite /sumsq big_map -(ci_squares ci) (big_nth (@Arr C 0 [::])) big_mkord sL; apply: eq_bigr => k _.
  by have [|_ ->] := near_dims (k := k) nr; rewrite ?sL.
split=> //; first by rewrite size_map.
  by rewrite -sq; case: (L) => //; rewrite /sumsq big_nil.
move=> d /(nthP 0%N) [k]; rewrite size_map => hk <-; rewrite (nth_map (@Arr C 0 [::])) //.
by have [h1 h2] := near_dims nr hk; exists k.
Qed.

(** The dimensions of a full list of irreps with trivial factor system. *)
Lemma linear_dims_list (C : numClosedFieldType) (E : numpy C) rots mul e s P N dim (D : forall k, nat -> 'M[C]_(dim k)) xs :
  lists_group rots -> multiplication rots mul e -> spglib_ok E rots -> spglib_pointgroup E rots = (s, P) ->
  complete_irreps (size rots) mul e (fun _ _ => 1) N D -> size xs = N -> sumsq xs = size rots -> (0 < size xs)%N ->
  (forall d, d \in xs -> exists2 k, (k < N)%N & d = dim k) -> exists2 ds, List.In (s, ds) single_valued & perm_eq xs ds.
Proof.
move=> LG M sp sP ci e1 e2 e3 e4.
have sp' := sp; move: sp'; rewrite /spglib_ok sP => -[dP iP [settings [std [hs hstd pm]]]].
have [reps [cr sr hd u]] := point_single LG M hs hstd dP iP pm.
have G := mult_group_law LG M; have fs := complete_fs G ci.
apply: dims_of_In => //.
apply: (unique_tuple_sound (al := [:: 1; 2; 3]%N) (N := size (dims_of single_valued s)) (n := size rots)) => //.
- by move=> x; rewrite !inE => /orP [|/orP []] ->; rewrite ?orbT.
- move=> d /e4 [k kl ->]; have := point_linear_dims LG M sp (ci_rep ci kl) (ci_irreducible ci kl).
  by move=> [<-|[<-|[<-|[]]]]; rewrite !inE.
rewrite e1 -sr; apply: esym; apply: (iclasses G fs ci); case: cr => h1 h2 h3; split=> //.
- by move=> i /h1 [].
by move=> i hi _; exact: h3.
Qed.

(* ---------- C58 ---------- *)
Theorem C58_pointgroup : forall (C : numClosedFieldType) (E : numpy C) rtol atol rots mul e method max_num L s P,
  numpy_ok E rtol atol -> Qle atol (Qmake 1 3) ->
  (size rots)%:R * (2%:R * qC C atol + qC C atol ^+ 2) < 2%:R^-1 ->
  lists_group rots -> multiplication rots mul e -> method_ok E rots method -> spglib_ok E rots -> spglib_pointgroup E rots = (s, P) ->
  get_crystallographic_pointgroup_irreps_from_symmetry E rots false method rtol atol max_num = COk (L, true) ->
  exists2 ds, List.In (s, ds) single_valued & perm_eq [seq adim A | A <- L] ds.
Proof.
move=> C E rtol atol rots mul e method max_num L s P NO A3 sm LG M mok sp sP h.
have := C29_pointgroup_irreps max_num NO A3 sm LG M mok; cbv zeta; rewrite h.
case=> [[]//|[]//|[L1 [L' [[<-] cl nr]]]]; have ci := proj2 cl.
have n0 : (0 < size rots)%N by exact: (leq_ltn_trans _ (mt_e M)).
have [e1 e2 e3 e4] := dims_list nr cl.
by apply: (linear_dims_list LG M sp sP ci) => //; rewrite size_map; exact: e3.
Qed.
Print Assumptions C58_pointgroup.

(** Spinor irreps: the double-valued ones. *)
Theorem C58_spinor_pointgroup : forall (C : numClosedFieldType) (E : numpy C) (G : trig C) rtol atol L rots mul e method max_num X z U s P,
  numpy_ok E rtol atol -> eig_ok E -> trig_ok G -> lattice_ok L -> Qle atol (Qmake 1 3) ->
  (size rots)%:R * (2%:R * qC C atol + qC C atol ^+ 2) < 2%:R^-1 ->
  lists_group rots -> multiplication rots mul e -> (forall r, List.In r rots -> preserves_metric L r) ->
  method_ok E rots method -> spglib_ok E rots -> spglib_pointgroup E rots = (s, P) ->
  get_crystallographic_pointgroup_spinor_irreps_from_symmetry E G L rots method rtol atol max_num = COk (X, z, U, true) ->
  exists2 ds, List.In (s, ds) double_valued & perm_eq [seq adim A | A <- X] ds.
Proof.
move=> C E G rtol atol L rots mul e method max_num X z U s P NO EO GO LO A3 sm LG M PM mok sp sP h.
have C55 := C55_spinor_pointgroup NO EO GO LO A3 sm LG M PM mok sp h.
have := C35_pointgroup max_num NO EO GO LO A3 sm LG M PM mok; cbv zeta; rewrite h.
move=> [S [zeta [z' [ss zE]]]]; case=> [[]//|[[]//]|[X1 [X' [[e1 e2 _] cl nr]]]]; subst X1 z'; have ci := proj2 cl.
have sp' := sp; move: sp'; rewrite /spglib_ok sP => -[dP iP [settings [std [hs hstd pm]]]].
have [reps [cr sr hd u]] := point_double LG M hs hstd dP iP pm.
have Gl := mult_group_law LG M; have fs := complete_fs Gl ci.
have n0 : (0 < size rots)%N by exact: (leq_ltn_trans _ (mt_e M)).
have inr x : (x < size rots)%N -> List.In (List.nth x rots mid) rots by exact: nth_ltE.
have com x i : (x < size rots)%N -> (i < size rots)%N -> mul x i = mul i x -> mmul (List.nth x rots mid) (List.nth i rots mid) = mmul (List.nth i rots mid) (List.nth x rots mid).
  by move=> hx hi c; rewrite -(mt_mul M hx hi) -(mt_mul M hi hx) c.
have rg i : (i < size rots)%N -> spin_regular rots mul i <-> mu_regular (size rots) mul z i.
  move=> hi; split=> r x hx c.
    by rewrite !zE //; apply/(spin_commute LO PM ss LG (inr _ hx) (inr _ hi) (com _ _ hx hi c)); exact: r.
  by apply/(spin_commute LO PM ss LG (inr _ hx) (inr _ hi) (com _ _ hx hi c)); rewrite -!zE //; exact: r.
have [e1 e2 e3 e4] := dims_list nr cl.
have sN : size [seq adim A | A <- X] = size (dims_of double_valued s).
  rewrite e1 -sr; apply: esym; apply: (iclasses Gl fs ci); case: cr => h1 h2 h3; split=> //.
    by move=> i /h1 [hi /(rg i hi)].
  by move=> i hi /(rg i hi); exact: h3.
have sub4 : {subset [seq adim A | A <- X] <= [:: 1; 2; 3; 4]%N}.
  move=> d /(nthP 0%N) [k]; rewrite size_map => hk <-; rewrite (nth_map (@Arr C 0 [::])) //.
  by have := C55 k hk; rewrite -/(arr_nth X k) => -[<-|[<-|[<-|[<-|[]]]]]; rewrite !inE.
apply: dims_of_In; last by rewrite size_map; exact: e3.
case: u => [u|[u [x [i [hx hi c tp]]]]].
  by apply: (unique_tuple_sound (al := [:: 1; 2; 3; 4]%N) (N := size (dims_of double_valued s)) (n := size rots)).
apply: (unique_tuple_sound (al := [:: 2; 4]%N) (N := size (dims_of double_valued s)) (n := size rots)) => //.
  by move=> y; rewrite !inE => /orP [] ->; rewrite ?orbT.
move=> d hd'; have ev : ~~ odd d.
  have [k kl ->] := e4 d hd'; have [_ mm] := ci_rep ci kl; set D := aget (arr_nth X' k) in mm.
  have ne : z x i <> z i x.
    by rewrite !zE // => /(spin_commute LO PM ss LG (inr _ hx) (inr _ hi) (com _ _ hx hi c)).
  have zn : z x i = - z i x.
    move: ne; rewrite !zE //; case: (ss_sign ss (inr _ hx) (inr _ hi)) (ss_sign ss (inr _ hi) (inr _ hx)) => -> [] -> //; by rewrite opprK.
  have e5 : D x *m D i = - (D i *m D x) by rewrite !mm // zn c scaleNr.
  have det0 y : (y < size rots)%N -> \det (D y) != 0.
    move=> hy; have := congr1 determinant (ci_unitary ci kl hy); rewrite det_mulmx det1 => h1.
    by apply/eqP => h0; move: h1; rewrite -/D h0 mul0r => /eqP; rewrite eq_sym oner_eq0.
  have := congr1 determinant e5; rewrite -scaleN1r detZ !det_mulmx [\det (D i) * _]mulrC -[LHS]mul1r.
  move/(mulIf (mulf_neq0 (det0 x hx) (det0 i hi))) => h1; apply/negP => od.
  by move: h1; rewrite -signr_odd od expr1 => /eqP; rewrite -subr_eq0 opprK -(natrD _ 1 1) pnatr_eq0.
have := sub4 d hd'; rewrite !inE => /orP [|/orP [|/orP []]] /eqP dE; by rewrite dE in ev *.
Qed.
Print Assumptions C58_spinor_pointgroup.

(** Small representations whose factor system is a coboundary: the same dimensions as for
    the point group of the little group. *)
Theorem C58_small_representations : forall (C : numClosedFieldType) (E : numpy C) rots trans k mul e method rtol atol max_num L s P (g : nat -> Q),
  returns_irreps E rots trans k mul e method rtol atol max_num L ->
  spglib_ok E rots -> spglib_pointgroup E rots = (s, P) ->
  (forall i j, (i < size rots)%N -> (j < size rots)%N -> exists z : Z,
     Qeq (Qminus (Qplus (g i) (g j)) (Qplus (g (mul i j)) (vdot k (lattice_shift rots trans mul i j)))) (inject_Z z)) ->
  exists2 ds, List.In (s, ds) single_valued & perm_eq [seq adim A | A <- L] ds.
Proof.
move=> C E rots trans k mul e method rtol atol max_num L s P g r sp sP hg.
have [L' cl nr] := returned_complete r; have ci := proj2 cl.
have LG := sg_rots _ _ (ri_group r); have M := ri_mult r.
have ce := or_cexp (no_oracles (ri_numpy r)); have Gl := mult_group_law LG M.
have n0 : (0 < size rots)%N by exact: (leq_ltn_trans _ (mt_e M)).
have [e1 e2 e3 e4] := dims_list nr cl.
pose c i := np_exp E (g i).
have ee : mul e e = e by exact: (gl_1l _ _ _ Gl _ (gl_e _ _ _ Gl)).
have c1 : c e = 1.
  rewrite -(cexp0 ce); apply: (cexp_diff ce); have [z hz] := hg e e (mt_e M) (mt_e M); exists z; rewrite -hz ee.
  have -> : Qeq (vdot k (lattice_shift rots trans mul e e)) (inject_Z Z0); last by ring.
  have := ri_unit r; rewrite /lattice_shift ee (mt_id M); move: (List.nth e _ _) => [a b c'] [h1 [h2 h3]].
  by rewrite /vdot; cbn -[Qmult Qplus Qminus inject_Z] in *; rewrite h1 h2 h3; ring.
have nuE i j : (i < size rots)%N -> (j < size rots)%N -> 1 * c (mul i j) = c i * c j * bloch_factor (np_exp E) rots trans k mul i j.
  move=> hi hj; rewrite mul1r /c /bloch_factor -!(ce_add ce); apply: (cexp_diff ce).
  have [z hz] := hg i j hi hj; exists (Z.opp z); rewrite inject_Z_opp -hz; ring.
have ci' := gauge_complete (mt_lt M) c1 (fun i _ => ce_norm ce _) nuE ci.
by apply: (linear_dims_list LG M sp sP ci') => //; rewrite size_map; exact: e3.
Qed.
Print Assumptions C58_small_representations.

(** This covers every k-point of a symmorphic space group, and every k-point which the
    rotations of its little group leave where it is (not moved by a reciprocal lattice vector). *)
Theorem C58_symmorphic : forall (C : numClosedFieldType) (E : numpy C) rots trans k mul e method rtol atol max_num L s P,
  returns_irreps E rots trans k mul e method rtol atol max_num L ->
  spglib_ok E rots -> spglib_pointgroup E rots = (s, P) -> (forall i, veq (List.nth i trans vzero) vzero) ->
  exists2 ds, List.In (s, ds) single_valued & perm_eq [seq adim A | A <- L] ds.
Proof.
move=> C E rots trans k mul e method rtol atol max_num L s P r sp sP W0.
apply: (C58_small_representations (g := fun _ => inject_Z Z0) r sp sP) => i j _ _; exists Z0.
rewrite /lattice_shift /vdot; have [a1 [a2 a3]] := W0 i; have [b1 [b2 b3]] := W0 j; have [c1 [c2 c3]] := W0 (mul i j).
by cbn -[Qmult Qplus Qminus inject_Z List.nth] in *; rewrite a1 a2 a3 b1 b2 b3 c1 c2 c3; ring.
Qed.
Print Assumptions C58_symmorphic.
Theorem C58_interior : forall (C : numClosedFieldType) (E : numpy C) rots trans k mul e method rtol atol max_num L s P,
  returns_irreps E rots trans k mul e method rtol atol max_num L ->
  spglib_ok E rots -> spglib_pointgroup E rots = (s, P) -> (forall r, List.In r rots -> veq (mtvec r k) k) ->
  exists2 ds, List.In (s, ds) single_valued & perm_eq [seq adim A | A <- L] ds.
Proof.
move=> C E rots trans k mul e method rtol atol max_num L s P r sp sP fk.
apply: (C58_small_representations (g := fun i => vdot k (List.nth i trans vzero)) r sp sP) => i j hi hj; exists Z0.
have [f1 [f2 f3]] := fk _ (nth_ltE hi).
rewrite /lattice_shift; move: f1 f2 f3; move: (List.nth i rots mid) (List.nth i trans vzero) (List.nth j trans vzero) (List.nth (mul i j) trans vzero) => R u v w.
rewrite /vdot; cbn -[Qmult Qplus Qminus inject_Z] => f1 f2 f3.
set l := Qminus _ _.
have -> : Qeq l (vdot (vsub k (mtvec R k)) v) by rewrite /l /vdot; cbn -[Qmult Qplus Qminus inject_Z]; ring.
by rewrite /vdot; cbn -[Qmult Qplus Qminus inject_Z]; rewrite f1 f2 f3; ring.
Qed.
Print Assumptions C58_interior.

(** The group 23 at a k-point of a primitive lattice: the function returns, and the
    dimensions are 1, 1, 1, 3. *)
Example C58_hypotheses_met : exists mul e L,
  [/\ returns_irreps tet_numpy tet_rots (List.repeat vzero 12) vzero mul e "Neto" (inject_Z Z0) (inject_Z Z0) 12 L,
      spglib_ok tet_numpy tet_rots, spglib_pointgroup tet_numpy tet_rots = ("23"%string, qid) &
      perm_eq [seq adim A | A <- L] [:: 1; 1; 1; 3]%N].
Proof.
have [mul [e [[LG M sp NO _] [_ _ n12]]]] := C55_three_attained.
have W i : List.nth i (List.repeat vzero 12) vzero = vzero by do 12?[case: i => [|i] //]; case: i.
have SG : lists_space_group tet_rots (List.repeat vzero 12).
  split=> //; move=> i j l _ _ _ _; apply: (vint_eq vzero); last exact: vint_0.
  by rewrite !W; move: (List.nth i _ _) => -[]; intros; repeat split; cbn -[Qmult Qplus Qminus inject_Z]; ring.
have FK r : List.In r tet_rots -> fixes_kpoint vzero r.
  move=> _; apply: (vint_eq vzero); last exact: vint_0.
  by case: r; intros; repeat split; cbn -[Qmult Qplus Qminus inject_Z]; ring.
have W0 i : veq (List.nth i (List.repeat vzero 12) vzero) vzero by rewrite W; repeat split; reflexivity.
have [L] := @C56_symmorphic_returns _ tet_numpy tet_rots _ vzero mul e _ _ NO (Qeq_refl _) (fun _ _ => erefl) SG FK M sp W0.
rewrite n12 => r; exists mul, e, L; split=> //.
have [ds hd] := C58_symmorphic r sp erefl W0.
suff -> : ds = [:: 1; 1; 1; 3]%N by [].
move: hd; rewrite /single_valued /=.
by intuition congruence.
Qed.
