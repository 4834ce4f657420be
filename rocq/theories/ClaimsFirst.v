(** Property theorems C72: the order of the returned irreps (irreps.py:404-407, 441-555). *)
From Coq Require Import QArith ZArith List Lia String.
From mathcomp Require Import all_ssreflect all_algebra all_fingroup algC.
From Verif Require Import Py Mat3 MatQ GroupModel GroupSpec GroupProofs SpaceGroupProofs TransformModel TransformSpec TransformProofs
  PointGroupModel RepSpec RepModel CExpSpec ExpInstance IndexRepSpec IndexGroup GaugeTheory ChainSpec ChainModel RepProofs RandomModel RandomTheory SmallModel SmallSpec SmallTheory SmallExamples AgreeExamples PurifyTheory
  CentringModel CentringSpec CentringProofs CentringTheory ClaimsChain ClaimsRandom ClaimsSmall AgreeSpec DimTheory ClaimsApi ClaimsAgree
  FirstSpec FirstRandom FirstProofs.
Import Order.TTheory GRing.Theory Num.Theory.
Set Implicit Arguments.
Unset Strict Implicit.
Unset Printing Implicit Defensive.
Local Open Scope ring_scope.
Delimit Scope Z_scope with coqZ.

(** What is assumed of NumPy beyond numpy_ok: the roots are the principal ones at 1, and
    complex numbers are ordered by the real part, then by the imaginary part. *)
Record order_ok (C : numClosedFieldType) (E : numpy C) : Prop := {
  oo_root : forall m, (0 < m)%N -> np_powinv E 1 m = 1 /\ np_nroot E 1 m = 1;
  oo_key : forall a b, np_key_le E a b = numpy_le a b }.

(* ---------- C72 ---------- *)
(** Whatever the matrices, the random numbers and the answers of eigh and qr: the lists of
    both random functions are ordered by dimension and, for equal dimension, by decreasing
    sum of the characters. *)
Theorem C72_random_sorted : forall (C : numClosedFieldType) around eigh qr_q hrnd key_le rtol,
  (forall a b : C, key_le a b = numpy_le a b) ->
  (forall n (ms : seq 'M[C]_n) max_num As ok i j,
     enumerate_unitary_irreps_from_regular_representation around eigh qr_q hrnd key_le rtol ms max_num = Ret (As, ok) ->
     (i < j < size As)%N -> listed_before (arr_nth As i) (arr_nth As j)) /\
  (forall rep max_num As ok i j,
     decompose_representation around eigh qr_q hrnd key_le rtol rep max_num = (As, ok) ->
     (i < j < size As)%N -> listed_before (arr_nth As i) (arr_nth As j)).
Proof.
move=> C around eigh qr_q hrnd key_le rtol hk; split.
  move=> n ms mx As ok i j; rewrite /enumerate_unitary_irreps_from_regular_representation; case: ifP => // _ [].
  case: (regular_loopP around eigh qr_q hrnd key_le rtol ms mx 0) => [[s [_ _ _ ->]]|[_ ->]] // -[<- _].
    exact: irreps_sorted.
  by rewrite /= ltn0 andbF.
move=> rep mx As ok i j; rewrite /decompose_representation.
case: (decompose_loopP around eigh qr_q hrnd key_le rtol rep mx 0) => [[s [_ _ _ ->]]|[_ ->]] // -[<- _].
  exact: irreps_sorted.
by rewrite /= ltn0 andbF.
Qed.
Print Assumptions C72_random_sorted.

(** The first irrep of a point group is the identity representation, for both methods. *)
Theorem C72_point_groups : forall (C : numClosedFieldType) (E : numpy C) rtol atol rots method max_num L,
  numpy_ok E rtol atol -> order_ok E -> Qle atol (Qmake 1 3) -> lists_group rots -> method_ok E rots method ->
  get_crystallographic_pointgroup_irreps_from_symmetry E rots false method rtol atol max_num = COk (L, true) ->
  exists L', L = unit_arr C (size rots) :: L'.
Proof.
move=> C E rtol atol rots method max_num L NO OO A3 LG mok.
rewrite /get_crystallographic_pointgroup_irreps_from_symmetry.
case Er: enumerate_unitary_irreps => [[[L0 i0] b]|||] //= [EL Eb]; subst L0 b.
have [mul [e M]] := mult_exists LG.
exact: (unitary_first NO (oo_root OO) (oo_key OO) LG M (fun _ _ _ _ => erefl) A3 mok Er).
Qed.
Print Assumptions C72_point_groups.

(** The first small representation at k = 0, and at any k if all translations vanish, is the
    identity representation of the listed little group. *)
Theorem C72_space_groups : forall (C : numClosedFieldType) (E : numpy C) rtol atol D rots trans k method max_num L lm,
  numpy_ok E rtol atol -> order_ok E -> Qle (inject_Z Z0) atol -> Qle atol (Qmake 1 3) ->
  Qlt (Qmult (inject_Z (Zpos D)) atol) (inject_Z 1%coqZ) ->
  lists_space_group rots trans -> has_denominator D k -> veq k vzero \/ (forall t, In t trans -> veq t vzero) ->
  method_ok E (List.map (fun i => List.nth i rots mid) lm) method ->
  get_spacegroup_irreps_from_primitive_symmetry E rots trans k false method rtol atol max_num = COk (L, lm, true) ->
  exists L', L = unit_arr C (size lm) :: L'.
Proof.
move=> C E rtol atol D rots trans k method max_num L lm NO OO Ap A3 Da SG HD flat mok.
exact: (primitive_first NO A3 (oo_root OO) (oo_key OO) Ap Da SG HD flat mok).
Qed.
Print Assumptions C72_space_groups.

Lemma exp_zero_any (C : numClosedFieldType) (E : numpy C) q : exp_spec (np_exp E) -> Qeq q (inject_Z Z0) -> np_exp E (Qopp q) = 1.
Proof. by move=> ce h; rewrite -(cexp0 ce); apply: (ce_eq ce); rewrite h. Qed.
Lemma remapping_lt lm x l : remapping lm x = Some l -> (l < size lm)%N.
Proof.
elim/last_ind: lm => [|lm a IH] //; rewrite -cats1 -[_ ++ [:: a]]/(List.app lm [:: a]) remapping_snoc.
case: Nat.eqb => [[<-]|/IH h]; rewrite -[size (List.app _ _)]/(size (lm ++ [:: a])) size_cat addn1 //.
exact: ltnW.
Qed.

(** The same for the operations of a conventional cell at k = 0.  spglib's answer is assumed
    to be right for every listing of the rotations of the primitive cell. *)
Theorem C72_conventional_cell : forall (C : numClosedFieldType) (E : numpy C) rtol atol choice hall_symbol hall_number P
    rots trans k method max_num L lm,
  numpy_ok E rtol atol -> order_ok E -> Qle (inject_Z Z0) atol -> Qle atol (Qmake 1 3) -> veq k vzero ->
  get_primitive_transformation_matrix choice hall_symbol hall_number = Ret P ->
  let pr := List.map (transform_rotation P) rots in
  let pt := List.map (transform_translation P) trans in
  centred_space_group pr pt -> (forall R, NoDup R -> (forall r, In r R <-> In r pr) -> method_ok E R method) ->
  get_spacegroup_irreps E choice hall_symbol hall_number rots trans k method rtol atol max_num = COk (L, lm, true) ->
  exists L', L = unit_arr C (size lm) :: L'.
Proof.
move=> C E rtol atol choice hs hn P rots trans k method max_num L lm NO OO Ap A3 k0 HP pr pt CS mok.
rewrite /get_spacegroup_irreps HP; cbn [cbind clift]; rewrite /transform_symmetry_and_kpoint -/pr -/pt.
case HU: (unique_primitive_symmetry pr pt) => [[R T] M].
have len : List.length pt = List.length pr := cs_len CS.
have SG := unique_space_group pr pt len (cs_id CS) (cs_mul CS) (cs_inv CS) (clo' CS) R T M HU.
have [_ [_ [_ [ndR [inR _]]]]] := unique_spec pr pt R T M len HU.
set pk := transform_kpoint P k.
have pk0 : veq pk vzero.
  case: k0 => h1 [h2 h3]; rewrite /pk /transform_kpoint /qtvec /veq /=.
  by split; [|split]; rewrite h1 h2 h3 /=; ring.
move: pk pk0 => pk pk0.
case Es: get_spacegroup_irreps_from_primitive_symmetry => [[[L0 lm0] b]|||]; cbn [cbind] => //.
case Ea: adjust_phase_for_centering_translations => [L1 lm1] => -[EL Elm Eb]; subst L1 lm1 b.
case EL: (get_little_group R T pk atol) => [[lr lt] lp].
have [Hs [Hm [Er Et]]] := little_group_spec _ _ _ _ _ _ _ (sg_len _ _ SG) EL.
have elm : lm0 = lp.
  move: Es; rewrite /get_spacegroup_irreps_from_primitive_symmetry EL; case: ifP => // _.
  by case: enumerate_small_representations => [[[? ?] ?]|||]; cbn [cbind] => // -[].
subst lm0.
have HD : has_denominator 1 pk by have [h1 [h2 h3]] := pk0; split; [|split]; exists Z0; rewrite ?h1 ?h2 ?h3.
have Da : Qlt (Qmult (inject_Z 1%coqZ) atol) (inject_Z 1%coqZ) by rewrite Qmult_1_l; apply: Qle_lt_trans A3 _.
have fx q r : veq q vzero -> fixes_kpoint q r.
  move=> [h1 [h2 h3]]; rewrite /fixes_kpoint /vint /vsub /mtvec /=.
  by split; [|split]; exists Z0; rewrite h1 h2 h3 /=; ring.
have inlp i : In i lp <-> (i < List.length R)%coq_nat.
  by rewrite Hm; split=> [[]//|hi]; split=> //; exact: (proj2 (keeps_kpoint_exact 1 atol pk _ HD Ap Da) (fx _ _ pk0)).
have elp : lp = iota 0 (size R).
  apply: (fixing_zero (rots := R)) => // i; rewrite inlp; split=> [/ssrnat.ltP hi|[/ssrnat.ltP //]].
  by split=> //; apply: fx; split; [|split].
have lrE : List.map (fun i => List.nth i R mid) lp = R by rewrite elp map_nth_iota.
have mok' : method_ok E (List.map (fun i => List.nth i R mid) lp) method by rewrite lrE; apply: mok.
have [L1 EL1] := C72_space_groups NO OO Ap A3 Da SG HD (or_introl pk0) mok' Es; subst L0.
move: Ea; rewrite /adjust_phase_for_centering_translations /= => -[<- <-].
set sel := select_little pt T M lp.
exists [seq purify_irrep_value E (qC C atol_default) (adjust_one E pk sel A) | A <- L1]; congr cons.
have -> : size [seq i.1 | i <- sel] = size sel by rewrite size_map.
have ce := or_cexp (no_oracles NO); have sep := special_sep ce (small_third C).
have sel_lt x : In x sel -> (x.2.1 < size lp)%N.
  by case: x => i [l v] /select_In [m [_ [/remapping_lt h _]]].
rewrite /adjust_one /= (_ : map _ sel = nseq (size sel) 1%:M).
  rewrite /purify_irrep_value /amap /unit_arr /=; congr Arr; rewrite map_nseq; congr nseq.
  apply/matrixP => i j; rewrite !ord1 !mxE eqxx; apply: (snap_fixed sep) => //.
  by rewrite !inE eqxx orbT.
elim: sel sel_lt => // x sel IH h; rewrite /= IH => [|y hy]; last by apply: h; right.
congr cons; rewrite exp_zero_any ?scale1r; first by rewrite /aget /= nth_nseq h //; left.
  exact: ce.
exact: vdot_zero_l.
Qed.
Print Assumptions C72_conventional_cell.

(** The hypotheses are met: with the inversion group at k = (z/2,0,0) both methods return,
    and the first of the two irreps is the identity representation. *)
Definition first_numpy : numpy algCF :=
  {| np_around := id; np_powinv := fun z m => m.-root z; np_nroot := fun z m => m.-root z; np_rnd := @unit_draw algCF;
     np_exp := @cexp_inst algCF; np_eigh := @ex_eigh algCF; np_qr := fun _ _ A => A; np_hrnd := @ex_hrnd algCF;
     np_key_le := @numpy_le algCF; np_int := fun z => floorC ('Re z + 2%:R^-1); np_eig := fun n _ => ([::], 0);
     spglib_pointgroup := fun _ => ("-1"%string, qid) |}.
Lemma two_half z : Qeq (Qmult (inject_Z 2%coqZ) (Qmake z 2)) (inject_Z z).
Proof. unfold Qeq; cbn -[Z.mul]; lia. Qed.
Example C72_hypotheses_met : forall z,
  [/\ numpy_ok first_numpy (inject_Z Z0) (inject_Z Z0), order_ok first_numpy, has_denominator 2 (inv_k z),
      lists_space_group inv_rots inv_trans /\ (forall t, In t inv_trans -> veq t vzero) &
      (exists L, get_spacegroup_irreps_from_primitive_symmetry first_numpy inv_rots inv_trans (inv_k z) false "Neto"
         (inject_Z Z0) (inject_Z Z0) 2 = COk (unit_arr algCF 2 :: L, [:: 0; 1]%N, true)) /\
      exists L, get_spacegroup_irreps_from_primitive_symmetry first_numpy inv_rots inv_trans (inv_k z) false "random"
         (inject_Z Z0) (inject_Z Z0) 1 = COk (unit_arr algCF 2 :: L, [:: 0; 1]%N, true)].
Proof.
move=> z; have [SG FK M sp W0] := inv_facts z.
have NO : numpy_ok first_numpy (inject_Z Z0) (inject_Z Z0) by have [h1 h2 h3] := ex_numpy_ok; split.
have OO : order_ok first_numpy by split=> // m m0; rewrite /= rootC1.
have HD : has_denominator 2 (inv_k z).
  split; [exists z|split; exists Z0] => //; exact: two_half.
have W1 t : In t inv_trans -> veq t vzero by case=> [<-|[<-|[]]]; split; [|split| |split].
have little L inds method mx : enumerate_small_representations first_numpy inv_rots inv_trans (inv_k z) false method
    (inject_Z Z0) (inject_Z Z0) mx = COk (L, inds, true) ->
  get_spacegroup_irreps_from_primitive_symmetry first_numpy inv_rots inv_trans (inv_k z) false method
    (inject_Z Z0) (inject_Z Z0) mx = COk (L, [:: 0; 1]%N, true).
  case EL: (get_little_group inv_rots inv_trans (inv_k z) (inject_Z Z0)) => [[lr lt] lm] res.
  have [Hs [Hm [Er Et]]] := little_group_spec _ _ _ _ _ _ _ (sg_len _ _ SG) EL.
  have elm : lm = [:: 0; 1]%N.
    apply: sorted_unique => //; first by repeat constructor.
    move=> i; rewrite Hm; split=> [[h _]|h]; first by rewrite /= in h *; lia.
    have hi : (i < List.length inv_rots)%coq_nat by rewrite /= in h *; lia.
    split=> //; apply: (proj2 (keeps_kpoint_exact 2 (inject_Z Z0) (inv_k z) _ HD (Qle_refl _) _)) => //.
    by apply: FK; apply: nth_In.
  rewrite /get_spacegroup_irreps_from_primitive_symmetry EL (_ : not_primitive _ _ _ = false); last by vm_compute.
  subst lm; have Er' : lr = inv_rots := Er; have Et' : lt = inv_trans := Et.
  by rewrite Er' Et' res.
have fin method mx L inds : method_ok first_numpy inv_rots method -> enumerate_small_representations first_numpy inv_rots inv_trans
    (inv_k z) false method (inject_Z Z0) (inject_Z Z0) mx = COk (L, inds, true) ->
  exists L', get_spacegroup_irreps_from_primitive_symmetry first_numpy inv_rots inv_trans (inv_k z) false method
    (inject_Z Z0) (inject_Z Z0) mx = COk (unit_arr algCF 2 :: L', [:: 0; 1]%N, true).
  move=> mok /little res.
  have a3 : Qle (inject_Z Z0) (Qmake 1 3) by [].
  have da : Qlt (Qmult (inject_Z 2%coqZ) (inject_Z Z0)) (inject_Z 1%coqZ) by [].
  have [L' EL] := C72_space_groups (lm := [:: 0; 1]%N) NO OO (Qle_refl _) a3 da SG HD (or_intror W1) mok res.
  by exists L'; rewrite res EL.
split=> //; split.
  have [L H] := @C56_symmorphic_returns _ first_numpy inv_rots inv_trans (inv_k z) _ _ _ _ NO (Qeq_refl _) (fun _ _ => erefl) SG FK M sp W0.
  by have [inds res] := ri_result H; apply: fin res; left.
have ce := or_cexp (no_oracles NO).
have mu1 i j : little_factor_system first_numpy inv_rots inv_trans (inv_k z) i j = 1.
  by apply: (exp_zero_any ce); rewrite /factor_phase (W0 j) /vdot /=; ring.
have [As [h ci]] := @C25_succeeds_on_z2 algCF (@numpy_le algCF) 1 isT.
suff [L H] : exists L, returns_irreps first_numpy inv_rots inv_trans (inv_k z) (tget ex_z2) 0 "random" (inject_Z Z0) (inject_Z Z0) 1 L.
  by have [inds res] := ri_result H; apply: fin res; right.
apply: (symmorphic_returned NO (Qeq_refl _) SG FK M _ W0) => // [|_]; first by right.
exists As; rewrite /raw_irreps /= /get_projective_regular_representation.
rewrite -[[:: [:: 0; 1]; _]%N]/ex_z2 qC0; set reg := regular_mats _ _ _.
have -> : reg = regular_mats ex_z2 (@ex_one algCF) 2; last by rewrite h.
apply: (@eq_from_nth _ 0); first by rewrite !size_map.
move=> m; rewrite size_map size_iota => m2; apply/matrixP => i j.
by rewrite -[LHS]/(aget (Arr reg) m i j) -[RHS]/(aget (Arr (regular_mats ex_z2 (@ex_one algCF) 2)) m i j) /reg !regE // mu1.
Qed.
Print Assumptions C72_hypotheses_met.
