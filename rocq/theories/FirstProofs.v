(** The first irrep returned by the high-level functions is the identity representation. *)
From Coq Require Import QArith ZArith String Lia.
From Coq Require List.
From mathcomp Require Import all_ssreflect all_algebra all_fingroup.
From Verif Require Import Py Mat3 MatQ GroupModel GroupSpec GroupProofs PointGroupData PointGroupModel PointGroupSpec ChainModel ChainSpec
  RepSpec RepModel CExpSpec IndexRepSpec IndexGroup RepTheory RepProofs RandomModel RandomTheory SmallModel ClaimsPointGroup ClaimsChain ClaimsRandom
  PurifyTheory SmallSpec SmallTheory FirstSpec FirstChain FirstRandom.
Import Order.TTheory GRing.Theory Num.Theory.
Set Implicit Arguments.
Unset Strict Implicit.
Unset Printing Implicit Defensive.
Local Open Scope ring_scope.

Section Raw.
Variables (C : numClosedFieldType) (E : numpy C) (rtol atol : Q).
Hypothesis NO : numpy_ok E rtol atol.
Hypothesis root1 : forall m, (0 < m)%N -> np_powinv E 1 m = 1 /\ np_nroot E 1 m = 1.
Hypothesis keyE : forall a b, np_key_le E a b = numpy_le a b.
Variables (rots : list mat) (mul : nat -> nat -> nat) (e : nat).
Hypotheses (LG : lists_group rots) (M : multiplication rots mul e).
Local Notation n := (size rots).
Variable mu : nat -> nat -> C.
Hypothesis mu1 : forall i j, (i < n)%N -> (j < n)%N -> mu i j = 1.

Lemma unit_fs : ifactor_system n mul e mu.
Proof.
have [lt en] := (mt_lt M, mt_e M).
by split=> [i j k hi hj hk|i j hi hj|]; rewrite ?mu1 ?normr1 ?lt.
Qed.

Lemma raw_first method max_num L : method_ok E rots method ->
  raw_irreps E method rots mu rtol atol max_num = COk (L, true) -> exists L', L = unit_arr C n :: L'.
Proof.
move=> mok; have fs := unit_fs; have [t ht] := cayley_rot_total rots (lg_mul _ LG).
have Gt := mult_group_law_t LG M ht; have Et := mult_table LG M ht.
have Et' i j : (i < n)%N -> (j < n)%N -> mul i j = tget t i j by move=> hi hj; rewrite Et.
have fst : ifactor_system n (tget t) e mu by apply: fs_ext fs => //; exact: mt_lt M.
have O := no_oracles NO.
case: mok => [[Em sp]|Em]; rewrite /raw_irreps Em /=.
  rewrite ht /=; move: sp; rewrite /spglib_ok; case: spglib_pointgroup => sym P [d0 int [settings [std [hs hin hp]]]] /=.
  have ex : exists std, List.In std settings /\ Permutation.Permutation std (List.map (conj_round P) rots) by exists std.
  have [gens [t' [e' [h1 [h2 [h3 [h4 [h5 ch]]]]]]]] := C19_chain_any_basis_and_order sym P rots settings d0 LG int hs ex.
  have ee : e' = e by apply: (nth_rots_inj LG); [exact/ssrnat.ltP|exact: mt_e M|rewrite h4 (mt_id M)].
  move: h2; rewrite ht => -[tt]; rewrite h1 /=; subst t' e'.
  apply: (@chain_first n t e (cayley_wf _ _ ht) Gt C mu fst mu1 _ _ _ (np_rnd E) _ _ max_num (or_around O) (or_cpowinv O) (or_nroot O) (or_cexp O) (or_atol O) root1 gens L ch).
rewrite /get_projective_regular_representation ht /=.
set ms := regular_mats t mu n => Eo.
have sz : size ms = n by rewrite size_map size_iota.
have p' : iprojrep n (tget t) e mu (nth 0 ms).
  have rep := proj2 (reg_rep_iff Gt mu) (ifs_cocycle fst); split; last exact: rep.
  have en := e_lt Gt.
  apply/matrixP => i j; rewrite -/(aget (Arr ms) e) (@regE C n t mu e i j) // (mul1 Gt (ltn_ord j)).1 mxE.
  rewrite -[(_ == _ :> nat)%B]/(i == j)%B; case: eqP => // _.
  have mu1' := mu1x (ifs_fs Gt fst) (Ordinal (ltn_ord j) : igT Gt); rewrite /imu ival1 in mu1'; exact: mu1'.
have u' : iunitary n (nth 0 ms) := proj2 (reg_unitary_iff Gt mu) (ifs_norm fst).
have Er : enumerate_unitary_irreps_from_regular_representation (np_around E) (np_eigh E) (np_qr E) (np_hrnd E)
            (np_key_le E) (qC C rtol) ms max_num = Ret (L, true).
  by move: Eo; case: enumerate_unitary_irreps_from_regular_representation => // x [->].
have [h1 h2] := C25_random_sound_complete (no_numerics NO) Gt fst sz p' u' Er.
apply: (sorted_first Gt mu1 h1 h2) => i j.
move: Er; rewrite /enumerate_unitary_irreps_from_regular_representation; case: ifP => // _ [].
case: (regular_loopP (np_around E) (np_eigh E) (np_qr E) (np_hrnd E) (np_key_le E) (qC C rtol) ms max_num 0) => [[s [_ _ _ ->]]|[_ ->]] // [<-].
exact: irreps_sorted.
Qed.

Lemma purify_unit m : Qle atol (Qmake 1 3) -> purify_irrep_value E (qC C atol) (unit_arr C m) = unit_arr C m.
Proof.
move=> A3; have sep := special_sep (or_cexp (no_oracles NO)) (atol_third C A3).
rewrite /purify_irrep_value /amap /unit_arr /=; congr Arr; rewrite map_nseq; congr nseq.
apply/matrixP => i j; rewrite !ord1 !mxE eqxx; apply: (snap_fixed sep) => //.
by rewrite !inE eqxx orbT.
Qed.

Lemma unitary_first method max_num L inds : Qle atol (Qmake 1 3) -> method_ok E rots method ->
  enumerate_unitary_irreps E rots mu false method rtol atol max_num = COk (L, inds, true) -> exists L', L = unit_arr C n :: L'.
Proof.
move=> A3 mok; rewrite /enumerate_unitary_irreps.
case Er: raw_irreps => [[L0 b]|||] //=; case: cmap => [l|||] //= [<- _ Eb]; subst b.
have [L' ->] := raw_first mok Er; exists [seq purify_irrep_value E (qC C atol) A | A <- L'].
by rewrite /= purify_unit.
Qed.
End Raw.

Lemma vdot_zero_l u v : veq u vzero -> Qeq (vdot u v) (inject_Z Z0).
Proof. by move=> [h1 [h2 h3]]; rewrite /vdot h1 h2 h3 /=; ring. Qed.
Lemma vdot_zero_r u v : veq v vzero -> Qeq (vdot u v) (inject_Z Z0).
Proof. by move=> [h1 [h2 h3]]; rewrite /vdot h1 h2 h3 /=; ring. Qed.
Lemma residual_zero r k : veq k vzero -> veq (residual r k) vzero.
Proof.
move=> [h1 [h2 h3]]; rewrite /residual /veq /vsub /mtvec /=.
by split; [|split]; rewrite h1 h2 h3 /=; ring.
Qed.

Section Small.
Variables (C : numClosedFieldType) (E : numpy C) (rtol atol : Q).
Hypothesis NO : numpy_ok E rtol atol.
Hypothesis A3 : Qle atol (Qmake 1 3).
Hypothesis root1 : forall m, (0 < m)%N -> np_powinv E 1 m = 1 /\ np_nroot E 1 m = 1.
Hypothesis keyE : forall a b, np_key_le E a b = numpy_le a b.
Let ce := or_cexp (no_oracles NO).

Lemma exp_zero q : Qeq q (inject_Z Z0) -> np_exp E (Qopp q) = 1.
Proof. by move=> h; rewrite -(cexp0 ce); apply: (ce_eq ce); rewrite h. Qed.

Section OneGroup.
Variables (rots : list mat) (trans : list vec) (k : vec) (mul : nat -> nat -> nat) (e : nat).
Hypotheses (LG : lists_group rots) (M : multiplication rots mul e) (len : size trans = size rots).
Hypothesis flat : veq k vzero \/ forall t, List.In t trans -> veq t vzero.

Lemma flat_nth i : veq k vzero \/ veq (List.nth i trans vzero) vzero.
Proof.
case: flat => [h|h]; [by left|right].
have [hi|hi] := Nat.lt_ge_cases i (List.length trans); first by apply: h; exact: List.nth_In.
by rewrite List.nth_overflow.
Qed.
Lemma flat_factor i j : little_factor_system E rots trans k i j = 1.
Proof.
apply: exp_zero; case: (flat_nth j) => h; last exact: vdot_zero_r.
by apply: vdot_zero_l; exact: residual_zero.
Qed.
Lemma flat_phases : apply_phases E trans k (unit_arr C (size rots)) = unit_arr C (size rots).
Proof.
rewrite /apply_phases /unit_arr /=; congr Arr.
have ph t : List.In t trans -> np_exp E (Qopp (vdot k t)) = 1.
  by move=> ht; apply: exp_zero; case: flat => [h|h]; [exact: vdot_zero_l|apply: vdot_zero_r; exact: h].
rewrite -len; elim: trans ph => [|t l IH] //= ph; congr (_ :: _); last by apply: IH => t' ht; apply: ph; right.
by rewrite ph ?scale1r //; left.
Qed.

Lemma small_first method max_num L inds : method_ok E rots method ->
  enumerate_small_representations E rots trans k false method rtol atol max_num = COk (L, inds, true) ->
  exists L', L = unit_arr C (size rots) :: L'.
Proof.
move=> mok; rewrite /enumerate_small_representations.
case Er: enumerate_unitary_irreps => [[[L0 i0] b]|||] //=; case: cmap => [l|||] //= [<- _ Eb]; subst b.
have [L' ->] := unitary_first NO root1 keyE LG M (fun i j _ _ => flat_factor i j) A3 mok Er.
by exists [seq apply_phases E trans k A | A <- L']; rewrite /= flat_phases.
Qed.
End OneGroup.

(** The little group at a k-point with zero coordinates is the whole group. *)
Lemma primitive_first D rots trans k method max_num L lm :
  Qle (inject_Z Z0) atol -> Qlt (Qmult (inject_Z (Zpos D)) atol) (inject_Z 1) ->
  lists_space_group rots trans -> has_denominator D k -> veq k vzero \/ (forall t, List.In t trans -> veq t vzero) ->
  let lr := List.map (fun i => List.nth i rots mid) lm in
  method_ok E lr method ->
  get_spacegroup_irreps_from_primitive_symmetry E rots trans k false method rtol atol max_num = COk (L, lm, true) ->
  exists L', L = unit_arr C (size lm) :: L'.
Proof.
move=> Ap Da SG HD flat lr mok; case EL: (get_little_group rots trans k atol) => [[lr0 lt0] lm0].
have [SGl Hin] := SpaceGroupProofs.little_is_space_group _ _ _ _ _ _ _ _ SG HD Ap Da EL.
have [Hs [Hm [Er Et]]] := little_group_spec _ _ _ _ _ _ _ (sg_len _ _ SG) EL.
rewrite /get_spacegroup_irreps_from_primitive_symmetry EL; case: ifP => // _; case Es: enumerate_small_representations => [[[L0 i0] b]|||]; cbn [cbind fst snd] => // -[EL0 Elm Eb]; subst L0 lm0 b lr0 lt0.
have [mul [e M]] := mult_exists (sg_rots _ _ SGl).
have -> : size lm = size lr by rewrite -[size lr]/(List.length lr) List.map_length.
apply: (small_first (sg_rots _ _ SGl) M (sg_len _ _ SGl) _ mok Es).
case: flat => [h|h]; [by left|right] => t /List.in_map_iff [i [<- hi]].
have [hi' _] := proj1 (Hm i) hi; apply: h; apply: List.nth_In.
by have := sg_len _ _ SG; lia.
Qed.
End Small.
