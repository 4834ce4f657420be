(** Property C56: the small representations do not depend on the method, the random numbers,
    the origin, the basis, the order of the operations or the choice of the k-point modulo
    reciprocal lattice vectors. *)
From Coq Require Import QArith ZArith List String Lia.
From mathcomp Require Import all_ssreflect all_algebra all_fingroup algC.
From Verif Require Import Py Mat3 MatQ GroupSpec GroupModel GroupProofs PointGroupData PointGroupModel ChainSpec
  RepSpec RepTheory IndexRepSpec RepModel IndexGroup CExpSpec ExpInstance ChainModel RepProofs GaugeTheory PurifyTheory RealDrop
  SmallModel SmallSpec SmallTheory SmallExamples AgreeExamples ClaimsChain ClaimsRandom ClaimsSmall DimTheory AgreeTheory AgreeSpec.
Import Order.TTheory GRing.Theory Num.Theory.
Set Implicit Arguments.
Unset Strict Implicit.
Unset Printing Implicit Defensive.
Local Open Scope ring_scope.

Lemma returned_complete (C : numClosedFieldType) (E : numpy C) rots trans k mul e method rtol atol max_num L :
  returns_irreps E rots trans k mul e method rtol atol max_num L ->
  exists2 L', complete_list rots mul e (bloch_factor (np_exp E) rots trans k mul) L' & near_list (qC C atol) L L'.
Proof.
case=> NO A3 SG FK M W0 mok [inds h].
have := C27_small_representations max_num NO A3 SG FK M W0 mok; cbv zeta; rewrite h.
by case=> [[]//|[]//|[]//|[L1 [L' [inds' [[<- _] cl nr _]]]]]; exists L'.
Qed.
Lemma same_from_complete (C : numClosedFieldType) n mul e (mu : nat -> nat -> C)
    (T : forall d, (nat -> 'M[C]_d) -> nat -> 'M[C]_d) (L L' : seq (arr C)) :
  complete_irreps n mul e mu (size L) (fun k => T _ (aget (arr_nth L k))) ->
  complete_irreps n mul e mu (size L') (fun k => aget (arr_nth L' k)) -> same_irreps n T L L'.
Proof.
move=> cD cD'; have [s [h1 h2]] := complete_match cD cD'.
have Es := complete_size cD cD'.
exists s; split.
- by move=> k kN; have [sk eq] := h1 k kN; split=> //; exact: iequivalent_dim eq.
- by move=> k /h1 [].
- exact: h2.
move=> l lN.
have := uniq_min_size (s1 := map s (iota 0 (size L))) (s2 := iota 0 (size L')).
rewrite map_inj_in_uniq ?iota_uniq; last by move=> k m; rewrite !mem_iota !add0n /=; exact: h2.
case=> //.
- by move=> x /mapP [k]; rewrite !mem_iota !add0n /= => kN ->; have [] := h1 k kN.
- by rewrite size_map !size_iota Es.
move=> _ Ei; have := Ei l; rewrite mem_iota add0n /= lN => /mapP [k]; rewrite mem_iota add0n /= => kN ->.
by exists k.
Qed.
Lemma complete_mu (C : numClosedFieldType) n mul e (mu nu : nat -> nat -> C) N dim (D : forall k, nat -> 'M[C]_(dim k)) :
  (forall i j, (i < n)%N -> (j < n)%N -> mu i j = nu i j) ->
  complete_irreps n mul e mu N D -> complete_irreps n mul e nu N D.
Proof.
move=> E [h1 h2 h3 h4 h5 h6 h7].
split=> // [k kN|d F [f1 f2] iF].
  by have [a b] := h1 k kN; split=> // i j hi hj; rewrite b // E.
by apply: h6 => //; split=> // i j hi hj; rewrite f2 // E.
Qed.

(* ---------- C56 ---------- *)
(** Neto or random, and any random numbers: the same irreps up to order and equivalence. *)
Theorem C56_methods_agree : forall (C : numClosedFieldType) (E E' : numpy C) rots trans k mul e method method' rtol rtol' atol atol' mx mx' L L',
  (forall q, np_exp E q = np_exp E' q) ->
  returns_irreps E rots trans k mul e method rtol atol mx L ->
  returns_irreps E' rots trans k mul e method' rtol' atol' mx' L' ->
  agree (size rots) (fun _ D => D) (qC C atol) (qC C atol') L L'.
Proof.
move=> C E E' rots trans k mul e method method' rtol rtol' atol atol' mx mx' L L' ee r1 r2.
have [L1 [_ c1] n1] := returned_complete r1; have [L2 [_ c2] n2] := returned_complete r2.
exists L1, L2; split=> //; apply: same_from_complete c1 _.
by apply: complete_mu c2 => i j _ _; rewrite /bloch_factor ee.
Qed.
Print Assumptions C56_methods_agree.

(** A k-point and its translate by a reciprocal lattice vector. *)
Theorem C56_reciprocal_period : forall (C : numClosedFieldType) (E : numpy C) rots trans k k' mul e method method' rtol rtol' atol atol' mx mx' L L',
  vint (vsub k' k) ->
  returns_irreps E rots trans k mul e method rtol atol mx L ->
  returns_irreps E rots trans k' mul e method' rtol' atol' mx' L' ->
  agree (size rots) (fun _ D => D) (qC C atol) (qC C atol') L L'.
Proof.
move=> C E rots trans k k' mul e method method' rtol rtol' atol atol' mx mx' L L' kk r1 r2.
have [L1 [_ c1] n1] := returned_complete r1; have [L2 [_ c2] n2] := returned_complete r2.
exists L1, L2; split=> //; apply: same_from_complete c1 _.
have ce := or_cexp (no_oracles (ri_numpy r1)).
apply: complete_mu c2 => i j hi hj; rewrite /bloch_factor; apply: (cexp_opp_diff ce).
have M := ri_mult r1; have SG := ri_group r1.
have lt x : (x < size rots)%N -> (x < List.length rots)%coq_nat by move/ssrnat.ltP.
have vi : vint (lattice_shift rots trans mul i j) := sg_closed _ _ SG i j (mul i j) (lt _ hi) (lt _ hj) (lt _ (mt_lt M hi hj)) (mt_mul M hi hj).
apply: qint_eq (qint_dot _ _ kk vi); rewrite vdot_sub_l; ring.
Qed.
Print Assumptions C56_reciprocal_period.

(** The translations are known only modulo the lattice: another choice w' = w + t multiplies
    the matrices by exp(-2 pi i k.t). *)
Theorem C56_lattice_translations : forall (C : numClosedFieldType) (E : numpy C) rots trans trans' k mul e method method' rtol rtol' atol atol' mx mx' L L',
  returns_irreps E rots trans k mul e method rtol atol mx L ->
  returns_irreps E rots trans' k mul e method' rtol' atol' mx' L' ->
  (forall i, (i < size rots)%N -> vint (vsub (List.nth i trans' vzero) (List.nth i trans vzero))) ->
  agree (size rots) (fun _ D i => np_exp E (Qopp (vdot k (vsub (List.nth i trans' vzero) (List.nth i trans vzero)))) *: D i)
    (qC C atol) (qC C atol') L L'.
Proof.
move=> C E rots trans trans' k mul e method method' rtol rtol' atol atol' mx mx' L L' r1 r2 tt.
have [L1 [_ c1] n1] := returned_complete r1; have [L2 [_ c2] n2] := returned_complete r2.
exists L1, L2; split=> //; apply: same_from_complete c2.
have ce := or_cexp (no_oracles (ri_numpy r1)).
have M := ri_mult r1.
apply: (gauge_complete (mt_lt M) _ _ _ c1) => [|i hi|i j hi hj].
- rewrite -(cexp0 ce); apply: (ce_eq ce); rewrite (ri_unit r1) (ri_unit r2) /vdot /=; ring.
- exact: (ce_norm ce).
rewrite /bloch_factor -!(ce_add ce); apply: (cexp_diff ce).
have fk : fixes_kpoint k (List.nth i rots mid) by apply: (ri_fixes r1); apply: List.nth_In; apply/ssrnat.ltP.
have h := qint_dot _ _ fk (tt j hj).
apply: qint_eq (qint_opp _ h).
rewrite /lattice_shift !vdot_sub_l !vdot_sub_r !vdot_add_r !vdot_mtvec; ring.
Qed.
Print Assumptions C56_lattice_translations.

(** Another origin: w_i' = w_i + R_i p - p. *)
Theorem C56_origin : forall (C : numClosedFieldType) (E : numpy C) rots trans trans' p k mul e method method' rtol rtol' atol atol' mx mx' L L',
  returns_irreps E rots trans k mul e method rtol atol mx L ->
  returns_irreps E rots trans' k mul e method' rtol' atol' mx' L' ->
  (forall i, (i < size rots)%N ->
     veq (List.nth i trans' vzero) (vadd (List.nth i trans vzero) (vsub (mvec (List.nth i rots mid) p) p))) ->
  agree (size rots) (fun _ D => D) (qC C atol) (qC C atol') L L'.
Proof.
move=> C E rots trans trans' p k mul e method method' rtol rtol' atol atol' mx mx' L L' r1 r2 tt.
have [L1 [_ c1] n1] := returned_complete r1; have [L2 [_ c2] n2] := returned_complete r2.
exists L1, L2; split=> //; apply: same_from_complete c1 _.
have ce := or_cexp (no_oracles (ri_numpy r1)); have M := ri_mult r1.
apply: complete_mu c2 => i j hi hj; apply: (ce_eq ce).
rewrite /lattice_shift (tt i hi) (tt j hj) (tt _ (mt_lt M hi hj)) (mt_mul M hi hj).
have key (a b : mat) (u v w : vec) : veq (vsub (vadd (mvec a (vadd v (vsub (mvec b p) p))) (vadd u (vsub (mvec a p) p)))
    (vadd w (vsub (mvec (mmul a b) p) p))) (vsub (vadd (mvec a v) u) w).
  clear; destruct a, b, u, v, w, p; repeat split; cbn -[Z.mul Z.add Qmult Qplus Qminus inject_Z];
    rewrite ?inject_Z_plus ?inject_Z_mult; ring.
by rewrite key.
Qed.
Print Assumptions C56_origin.

(** The opposite k-point: the complex conjugate matrices. *)
Theorem C56_opposite_kpoint : forall (C : numClosedFieldType) (E : numpy C) rots trans k k' mul e method method' rtol rtol' atol atol' mx mx' L L',
  veq (vadd k k') vzero ->
  returns_irreps E rots trans k mul e method rtol atol mx L ->
  returns_irreps E rots trans k' mul e method' rtol' atol' mx' L' ->
  agree (size rots) (fun _ D i => map_mx conjC (D i)) (qC C atol) (qC C atol') L L'.
Proof.
move=> C E rots trans k k' mul e method method' rtol rtol' atol atol' mx mx' L L' kk r1 r2.
have [L1 [_ c1] n1] := returned_complete r1; have [L2 [_ c2] n2] := returned_complete r2.
exists L1, L2; split=> //; apply: same_from_complete c2.
have ce := or_cexp (no_oracles (ri_numpy r1)).
apply: conj_complete c1 => i j hi hj; rewrite /bloch_factor; set t := lattice_shift _ _ _ _ _.
apply: (mulIf (x := np_exp E (Qopp (vdot k t)))); first by rewrite -normr_eq0 (ce_norm ce) oner_eq0.
rewrite (cexp_conj ce) -(ce_add ce) -(cexp0 ce); apply: (ce_eq ce).
have h : Qeq (vdot (vadd k k') t) (inject_Z 0%coqZ) by rewrite kk /vdot /=; ring.
transitivity (Qopp (vdot (vadd k k') t)); last by rewrite h.
rewrite /vdot /=; ring.
Qed.
Print Assumptions C56_opposite_kpoint.

(** Another basis of the lattice, or another arm of the star: R' P = P R, w' = P w and
    k = P^T k'. *)
Theorem C56_basis : forall (C : numClosedFieldType) (E : numpy C) P rots rots' trans trans' k k' mul e method method' rtol rtol' atol atol' mx mx' L L',
  returns_irreps E rots trans k mul e method rtol atol mx L ->
  returns_irreps E rots' trans' k' mul e method' rtol' atol' mx' L' ->
  size rots' = size rots ->
  (forall i, (i < size rots)%N -> qmeq (qmul (qofz (List.nth i rots' mid)) P) (qmul P (qofz (List.nth i rots mid)))) ->
  (forall i, (i < size rots)%N -> veq (List.nth i trans' vzero) (qvec P (List.nth i trans vzero))) ->
  veq (qtvec P k') k ->
  agree (size rots) (fun _ D => D) (qC C atol) (qC C atol') L L'.
Proof.
move=> C E P rots rots' trans trans' k k' mul e method method' rtol rtol' atol atol' mx mx' L L' r1 r2 sz rr tt kk.
have [L1 [_ c1] n1] := returned_complete r1; have [L2 [_ c2] n2] := returned_complete r2.
exists L1, L2; split=> //; apply: same_from_complete c1 _; rewrite sz in c2.
have ce := or_cexp (no_oracles (ri_numpy r1)); have M := ri_mult r1.
apply: complete_mu c2 => i j hi hj; apply: (ce_eq ce); rewrite -kk vdot_qtvec.
have -> : veq (lattice_shift rots' trans' mul i j) (qvec P (lattice_shift rots trans mul i j)); last by [].
rewrite /lattice_shift (tt i hi) (tt j hj) (tt _ (mt_lt M hi hj)) qvec_sub qvec_add.
by rewrite -!qofz_vec -!qvec_mul (rr i hi).
Qed.
Print Assumptions C56_basis.

(** The operations in another order. *)
Theorem C56_order : forall (C : numClosedFieldType) (E : numpy C) q p rots rots' trans trans' k mul mul' e e' method method' rtol rtol' atol atol' mx mx' L L',
  returns_irreps E rots trans k mul e method rtol atol mx L ->
  returns_irreps E rots' trans' k mul' e' method' rtol' atol' mx' L' ->
  size rots' = size rots ->
  (forall i, (i < size rots)%N -> [/\ (q i < size rots)%N, (p i < size rots)%N, p (q i) = i & q (p i) = i]) ->
  (forall i, (i < size rots)%N -> List.nth i rots' mid = List.nth (q i) rots mid) ->
  (forall i, (i < size rots)%N -> veq (List.nth i trans' vzero) (List.nth (q i) trans vzero)) ->
  agree (size rots) (fun _ D i => D (q i)) (qC C atol) (qC C atol') L L'.
Proof.
move=> C E q p rots rots' trans trans' k mul mul' e e' method method' rtol rtol' atol atol' mx mx' L L' r1 r2 sz qp rr tt.
have [L1 [_ c1] n1] := returned_complete r1; have [L2 [_ c2] n2] := returned_complete r2.
rewrite sz in c2; exists L1, L2; split=> //; apply: same_from_complete c2.
have ce := or_cexp (no_oracles (ri_numpy r1)); have M := ri_mult r1; have M' := ri_mult r2.
have LG := sg_rots _ _ (ri_group r1).
have qn i : (i < size rots)%N -> (q i < size rots)%N by case/qp.
have en : (e' < size rots)%N by rewrite -sz; exact: mt_e M'.
have cl i j : (i < size rots)%N -> (j < size rots)%N -> (mul' i j < size rots)%N.
  by move=> hi hj; rewrite -sz; apply: (mt_lt M'); rewrite sz.
have qm i j : (i < size rots)%N -> (j < size rots)%N -> q (mul' i j) = mul (q i) (q j).
  move=> hi hj; apply: (nth_rots_inj LG); rewrite ?qn ?cl //; first by apply: (mt_lt M); exact: qn.
  by rewrite -rr ?cl // (mt_mul M') ?sz // !rr // (mt_mul M) ?qn.
apply: (relabel_complete (mul := mul) (mu := bloch_factor (np_exp E) rots trans k mul) (p := p)) c1 => //.
- by move=> i /qp [].
- by move=> i /qp [].
- by move=> i /qp [].
- apply: (nth_rots_inj LG); rewrite ?qn //; first exact: mt_e M.
  by rewrite -rr // (mt_id M') (mt_id M).
move=> i j hi hj; apply: (ce_eq ce); rewrite /lattice_shift (tt i hi) (tt j hj) (tt _ (cl _ _ hi hj)) rr //.
by rewrite qm.
Qed.
Print Assumptions C56_order.

(** The calls do return: for every little group all of whose translations are zero, the
    Neto method with exact arithmetic and the matrix units as random draws returns irreps. *)
Lemma unlucky_ext (C : numClosedFieldType) n (rnd rnd' : nat -> forall d, 'M[C]_d) atol mx :
  (forall t d, rnd t d = rnd' t d) -> unlucky_samples n rnd atol mx -> unlucky_samples n rnd' atol mx.
Proof.
move=> E [m [d [U [h1 h2 h3 h4]]]]; exists m, d, U; split=> // t ht; rewrite -E; exact: h4.
Qed.
Lemma symmorphic_returned (C : numClosedFieldType) (E : numpy C) rots trans k mul e method rtol atol mx :
  numpy_ok E rtol atol -> Qeq atol (inject_Z Z0) ->
  lists_space_group rots trans -> (forall r, List.In r rots -> fixes_kpoint k r) ->
  multiplication rots mul e -> method_ok E rots method -> (forall i, veq (List.nth i trans vzero) vzero) ->
  (method = "Neto"%string -> ~ unlucky_samples (size rots) (np_rnd E) 0 mx) ->
  (method = "random"%string -> exists As,
     raw_irreps E method rots (little_factor_system E rots trans k) rtol atol mx = COk (As, true)) ->
  exists L, returns_irreps E rots trans k mul e method rtol atol mx L.
Proof.
move=> NO A0 SG FK M mok W0 lucky rand.
have A3 : Qle atol (Qmake 1 3) by rewrite A0.
have q0 : qC C atol = 0 by rewrite (qC_eq C A0) qC0.
have ce := or_cexp (no_oracles NO).
have ph q : Qeq q (inject_Z Z0) -> np_exp E (Qopp q) = 1 by move=> h; rewrite -(cexp0 ce); apply: (ce_eq ce); rewrite h.
have mu1 i j : little_factor_system E rots trans k i j = 1.
  by apply: ph; rewrite /factor_phase (W0 j) /vdot /=; ring.
have fs := little_fs ce SG FK M; have LG := sg_rots _ _ SG.
have sm : (size rots)%:R * (2%:R * qC C atol + qC C atol ^+ 2) < 2%:R^-1.
  by rewrite q0 mulr0 expr2 mulr0 addr0 mulr0 invr_gt0 ltr0n.
case: (C51_real_factor_system mx NO A3 sm LG M fs _ mok) => [i j _ _|[_ [em h]]|[h em]|[L [L' [inds [h [cl _] nr _ _]]]]].
- by rewrite mu1 rpred1.
- by rewrite q0 in h; case: (lucky em).
- have [As hA] := rand em; move: h; rewrite /enumerate_unitary_irreps hA /=; by case: cmap.
have EL : [seq apply_phases E trans k A | A <- L] = L.
  rewrite q0 in nr; rewrite -(near_list0 nr) in cl.
  apply: (@eq_from_nth _ (@Arr C 0 [::])); rewrite ?size_map // => m hm; rewrite (nth_map (@Arr C 0 [::])) //.
  have := cl m hm; rewrite /arr_nth; case: (nth _ L m) => d ms; rewrite /aorder /apply_phases /= => sz; congr Arr.
  have st : size trans = size rots by exact: sg_len SG.
  apply: (@eq_from_nth _ 0); first by rewrite size_map size_zip sz st minnn.
  move=> i; rewrite size_map size_zip sz st minnn => hi; rewrite (nth_map (0, vzero)) ?size_zip ?sz ?st ?minnn // nth_zip ?sz ?st //=.
  rewrite ph ?scale1r //; have -> : nth vzero trans i = List.nth i trans vzero by elim: (trans) (i) => [|x l IH] [|m'] //=.
  by rewrite (W0 i) /vdot /=; ring.
exists L; split=> //; exists inds; rewrite /enumerate_small_representations h /= EL.
have : exists raw, raw_irreps E method rots (little_factor_system E rots trans k) rtol atol mx = COk raw /\
    [seq purify_irrep_value E (qC C atol) A | A <- raw.1] = L /\
    cmap (fun A => clift (frobenius_schur_indicator (np_int E) A)) [seq purify_irrep_value E (qC C atol) A | A <- raw.1] = COk inds.
  move: h; rewrite /enumerate_unitary_irreps; case: raw_irreps => [raw||| ] //= h; exists raw; split=> //.
  by move: h; case: cmap => //= is' [-> -> _].
by case=> raw [_ [-> ->]].
Qed.
Theorem C56_symmorphic_returns : forall (C : numClosedFieldType) (E : numpy C) rots trans k mul e rtol atol,
  numpy_ok E rtol atol -> Qeq atol (inject_Z Z0) -> (forall t d, np_rnd E t d = @unit_draw C t d) ->
  lists_space_group rots trans -> (forall r, List.In r rots -> fixes_kpoint k r) ->
  multiplication rots mul e -> spglib_ok E rots -> (forall i, veq (List.nth i trans vzero) vzero) ->
  exists L, returns_irreps E rots trans k mul e "Neto" rtol atol (size rots) L.
Proof.
move=> C E rots trans k mul e rtol atol NO A0 rnd SG FK M sp W0.
apply: (symmorphic_returned NO A0 SG FK M _ W0) => // [|_ h]; first by left.
by case: (@unit_draw_lucky C (size rots)); apply: unlucky_ext h.
Qed.
Print Assumptions C56_symmorphic_returns.

(** Both methods return on the group of the inversion at k = (1/2,0,0); its images
    (-1/2,0,0) under translation and inversion are different k-points. *)
Definition inv_rots : list mat := [:: mid; mneg mid].
Definition inv_trans : list vec := [:: vzero; vzero].
Definition inv_k (z : Z) : vec := Vec (Qmake z 2) (inject_Z Z0) (inject_Z Z0).
Definition inv_numpy : numpy algCF :=
  {| np_around := id; np_powinv := fun z m => m.-root z; np_nroot := fun z m => m.-root z; np_rnd := @unit_draw algCF;
     np_exp := @cexp_inst algCF; np_eigh := @ex_eigh algCF; np_qr := fun _ _ A => A; np_hrnd := @ex_hrnd algCF;
     np_key_le := fun _ _ => true; np_int := fun z => floorC ('Re z + 2%:R^-1); np_eig := fun n _ => ([::], 0);
     spglib_pointgroup := fun _ => ("-1"%string, qid) |}.
Example inv_numpy_ok : numpy_ok inv_numpy (inject_Z Z0) (inject_Z Z0).
Proof. by have [h1 h2 h3] := ex_numpy_ok; split. Qed.
Lemma inv_facts z : [/\ lists_space_group inv_rots inv_trans, forall r, List.In r inv_rots -> fixes_kpoint (inv_k z) r,
  multiplication inv_rots (tget ex_z2) 0, spglib_ok inv_numpy inv_rots & forall i, veq (List.nth i inv_trans vzero) vzero].
Proof.
have LG : lists_group inv_rots.
  split.
  - by repeat constructor=> //; rewrite /=; case.
  - by left.
  - by move=> a b [<-|[<-|[]]] [<-|[<-|[]]]; vm_compute; auto.
  by move=> a [<-|[<-|[]]]; [exists mid|exists (mneg mid)]; vm_compute; auto.
have W i : veq (List.nth i inv_trans vzero) vzero by case: i => [|[|[|i]]]; vm_compute.
split=> //.
- split=> //; move=> i j l _ _ _ _; apply: (vint_eq vzero); last exact: vint_0.
  by rewrite !W; move: (List.nth i _ _) => -[]; intros; repeat split; cbn -[Qmult Qplus Qminus inject_Z]; ring.
- move=> r [<-|[<-|[]]]; rewrite /fixes_kpoint.
    apply: (vint_eq vzero); last exact: vint_0.
    by repeat split; cbn -[Qmult Qplus Qminus inject_Z]; ring.
  apply: (vint_eq (Vec (inject_Z (Z.opp z)) (inject_Z Z0) (inject_Z Z0))); last by repeat split; apply: qint_Z.
  by repeat split; cbn -[Qmult Qplus Qminus inject_Z]; rewrite ?inject_Z_opp ?Qmake_Qdiv; field.
- by split=> //; [move=> [|[|]] // [|[|]]|move=> [|[|]] // [|[|]]].
split; first by vm_compute.
  move=> r hr; apply: (qintegral_eq (qofz r)); last exact: qofz_integral.
  have q1 : qmeq (qinv qid) qid by vm_compute.
  by apply: qmeq_sym; rewrite -> q1, qmul_1l, qmul_1r; exact: qmeq_refl.
eexists; exists inv_rots; split; [reflexivity|by vm_compute; auto|].
have -> : List.map (conj_round qid) inv_rots = inv_rots by vm_compute.
exact: Permutation.Permutation_refl.
Qed.
Example C56_hypotheses_met : forall z, (exists L, returns_irreps inv_numpy inv_rots inv_trans (inv_k z) (tget ex_z2) 0 "Neto" (inject_Z Z0) (inject_Z Z0) 2 L) /\
  exists L, returns_irreps inv_numpy inv_rots inv_trans (inv_k z) (tget ex_z2) 0 "random" (inject_Z Z0) (inject_Z Z0) 1 L.
Proof.
move=> z; have [SG FK M sp W0] := inv_facts z; have NO := inv_numpy_ok; split.
  exact: (@C56_symmorphic_returns _ inv_numpy inv_rots inv_trans (inv_k z) _ _ _ _ NO (Qeq_refl _) (fun _ _ => erefl) SG FK M sp W0).
have ce := or_cexp (no_oracles NO).
have ph q : Qeq q (inject_Z Z0) -> np_exp inv_numpy (Qopp q) = 1 by move=> h; rewrite -(cexp0 ce); apply: (ce_eq ce); rewrite h.
have mu1 i j : little_factor_system inv_numpy inv_rots inv_trans (inv_k z) i j = 1.
  by apply: ph; rewrite /factor_phase (W0 j) /vdot /=; ring.
have [As [h ci]] := @C25_succeeds_on_z2 algCF (fun _ _ => true) 1 isT.
apply: (symmorphic_returned NO (Qeq_refl _) SG FK M _ W0) => // [|_]; first by right.
exists As; rewrite /raw_irreps /= /get_projective_regular_representation.
rewrite -[[:: [:: 0; 1]; _]%N]/ex_z2 qC0; set reg := regular_mats _ _ _.
have -> : reg = regular_mats ex_z2 (@ex_one algCF) 2; last by rewrite h.
apply: (@eq_from_nth _ 0); first by rewrite !size_map.
move=> m; rewrite size_map size_iota => m2; apply/matrixP => i j.
by rewrite -[LHS]/(aget (Arr reg) m i j) -[RHS]/(aget (Arr (regular_mats ex_z2 (@ex_one algCF) 2)) m i j) /reg !regE // mu1.
Qed.
Print Assumptions C56_hypotheses_met.

(** Whether the call returns depends on the choice of the origin: I2_12_12_1 at the k-point
    (1/4,1/4,1/4) in its primitive cell, with the translations of [i2_trans], fails the
    indicator check (C51); with the origin moved by (1/4,1/4,1/4) the same call returns. *)
Definition i2_p : vec := Vec (Qmake 1 4) (Qmake 1 4) (Qmake 1 4).
Definition i2_moved : list vec :=
  [:: vzero; Vec (inject_Z Z0) (Qmake 1 2) (Qmake (-1) 2); Vec (Qmake 1 2) (Qmake (-1) 2) (inject_Z Z0); Vec (Qmake (-1) 2) (inject_Z Z0) (Qmake 1 2)].
Lemma i2_moved_group : lists_space_group i2_rots i2_moved /\
  forall i, (i < 4)%N -> veq (List.nth i i2_moved vzero) (vadd (List.nth i i2_trans vzero) (vsub (mvec (List.nth i i2_rots mid) i2_p) i2_p)).
Proof.
have tr i : (i < 4)%N -> veq (List.nth i i2_moved vzero) (vadd (List.nth i i2_trans vzero) (vsub (mvec (List.nth i i2_rots mid) i2_p) i2_p)).
  by case: i => [|[|[|[|//]]]] _; vm_compute.
split=> //; have [SG _] := i2_space_group; split; [by []|exact: sg_rots SG|].
move=> i j l /ssrnat.ltP hi /ssrnat.ltP hj /ssrnat.ltP hl E.
have h := sg_closed _ _ SG i j l (ssrnat.ltP hi) (ssrnat.ltP hj) (ssrnat.ltP hl) E.
apply: vint_eq h; rewrite (tr i hi) (tr j hj) (tr l hl) E.
move: (List.nth i i2_rots mid) (List.nth j i2_rots mid) (List.nth i i2_trans vzero) (List.nth j i2_trans vzero) (List.nth l i2_trans vzero).
move=> a b u v w; destruct a, b, u, v, w; repeat split; cbn -[Z.mul Z.add Qmult Qplus Qminus inject_Z];
    rewrite ?inject_Z_plus ?inject_Z_mult; ring.
Qed.
(** Irreps whose factor system anticommutes on two elements and has the squares 1, -1, -1, -1
    have the indicator -1. *)
Lemma i2_indicator (C : numClosedFieldType) (mu : nat -> nat -> C) (L : seq (arr C)) m :
  complete_list i2_rots i2_mul 0 mu L -> (m < size L)%N ->
  `|mu 2%N 1%N| = 1 -> mu 1%N 2%N = - mu 2%N 1%N -> mu 0%N 0%N = 1 -> (forall i, (0 < i < 4)%N -> mu i i = -1) ->
  fs_number (arr_nth L m) = -1.
Proof.
move=> [sz ci] mL n21 anti m0 diag; set A := arr_nth L m in sz *.
have [p1 p2] : iprojrep 4 i2_mul 0 mu (aget A) := ci_rep ci mL.
have u : iunitary 4 (aget A) := ci_unitary ci mL.
have [d0 _] := ci_irreducible ci mL; rewrite -/A in d0.
have d2 : (1 < adim A)%N.
  rewrite ltn_neqAle d0 andbT; apply/negP => /eqP d1.
  have comm (X Y : 'M[C]_(adim A)) : X *m Y = Y *m X by case: (adim A) / d1 X Y => X Y; rewrite [X]mx11_scalar scalar_mxC.
  have e12 := p2 1%N 2%N isT isT; rewrite comm p2 // anti in e12.
  have {e12} : (mu 2%N 1%N *+ 2) *: aget A 3 = 0.
    by rewrite mulr2n scalerDl; apply/eqP; rewrite addr_eq0 -scaleNr; apply/eqP.
  move/eqP; rewrite scaler_eq0 mulrn_eq0 /= -normr_eq0 n21 oner_eq0 /= => /eqP a3.
  have := u 3%N isT; rewrite a3 mul0mx => /(congr1 mxtrace); rewrite mxtrace0 mxtrace1 => /eqP.
  by rewrite eq_sym pnatr_eq0 -d1.
have sA : aorder A = 4%N := sz m mL.
have d22 : adim A = 2%N.
  apply/eqP; rewrite eqn_leq d2 andbT; have := ci_squares ci; rewrite (bigD1 (Ordinal mL)) //= -/A => hs.
  by rewrite -(@leq_exp2r _ _ 2) // -[(2 ^ 2)%N]/4%N; apply: leq_trans (leq_addr _ _) (eq_leq hs).
rewrite /fs_number sA (big_nth 0) big_mkord -/(aorder A) sA.
have tr g : (g < 4)%N -> \tr (nth 0 (amats A) g *m nth 0 (amats A) g) = mu g g *+ 2.
  move=> hg; have := p2 g g hg hg; rewrite /aget => ->.
  have -> : i2_mul g g = 0%N by case: g hg => [|[|[|[|//]]]].
  by have := p1; rewrite /aget => ->; rewrite mxtraceZ mxtrace1 d22 mulr_natr.
rewrite !big_ord_recl big_ord0 !tr //= m0 !diag // addr0.
by rewrite !mulNrn addrA addrN add0r -opprD -natrD mulNr mulfV // pnatr_eq0.
Qed.
Ltac small_z := solve [ exists Z0; vm_compute; reflexivity | exists (Zpos xH); vm_compute; reflexivity | exists (Zneg xH); vm_compute; reflexivity |
  exists (Zpos (xO xH)); vm_compute; reflexivity | exists (Zneg (xO xH)); vm_compute; reflexivity ].
Theorem C56_origin_refuted : forall (C : numClosedFieldType) (E : numpy C) rtol atol,
  numpy_ok E rtol atol -> Qeq atol (inject_Z Z0) -> (forall t d, np_rnd E t d = @unit_draw C t d) -> spglib_ok E i2_rots ->
  (forall i, (i < 4)%N -> veq (List.nth i i2_moved vzero) (vadd (List.nth i i2_trans vzero) (vsub (mvec (List.nth i i2_rots mid) i2_p) i2_p))) /\
  enumerate_small_representations E i2_rots i2_trans i2_k false "Neto" rtol atol 4 = CExn ValueError /\
  exists L, returns_irreps E i2_rots i2_moved i2_k i2_mul 0 "Neto" rtol atol 4 L.
Proof.
move=> C E rtol atol NO A0 rnd sp; have [SG tr] := i2_moved_group; split=> //.
have [_ FK] := i2_space_group; have M := i2_group.
have mok : method_ok E i2_rots "Neto" by left.
have q0 : qC C atol = 0 by rewrite (qC_eq C A0) qC0.
have lucky : ~ unlucky_samples 4 (np_rnd E) (qC C atol) 4.
  by rewrite q0 => h; case: (@unit_draw_lucky C 4); apply: unlucky_ext h.
have A1 : Qle atol (Qmake 1 100) by rewrite A0.
have A3 : Qle atol (Qmake 1 3) by rewrite A0.
have ce := or_cexp (no_oracles NO).
split; first by case: (C51_valid_little_group_refuted 4 NO A1 mok) => [//|[]//|[]//].
have W0 : veq (List.nth 0 i2_moved vzero) vzero by [].
have := C27_small_representations 4 NO A3 SG FK M W0 mok; cbv zeta.
case=> [[_ [_ /lucky []]]|[]//|[_ [A [A' [mu [L [muE cl hin nr big]]]]]]|[L [_ [inds [h _ _ _]]]]]; last first.
  by exists L; split=> //; exists inds.
exfalso; move: big; rewrite q0 in nr; rewrite (near0 nr).
have h2 : np_exp E (Qmake 1 2) = -1.
  have: np_exp E (Qmake 1 2) ^+ 2 = 1 by rewrite (cexpX ce); apply/(ce_int ce); exists (Zpos xH); vm_compute.
  move/eqP; rewrite sqrf_eq1 => /orP [/eqP /(ce_int ce) [z]|/eqP //].
  by rewrite /Qeq /= => hz; exfalso; lia.
have [m [mL <-]] : exists m, (m < size L)%N /\ arr_nth L m = A'.
  elim: (L) hin => //= B L' IH [->|/IH [m [hm e]]]; first by exists 0%N.
  by exists m.+1.
rewrite (@i2_indicator C mu L m) //.
- have := @round_near C (np_int E) (-1) (-1) (no_int NO).
  by rewrite rmorphN1 subrr normr0 invr_gt0 ltr0n => ->.
- by case: muE => ->; rewrite /bloch_factor /little_factor_system (ce_norm ce).
- by case: muE => ->; rewrite -mulN1r -h2 /bloch_factor /little_factor_system -(ce_add ce); apply: (cexp_diff ce); small_z.
- by case: muE => ->; rewrite /bloch_factor /little_factor_system -(cexp0 ce); apply: (cexp_diff ce); small_z.
by case=> [|[|[|[|//]]]] // _; case: muE => ->; rewrite -h2 /bloch_factor /little_factor_system; apply: (cexp_diff ce); small_z.
Qed.
Print Assumptions C56_origin_refuted.
Definition i2_numpy : numpy algCF :=
  {| np_around := id; np_powinv := fun z m => m.-root z; np_nroot := fun z m => m.-root z; np_rnd := @unit_draw algCF;
     np_exp := @cexp_inst algCF; np_eigh := @ex_eigh algCF; np_qr := fun _ _ A => A; np_hrnd := @ex_hrnd algCF;
     np_key_le := fun _ _ => true; np_int := fun z => floorC ('Re z + 2%:R^-1); np_eig := fun n _ => ([::], 0);
     spglib_pointgroup := fun _ => ("222"%string, i2_P) |}.
Example C56_origin_hypotheses_met : [/\ numpy_ok i2_numpy (inject_Z Z0) (inject_Z Z0), forall t d, np_rnd i2_numpy t d = @unit_draw algCF t d &
  spglib_ok i2_numpy i2_rots].
Proof.
split=> //; first by have [h1 h2 h3] := ex_numpy_ok; split.
by have [h1 [h2 [s [std [h3 [h4 h5]]]]]] := i2_setting; split=> //; exists s, std.
Qed.
Print Assumptions C56_origin_hypotheses_met.
