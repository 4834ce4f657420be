(** Proofs about SmallModel: small representations. *)
From Coq Require Import QArith ZArith List Lia String Field.
From mathcomp Require Import all_ssreflect all_algebra all_fingroup.
From Verif Require Import FieldTac Py Mat3 MatQ GroupModel GroupSpec GroupProofs SpaceGroupProofs PointGroupModel PointGroupData ChainSpec
  RepSpec RepModel CExpSpec RepTheory IndexRepSpec IndexGroup ChainModel ChainTheory RandomModel RepProofs
  SmallModel PurifyTheory SmallSpec GaugeTheory ClaimsPointGroup ClaimsChain ClaimsRandom.
Import Order.TTheory GRing.Theory Num.Theory.
Set Implicit Arguments.
Unset Strict Implicit.
Unset Printing Implicit Defensive.
Local Open Scope ring_scope.

(** ** Multiplication of listed rotations *)
Section Mult.
Variables (rots : list mat) (mul : nat -> nat -> nat) (e : nat).
Hypotheses (LG : lists_group rots) (M : multiplication rots mul e).

Lemma nth_rots_inj i j : (i < size rots)%N -> (j < size rots)%N ->
  List.nth i rots mid = List.nth j rots mid -> i = j.
Proof. by move=> /ssrnat.ltP hi /ssrnat.ltP hj; apply: (proj1 (NoDup_nth rots mid)) => //; case: LG. Qed.

Lemma mult_table t : get_cayley_table rots = Ret t ->
  forall i j, (i < size rots)%N -> (j < size rots)%N -> tget t i j = mul i j.
Proof.
move=> /cayley_rot_spec [_ [_ h]] i j hi hj; apply: nth_rots_inj; rewrite ?(mt_lt M) //.
  by apply/ssrnat.ltP; case: (h i j); [exact/ssrnat.ltP|exact/ssrnat.ltP|].
by rewrite (mt_mul M) //; case: (h i j) => [||_ []] //; apply/ssrnat.ltP.
Qed.

Lemma mult_group_law_t t : get_cayley_table rots = Ret t -> group_law (size rots) (tget t) e.
Proof. by move=> h; apply: cayley_rot_group_law => //; [apply/ssrnat.ltP; exact: mt_e M|exact: mt_id M]. Qed.
End Mult.

Section Ext.
Variables (C : numClosedFieldType) (n : nat) (mul mul' : nat -> nat -> nat) (e : nat).
Hypothesis E : forall i j, (i < n)%N -> (j < n)%N -> mul i j = mul' i j.
Hypothesis cl : forall i j, (i < n)%N -> (j < n)%N -> (mul i j < n)%N.
Lemma group_law_ext : group_law n mul e -> group_law n mul' e.
Proof.
case=> h1 h2 h3 h4 h5 h6.
have E' i j : (i < n)%coq_nat -> (j < n)%coq_nat -> mul' i j = mul i j.
  by move=> /ssrnat.ltP hi /ssrnat.ltP hj; rewrite E.
split=> //.
- by move=> i j hi hj; rewrite E' //; apply: h1.
- by move=> i j k hi hj hk; rewrite !E' ?h2 // ?E' //; apply: h1.
- by move=> i hi; rewrite E' // h4.
- by move=> i hi; rewrite E' // h5.
- by move=> i hi; case: (h6 i hi) => j [hj [? ?]]; exists j; rewrite !E'.
Qed.
Lemma fs_ext (mu : nat -> nat -> C) : ifactor_system n mul e mu -> ifactor_system n mul' e mu.
Proof. by case=> h1 h2 h3; split=> // i j k hi hj hk; rewrite -!E // h1. Qed.
Lemma projrep_ext mu d (D : nat -> 'M[C]_d) : iprojrep n mul e mu D -> iprojrep n mul' e mu D.
Proof. by case=> h1 h2; split=> // i j hi hj; rewrite -E // h2. Qed.
End Ext.
Lemma complete_ext (C : numClosedFieldType) n mul mul' e mu N dim (D : forall k, nat -> 'M[C]_(dim k)) :
  (forall i j, (i < n)%N -> (j < n)%N -> mul i j = mul' i j) ->
  complete_irreps n mul e mu N D -> complete_irreps n mul' e mu N D.
Proof.
move=> E [h1 h2 h3 h4 h5 h6 h7]; split=> //.
- by move=> k kN; apply: projrep_ext (h1 k kN).
- by move=> d F pF iF; apply: h6 => //; apply: projrep_ext pF => i j hi hj; rewrite E.
Qed.
(** Only the values on the indices below n count. *)
Lemma complete_eq (C : numClosedFieldType) n mul e mu nu N dim (D D' : forall k, nat -> 'M[C]_(dim k)) :
  group_law n mul e ->
  (forall i j, (i < n)%N -> (j < n)%N -> mu i j = nu i j) ->
  (forall k i, (k < N)%N -> (i < n)%N -> D k i = D' k i) ->
  complete_irreps n mul e mu N D -> complete_irreps n mul e nu N D'.
Proof.
move=> G Em Ed [h1 h2 h3 h4 h5 h6 h7].
have en : (e < n)%N by apply/ssrnat.ltP; case: G.
have cl i j : (i < n)%N -> (j < n)%N -> (mul i j < n)%N.
  by move=> /ssrnat.ltP hi /ssrnat.ltP hj; apply/ssrnat.ltP; case: G => h *; apply: h.
split=> //.
- move=> k kN; have [a b] := h1 k kN; split=> [|i j hi hj]; first by rewrite -Ed.
  by rewrite -!Ed ?cl // -Em ?b.
- by move=> k kN i hi; rewrite -Ed // h2.
- move=> k kN; have [a b] := h3 k kN; split=> // m W inv; apply: b => i hi; rewrite Ed //; exact: inv.
- move=> k l kN lN kl [T [T' [a b c]]]; apply: (h4 k l kN lN kl); exists T, T'; split=> // i hi; rewrite !Ed ?c //.
- by move=> k l kN lN; rewrite -h5 //; apply: eq_bigr => i _; rewrite !Ed.
- move=> d F [p1 p2] iF; have [||k [kN [T [T' [a b c]]] u]] := h6 d F => //.
    by split=> // i j hi hj; rewrite p2 // Em.
  exists k; split=> //; first by exists T, T'; split=> // i hi; rewrite -Ed // c.
  move=> l lN [S [S' [x y z]]]; apply: u => //; exists S, S'; split=> // i hi; rewrite Ed // z //.
Qed.

(** ** The irreps before purification *)
Section Raw.
Variables (C : numClosedFieldType) (E : numpy C) (rtol atol : Q).
Hypothesis NO : numpy_ok E rtol atol.
Variables (rots : list mat) (mul : nat -> nat -> nat) (e : nat).
Hypotheses (LG : lists_group rots) (M : multiplication rots mul e).
Local Notation n := (size rots).

Lemma mult_group_law : group_law n mul e.
Proof.
have [t ht] := cayley_rot_total rots (lg_mul _ LG).
have Gt := mult_group_law_t LG M ht; exact: group_law_ext (mult_table LG M ht) Gt.
Qed.

Lemma raw_outcome mu method max_num :
  ifactor_system n mul e mu -> method_ok E rots method ->
  let f := raw_irreps E method rots mu rtol atol max_num in
  [\/ f = CWarn /\ method = "Neto"%string /\ unlucky_samples n (np_rnd E) (qC C atol) max_num,
      f = COk ([::], false) /\ method = "random"%string |
      exists L, f = COk (L, true) /\ complete_list rots mul e mu L].
Proof.
move=> fs mok f; have [t ht] := cayley_rot_total rots (lg_mul _ LG).
have Gt := mult_group_law_t LG M ht; have Et := mult_table LG M ht.
have Et' i j : (i < n)%N -> (j < n)%N -> mul i j = tget t i j by move=> hi hj; rewrite Et.
have fst : ifactor_system n (tget t) e mu by apply: fs_ext fs => //; exact: mt_lt M.
case: mok => [[Em sp]|Em]; rewrite /f /raw_irreps Em /=.
  rewrite ht /=; move: sp; rewrite /spglib_ok; case: spglib_pointgroup => sym P [d0 int [settings [std [hs hin hp]]]] /=.
  have ex : exists std, In std settings /\ Permutation.Permutation std (List.map (conj_round P) rots) by exists std.
  have [gens [t' [e' [h1 [h2 [h3 [h4 [h5 ch]]]]]]]] := C19_chain_any_basis_and_order sym P rots settings d0 LG int hs ex.
  have ee : e' = e by apply: (nth_rots_inj LG); [exact/ssrnat.ltP|exact: mt_e M|rewrite h4 (mt_id M)].
  move: h2; rewrite ht => -[tt]; rewrite h1 /=; subst t' e'.
  case: (C22_C24_chain_outcome (np_rnd E) max_num (no_oracles NO) (cayley_wf _ _ ht) Gt fst ch) => [[-> u]|[L [-> [h6 h7]]]].
    by apply: Or31.
  apply: Or33; exists L; split=> //; split=> //; exact: complete_ext h7.
rewrite /get_projective_regular_representation ht /=.
set ms := regular_mats t mu n.
have [o1 [o2 /(_ t (fun _ _ => erefl _)) [As [b Eo]]]] :=
  @C25_random_outcomes C (np_around E) (np_eigh E) (np_qr E) (np_hrnd E) (np_key_le E) (qC C rtol) n (tget t) e mu Gt fst ms max_num.
rewrite Eo /=; case: b Eo => Eo; last by apply: Or32; rewrite (o1 _ Eo).
apply: Or33; exists As; split=> //.
have sz : size ms = n by rewrite size_map size_iota.
have p' : iprojrep n (tget t) e mu (nth 0 ms).
  have rep := proj2 (reg_rep_iff Gt mu) (ifs_cocycle fst); split; last exact: rep.
  have en := e_lt Gt.
  apply/matrixP => i j; rewrite -/(aget (Arr ms) e) (@regE C n t mu e i j) // (mul1 Gt (ltn_ord j)).1 mxE.
  rewrite -[(_ == _ :> nat)%B]/(i == j)%B; case: eqP => // _.
  have mu1 := mu1x (ifs_fs Gt fst) (Ordinal (ltn_ord j) : igT Gt); rewrite /imu ival1 in mu1; exact: mu1.
have u' : iunitary n (nth 0 ms) := proj2 (reg_unitary_iff Gt mu) (ifs_norm fst).
have [h1 h2] := C25_random_sound_complete (no_numerics NO) Gt fst sz p' u' Eo.
by split=> //; exact: complete_ext h2.
Qed.
End Raw.

(** ** Little groups *)
Lemma arr_irreps (C : numClosedFieldType) n mul e mu N (A B : nat -> arr C) :
  (forall k, (k < N)%N -> A k = B k) ->
  complete_irreps n mul e mu N (fun k => aget (A k)) -> complete_irreps n mul e mu N (fun k => aget (B k)).
Proof.
move=> E [h1 h2 h3 h4 h5 h6 h7]; split.
- by move=> k kN; rewrite -E //; apply: h1.
- by move=> k kN; rewrite -E //; apply: h2.
- by move=> k kN; rewrite -E //; apply: h3.
- by move=> k l kN lN; rewrite -!E //; apply: h4.
- by move=> k l kN lN; rewrite -!E //; apply: h5.
- move=> d F pF iF; have [k [kN eq u]] := h6 d F pF iF; exists k; split=> //; first by rewrite -E.
  by move=> l lN; rewrite -E //; apply: u.
- by rewrite -[RHS]h7; apply: eq_bigr => k _; rewrite E.
Qed.

Section Little.
Variables (C : numClosedFieldType) (E : numpy C).
Hypothesis ce : exp_spec (np_exp E).
Variables (rots : list mat) (trans : list vec) (k : vec) (mul : nat -> nat -> nat) (e : nat).
Hypotheses (SG : lists_space_group rots trans) (FK : forall r, In r rots -> fixes_kpoint k r).
Hypothesis M : multiplication rots mul e.
Local Notation n := (size rots).
Local Notation cexp := (np_exp E).
Local Notation lfs := (little_factor_system E rots trans k).
Let LG := sg_rots _ _ SG.

Lemma cexp_opp_diff a b : qint (Qminus a b) -> cexp (Qopp a) = cexp (Qopp b).
Proof.
move=> [z h]; apply: (cexp_diff ce); exists (Z.opp z); rewrite inject_Z_opp -h; ring.
Qed.

Lemma little_fs : ifactor_system n mul e lfs.
Proof.
split.
- move=> i j l hi hj hl; rewrite /little_factor_system -!(ce_add ce).
  have lt x : (x < n)%N -> (x < n)%coq_nat by move/ssrnat.ltP.
  have h := phase_cocycle _ _ _ SG FK i j l (mul i j) (mul j l) (lt _ hi) (lt _ hj) (lt _ hl) (lt _ (mt_lt M hi hj))
    (lt _ (mt_lt M hj hl)) (mt_mul M hi hj) (mt_mul M hj hl).
  transitivity (cexp (Qopp (Qplus (factor_phase rots trans k i (mul j l)) (factor_phase rots trans k j l)))).
    by apply: (ce_eq ce); ring.
  by rewrite (cexp_opp_diff h); apply: (ce_eq ce); ring.
- by move=> i j _ _; rewrite /little_factor_system (ce_norm ce).
rewrite /little_factor_system -(cexp0 ce); apply: (ce_eq ce).
rewrite (phase_identity_l rots trans k e e); [by []|by apply/ssrnat.ltP; exact: mt_e M|exact: mt_id M].
Qed.

(** The phase factors and the change of the factor system. *)
Local Notation c i := (cexp (Qopp (vdot k (List.nth i trans vzero)))).
Lemma bloch_gauge i j : (i < n)%N -> (j < n)%N ->
  bloch_factor cexp rots trans k mul i j * c (mul i j) = c i * c j * lfs i j.
Proof.
move=> hi hj; rewrite /bloch_factor /little_factor_system -!(ce_add ce); apply: (ce_eq ce).
rewrite /factor_phase /residual /lattice_shift vdot_sub_r vdot_add_r vdot_sub_l vdot_mtvec; ring.
Qed.

Hypothesis W0 : veq (List.nth e trans vzero) vzero.
Lemma phase_e : c e = 1.
Proof.
rewrite -(cexp0 ce); apply: (ce_eq ce); rewrite W0; rewrite /vdot /=; ring.
Qed.

Lemma apply_phases_nth A i : (i < aorder A)%N -> (aorder A <= size trans)%N ->
  aget (apply_phases E trans k A) i = c i *: aget A i.
Proof.
move=> hi ho; rewrite /aget /apply_phases /= (nth_map (0, vzero)) ?size_zip ?leq_min; last first.
  by rewrite hi; apply: leq_trans ho.
rewrite nth_zip_cond /= size_zip (minn_idPl ho) hi /=; congr (cexp (Qopp (vdot k _)) *: _).
by elim: trans (i) => [|x l IH] [|m] //=.
Qed.

Lemma small_complete L : complete_list rots mul e lfs L ->
  complete_list rots mul e (bloch_factor cexp rots trans k mul) [seq apply_phases E trans k A | A <- L].
Proof.
have st : size trans = n by exact: sg_len SG.
have E0 m : arr_nth [seq apply_phases E trans k A | A <- L] m = apply_phases E trans k (arr_nth L m).
  have [h|h] := ltnP m (size L); first by rewrite /arr_nth (nth_map (@Arr C 0 [::])).
  by rewrite /arr_nth !nth_default ?size_map // /apply_phases /=; case: (trans).
move=> [h1 h2]; split.
  by move=> m; rewrite size_map => hm; rewrite E0 /aorder /apply_phases /= size_map size_zip -/(aorder _) h1 // st minnn.
rewrite size_map; apply: (arr_irreps (A := fun m => apply_phases E trans k (arr_nth L m))); first by [].
have G := mult_group_law LG M.
have := gauge_complete (mt_lt M) phase_e (fun i _ => ce_norm ce _) bloch_gauge h2.
apply: complete_eq => // m i hm hi; rewrite apply_phases_nth // h1 // ?st //.
Qed.
End Little.

(** ** Rational tolerances *)
Section QC.
Variable C : numClosedFieldType.
Delimit Scope Z_scope with coqZ.
Lemma zC_mulp z p : zC C (z * Zpos p)%coqZ = zC C z * (Pos.to_nat p)%:R.
Proof. by case: z => [|q|q] /=; rewrite ?mul0r // Pos2Nat.inj_mul natrM ?mulNr. Qed.
Lemma zC_le z1 z2 : (z1 <= z2)%coqZ -> zC C z1 <= zC C z2.
Proof.
have pos p : 0 <= (Pos.to_nat p)%:R :> C by rewrite ler0n.
have neg p : - (Pos.to_nat p)%:R <= 0 :> C by rewrite oppr_le0.
case: z1 z2 => [|p|p] [|q|q] //= h; try by case: h.
- by rewrite ler_nat; apply/ssrnat.leP; apply/Pos2Nat.inj_le.
- by apply: le_trans (neg p) (pos q).
- by rewrite ler_opp2 ler_nat; apply/ssrnat.leP; apply/Pos2Nat.inj_le; lia.
Qed.
Lemma posC_gt0 p : 0 < (Pos.to_nat p)%:R :> C.
Proof. by rewrite ltr0n; apply/ssrnat.ltP; exact: Pos2Nat.is_pos. Qed.
Lemma qC_le a b : Qle a b -> qC C a <= qC C b.
Proof.
rewrite /Qle /qC => h; rewrite ler_pdivr_mulr ?posC_gt0 // mulrAC ler_pdivl_mulr ?posC_gt0 //.
by rewrite -!zC_mulp; apply: zC_le.
Qed.
Lemma qC_eq a b : Qeq a b -> qC C a = qC C b.
Proof. by move=> h; apply/eqP; rewrite eq_le !qC_le //; rewrite h; apply: Qle_refl. Qed.
Lemma qC0 : qC C (inject_Z Z0) = 0. Proof. by rewrite /qC /= mul0r. Qed.
Lemma qC_inv p : qC C (Qmake 1 p) = (Pos.to_nat p)%:R^-1. Proof. by rewrite /qC /= mul1r. Qed.
End QC.

(** ** Purified lists *)
Section Near.
Variables (C : numClosedFieldType) (E : numpy C) (rtol atol : Q).
Hypothesis NO : numpy_ok E rtol atol.
Hypothesis A3 : Qle atol (Qmake 1 3).
Let ce := or_cexp (no_oracles NO).
Let a0 := or_atol (no_oracles NO).
Local Notation purify := (purify_irrep_value E (qC C atol)).

Lemma atol_third : qC C atol <= 3%:R^-1.
Proof. by have := qC_le C A3; rewrite qC_inv. Qed.
Let sep := special_sep ce atol_third.

Lemma near_purify A : near (qC C atol) (purify A) A.
Proof.
case: A => d ms; exists d, [seq map_mx (snap (qC C atol) (special_values E)) M | M <- ms], ms; split=> //.
  by rewrite size_map.
move=> g i j; have [h|h] := ltnP g (size ms); last by rewrite !nth_default ?size_map // subrr normr0.
by rewrite (nth_map 0) // mxE snap_dist.
Qed.
Lemma near_phases trans k A B eps : 0 <= eps -> near eps A B -> near eps (apply_phases E trans k A) (apply_phases E trans k B).
Proof.
move=> e0 [d [ms [ns [-> -> sz h]]]].
exists d, [seq np_exp E (Qopp (vdot k x.2)) *: x.1 | x <- zip ms trans],
  [seq np_exp E (Qopp (vdot k x.2)) *: x.1 | x <- zip ns trans]; split=> //.
  by rewrite !size_map !size_zip sz.
elim: ms ns (trans) sz h => [|m ms IH] [|m' ns] [|t l] //= sz h g i j;
  try by rewrite !nth_nil mxE subrr normr0.
case: g => [|g] /=; last by apply: IH => [|g' i' j']; [case: sz|apply: (h g'.+1)].
by rewrite !mxE -mulrBr normrM (ce_norm ce) mul1r; apply: (h 0%N).
Qed.
Lemma near_list_map (f h : arr C -> arr C) L eps : (forall A, near eps (f A) (h A)) -> near_list eps [seq f A | A <- L] [seq h A | A <- L].
Proof.
move=> H; split=> [|m]; first by rewrite !size_map.
by rewrite size_map => hm; rewrite /arr_nth !(nth_map (@Arr C 0 [::])).
Qed.
Lemma near0 A B : near 0 A B -> A = B :> arr C.
Proof.
move=> [d [ms [ns [-> -> sz h]]]]; congr Arr; apply: (eq_from_nth (x0 := 0)) => // g _.
by apply/matrixP => i j; apply/eqP; rewrite -subr_eq0 -normr_le0.
Qed.
Lemma near_list0 L L' : near_list 0 L L' -> L = L' :> seq (arr C).
Proof. by move=> [sz h]; apply: (eq_from_nth (x0 := @Arr C 0 [::])) => // m hm; apply: near0 (h m hm). Qed.
End Near.

(** ** Indicators *)
Definition fs_number (C : numClosedFieldType) (A : arr C) : C :=
  (\sum_(M <- amats A) \tr (M *m M)) / (aorder A)%:R.
Section Indicators.
Variables (C : numClosedFieldType) (E : numpy C).
Lemma indicatorE A : frobenius_schur_indicator (np_int E) A =
  if 1 < np_int E (fs_number A) then Raise ValueError else Ret (np_int E (fs_number A)).
Proof.
rewrite /frobenius_schur_indicator /fs_number.
by under [in RHS]eq_bigr => M _ do under [\tr _]eq_bigr => i _ do rewrite mxE.
Qed.
Lemma indicators L :
  let f := cmap (fun A => clift (frobenius_schur_indicator (np_int E) A)) L in
  (f = COk [seq np_int E (fs_number A) | A <- L] /\ forall m, (m < size L)%N -> np_int E (fs_number (arr_nth L m)) <= 1) \/
  (f = CExn ValueError /\ exists m, (m < size L)%N /\ 1 < np_int E (fs_number (arr_nth L m))).
Proof.
elim: L => [|A L IH] /=; first by left.
rewrite indicatorE; case: ltP => h /=; first by right; split=> //; exists 0%N.
case: IH => [[-> h']|[-> [m [hm h']]]] /=; last by right; split=> //; exists m.+1.
by left; split=> // -[|m] hm //=; apply: h'.
Qed.
End Indicators.

(** ** Outcomes *)
Lemma arr_nth_in (C : numClosedFieldType) (L : seq (arr C)) m : (m < size L)%N -> List.In (arr_nth L m) L.
Proof. by rewrite /arr_nth; elim: m L => [|m' IH] [|x l] //= h; [left|right; apply: IH]. Qed.

Section Outcome.
Variables (C : numClosedFieldType) (E : numpy C) (rtol atol : Q).
Hypothesis NO : numpy_ok E rtol atol.
Hypothesis A3 : Qle atol (Qmake 1 3).
Local Notation eps := (qC C atol).

Section Unitary.
Variables (rots : list mat) (mul : nat -> nat -> nat) (e : nat).
Hypotheses (LG : lists_group rots) (M : multiplication rots mul e).
Local Notation n := (size rots).

Lemma unitary_outcome mu method max_num :
  ifactor_system n mul e mu -> method_ok E rots method ->
  let f := enumerate_unitary_irreps E rots mu false method rtol atol max_num in
  [\/ f = CWarn /\ method = "Neto"%string /\ unlucky_samples n (np_rnd E) eps max_num,
      f = COk ([::], [::], false) /\ method = "random"%string |
      exists L, [/\ complete_list rots mul e mu L &
        let P := [seq purify_irrep_value E eps A | A <- L] in near_list eps P L /\
        ((f = COk (P, [seq np_int E (fs_number A) | A <- P], true) /\
          forall m, (m < size P)%N -> np_int E (fs_number (arr_nth P m)) <= 1) \/
         (f = CExn ValueError /\ exists m, (m < size P)%N /\ 1 < np_int E (fs_number (arr_nth P m))))]].
Proof.
move=> fs mok f; rewrite /f /enumerate_unitary_irreps.
case: (raw_outcome NO LG M max_num fs mok) => [[-> h]|[-> h]|[L [-> cl]]] /=; [exact: Or31|exact: Or32|apply: Or33].
exists L; split=> //; set P := [seq _ | A <- L]; split; first by rewrite -[X in near_list _ _ X](map_id L); apply: near_list_map => A; apply: near_purify NO A3 A.
by case: (indicators E P) => [[-> h]|[-> h]] /=; [left|right].
Qed.
End Unitary.

Section Small.
Variables (rots : list mat) (trans : list vec) (k : vec) (mul : nat -> nat -> nat) (e : nat).
Hypotheses (SG : lists_space_group rots trans) (FK : forall r, In r rots -> fixes_kpoint k r).
Hypothesis M : multiplication rots mul e.
Hypothesis W0 : veq (List.nth e trans vzero) vzero.
Local Notation n := (size rots).
Local Notation nu := (bloch_factor (np_exp E) rots trans k mul).

Lemma small_outcome method max_num : method_ok E rots method ->
  let f := enumerate_small_representations E rots trans k false method rtol atol max_num in
  [\/ f = CWarn /\ method = "Neto"%string /\ unlucky_samples n (np_rnd E) eps max_num,
      f = COk ([::], [::], false) /\ method = "random"%string,
      f = CExn ValueError /\ exists A A' mu L, [/\ mu = little_factor_system E rots trans k \/ mu = nu, complete_list rots mul e mu L, List.In A' L, near eps A A' &
        1 < np_int E (fs_number A)] |
      exists L L' inds, [/\ f = COk (L, inds, true), complete_list rots mul e nu L', near_list eps L L' &
        inds = [seq np_int E (fs_number A) | A <- L]]].
Proof.
move=> mok f; rewrite /f /enumerate_small_representations.
have a0 : 0 <= eps := or_atol (no_oracles NO).
have LG := sg_rots _ _ SG; have fs := little_fs (or_cexp (no_oracles NO)) SG FK M.
case: (unitary_outcome LG M max_num fs mok) => [[-> h]|[-> h]|[L [cl [nr hh]]]] /=.
- exact: Or41.
- exact: Or42.
case: hh => [[-> h]|[-> [m [hm hi]]]] /=; last first.
  apply: Or43; split=> //; have [szp nrp] := nr.
  rewrite szp in hm; eexists; exists (arr_nth L m), (little_factor_system E rots trans k), L; split=> //; [by left|exact: arr_nth_in| |exact: hi].
  by apply: nrp; rewrite szp.
set P := [seq purify_irrep_value E eps A | A <- L]; set L' := [seq apply_phases E trans k A | A <- P].
have cl' := small_complete (or_cexp (no_oracles NO)) SG M W0 cl.
have nr' : near_list eps L' [seq apply_phases E trans k A | A <- L].
  rewrite /L' /P -map_comp; apply: near_list_map => A; apply: (near_phases NO) => //; exact: near_purify NO A3 A.
case: (indicators E L') => [[-> h']|[-> [m [hm hi]]]] /=.
  by apply: Or44; exists L'; eexists; eexists; split; [reflexivity|exact: cl'|exact: nr'|].
apply: Or43; split=> //; have [szp nrp] := nr'.
exists (arr_nth L' m), (arr_nth [seq apply_phases E trans k A | A <- L] m), nu, [seq apply_phases E trans k A | A <- L].
split=> //; [by right| |exact: nrp].
by apply: arr_nth_in; rewrite -szp.
Qed.
End Small.
End Outcome.

(** ** Rounding of the indicator *)
Section Rounding.
Variable C : numClosedFieldType.
Add Field roundC : (fth C).
Lemma unitary_entry d (M : 'M[C]_d) i j : M *m adj M = 1%:M -> `|M i j| <= 1.
Proof.
move=> /matrixP /(_ i i); rewrite [LHS]mxE [RHS]mxE eqxx (bigD1 j) //= [adj M j i]mxE mxE mulr1n -normCK => h.
have: `|M i j| ^+ 2 <= 1.
  by rewrite -h ler_addl sumr_ge0 // => l _; rewrite !mxE mul_conjC_ge0.
by rewrite expr_le1 ?normr_ge0.
Qed.
Lemma sum_bound m (F : 'I_m -> C) b : (forall i, `|F i| <= b) -> `|\sum_i F i| <= m%:R * b.
Proof.
move=> h; apply: le_trans (ler_norm_sum _ _ _) _; apply: (@le_trans _ _ (\sum_(i < m) b)); first exact: ler_sum.
by rewrite sumr_const card_ord mulr_natl.
Qed.
Lemma fs_near n d (ms ns : seq 'M[C]_d) eps : (0 < n)%N -> 0 <= eps -> size ms = n -> size ns = n ->
  (forall g, (g < n)%N -> nth 0 ns g *m adj (nth 0 ns g) = 1%:M) ->
  (forall g i j, `|nth 0 ms g i j - nth 0 ns g i j| <= eps) ->
  `|fs_number (Arr ms) - fs_number (Arr ns)| <= (d ^ 2)%:R * (2%:R * eps + eps ^+ 2).
Proof.
move=> n0 e0 sm sn u h; rewrite /fs_number /aorder /= sm sn -mulrBl normrM normfV normr_nat.
rewrite ler_pdivr_mulr ?ltr0n // !(big_nth 0) sm sn !big_mkord -sumrB.
rewrite mulrC; apply: sum_bound => g; rewrite -raddfB /= /mxtrace expnS expn1 natrM -mulrA.
apply: sum_bound => i; rewrite !mxE -sumrB; apply: sum_bound => j.
set a := nth 0 ms g; set b := nth 0 ns g.
have -> : a i j * a j i - b i j * b j i = (a i j - b i j) * (a j i - b j i) + (a i j - b i j) * b j i + b i j * (a j i - b j i).
  by to_field C; ring.
have ub := u g (ltn_ord g).
apply: le_trans (ler_norm_add _ _) _; rewrite normrM.
apply: (@le_trans _ _ (eps ^+ 2 + eps + eps)); last by rewrite -addrA mulr2n mulrDl mul1r addrC.
apply: ler_add; last by apply: le_trans (ler_pmul _ _ (unitary_entry i j ub) (h g j i)) _; rewrite ?normr_ge0 ?mul1r.
apply: le_trans (ler_norm_add _ _) _; rewrite !normrM; apply: ler_add.
  by rewrite expr2; apply: ler_pmul; rewrite ?normr_ge0 //; apply: h.
by apply: le_trans (ler_pmul _ _ (h g i j) (unitary_entry j i ub)) _; rewrite ?normr_ge0 ?mulr1.
Qed.
Lemma round_near (np : C -> int) (z : C) (m : int) :
  (forall (z : C) (m : int), `|'Re z - m%:~R| < 2%:R^-1 -> np z = m) -> `|z - m%:~R| < 2%:R^-1 -> np z = m.
Proof.
move=> ni h; apply: ni; apply: le_lt_trans h; have <- : 'Re (z - m%:~R) = 'Re z - m%:~R.
  by rewrite raddfB /= (Creal_ReP _ (realz _ m)).
exact: leif_normC_Re_Creal.
Qed.
End Rounding.

Section RealFactor.
Variables (C : numClosedFieldType) (E : numpy C) (rtol atol : Q).
Hypothesis NO : numpy_ok E rtol atol.
Local Notation eps := (qC C atol).
Let a0 : 0 <= eps := or_atol (no_oracles NO).

Lemma fs_number_exact rots mul e (mu : nat -> nat -> C) (L : seq (arr C)) m : lists_group rots -> multiplication rots mul e ->
  ifactor_system (size rots) mul e mu ->
  (forall i j, (i < size rots)%N -> (j < size rots)%N -> mu i j \is Num.real) ->
  complete_list rots mul e mu L -> (m < size L)%N ->
  exists v : int, [/\ fs_number (arr_nth L m) = v%:~R, v <= 1 & fs_meaning (size rots) (aget (arr_nth L m)) v].
Proof.
move=> LG M fs mr [sz cl] hm; have G := mult_group_law LG M; have n0 := n_neq0 C G.
have FE : fs_number (arr_nth L m) = fs_sum (size rots) (aget (arr_nth L m)) / (size rots)%:R.
  rewrite /fs_number /fs_sum (big_nth 0) big_mkord -/(aorder _) sz //; congr (_ / _).
  by apply: eq_bigr => g _; apply: eq_bigr => i _; rewrite mxE.
rewrite FE; case: (fs_cases G fs mr (ci_rep cl hm) (ci_unitary cl hm) (ci_irreducible cl hm))
  => [[-> h]|[U [h1 h2 [[h3 ->]|[h3 ->]]]]].
- by exists 0; rewrite mul0r; split=> //; apply: Or33.
- by exists 1; rewrite divff //; split=> //; apply: Or31; split=> //; exists U.
- by exists (-1); rewrite mulNr divff //; split=> //; apply: Or32; split=> //; exists U.
Qed.

Lemma fs_number_near rots mul e (mu : nat -> nat -> C) (L L' : seq (arr C)) m : lists_group rots -> multiplication rots mul e ->
  ifactor_system (size rots) mul e mu ->
  (forall i j, (i < size rots)%N -> (j < size rots)%N -> mu i j \is Num.real) ->
  (size rots)%:R * (2%:R * eps + eps ^+ 2) < 2%:R^-1 ->
  complete_list rots mul e mu L' -> near_list eps L L' -> (m < size L)%N ->
  np_int E (fs_number (arr_nth L m)) <= 1 /\
  fs_meaning (size rots) (aget (arr_nth L' m)) (np_int E (fs_number (arr_nth L m))).
Proof.
move=> LG M fs mr small cl [sL nr] hm.
have hm' : (m < size L')%N by rewrite -sL.
have [v [ev v1 mv]] := fs_number_exact LG M fs mr cl hm'.
suff -> : np_int E (fs_number (arr_nth L m)) = v by [].
apply: (round_near (no_int NO)); rewrite -ev; apply: le_lt_trans small.
have n0 : (0 < size rots)%N by apply: leq_ltn_trans (mt_e M).
have sz := cl.1 m hm'; have u := ci_unitary cl.2 hm'.
have sq : (adim (arr_nth L' m) ^ 2 <= size rots)%N.
  by rewrite -[X in (_ <= X)%N](ci_squares cl.2) (bigD1 (Ordinal hm')) //= leq_addr.
have [d [ms [ns [EA EB szz h]]]] := nr m hm.
rewrite EB /aget /aorder /= in sz u sq; rewrite EA EB.
apply: le_trans (fs_near n0 a0 _ sz u h) _; first by rewrite szz.
apply: ler_wpmul2r; last by rewrite ler_nat.
by apply: addr_ge0; [apply: mulr_ge0; rewrite ?ler0n|rewrite exprn_ge0].
Qed.

Lemma unitary_real_outcome rots mul e (mu : nat -> nat -> C) method max_num :
  Qle atol (Qmake 1 3) -> (size rots)%:R * (2%:R * eps + eps ^+ 2) < 2%:R^-1 ->
  lists_group rots -> multiplication rots mul e -> ifactor_system (size rots) mul e mu ->
  (forall i j, (i < size rots)%N -> (j < size rots)%N -> mu i j \is Num.real) ->
  method_ok E rots method ->
  let f := enumerate_unitary_irreps E rots mu false method rtol atol max_num in
  [\/ f = CWarn /\ method = "Neto"%string /\ unlucky_samples (size rots) (np_rnd E) eps max_num,
      f = COk ([::], [::], false) /\ method = "random"%string |
      exists L L' inds, [/\ f = COk (L, inds, true), complete_list rots mul e mu L', near_list eps L L',
        size inds = size L &
        forall m, (m < size L)%N -> fs_meaning (size rots) (aget (arr_nth L' m)) (nth 0 inds m)]].
Proof.
move=> A3 small LG M fs mr mok f.
case: (unitary_outcome NO A3 LG M max_num fs mok) => [h|h|[L [cl [nr hh]]]]; [exact: Or31|exact: Or32|apply: Or33].
case: hh => [[E1 _]|[_ [m [hm]]]]; last first.
  by have [le _] := fs_number_near LG M fs mr small cl nr hm; rewrite ltNge le.
eexists; exists L; eexists; split; [exact: E1|exact: cl|exact: nr|by rewrite size_map|].
move=> m hm; have [_ h] := fs_number_near LG M fs mr small cl nr hm.
by rewrite (nth_map (@Arr C 0 [::])).
Qed.
End RealFactor.

(** ** The core function *)
Lemma allM_true A (test : A -> pyres bool) l : allM test l = Ret true <-> forall x, List.In x l -> test x = Ret true.
Proof.
elim: l => [|x l IH] /=; first by split.
split=> [|h]; last by rewrite (h x (or_introl erefl)) /=; apply/IH => y hy; apply: h; right.
case E: test => [b|//] /=; case: b E => // E /IH h y [<- //|]; exact: h.
Qed.

Lemma mult_exists rots : lists_group rots -> exists mul e, multiplication rots mul e.
Proof.
move=> LG; have [t ht] := cayley_rot_total rots (lg_mul _ LG).
have [e [/ssrnat.ltP he ee]] := In_nth_lt _ _ mid (lg_id _ LG).
have [_ [_ h]] := cayley_rot_spec _ _ ht.
exists (tget t), e; split=> // i j /ssrnat.ltP hi /ssrnat.ltP hj; have [h1 [h2 _]] := h i j hi hj => //.
exact/ssrnat.ltP.
Qed.

Lemma small_int_zero atol q : Qlt atol (inject_Z 1%coqZ) -> qint q -> close0 atol q = true -> Qeq q (inject_Z Z0).
Proof.
rewrite /close0 Qle_bool_iff => a1 [z ez]; rewrite ez => h.
have : Qlt (Qabs.Qabs (inject_Z z)) (inject_Z 1%coqZ) by apply: Qle_lt_trans a1.
rewrite /Qabs.Qabs /Qlt /inject_Z /= => hz; have -> : z = Z0 by lia.
by [].
Qed.

Section Core.
Variables (rots : list mat) (trans : list vec).
Hypothesis SG : lists_space_group rots trans.
Lemma identity_translation i : (i < List.length rots)%coq_nat -> List.nth i rots mid = mid -> vint (List.nth i trans vzero).
Proof.
move=> hi ei; have := sg_closed _ _ SG i i i hi hi hi; rewrite ei mmul_1l => /(_ erefl).
apply: vint_eq; rewrite mvec_1 /veq /vsub /vadd /=; by split; [ring|split; ring].
Qed.
Lemma not_primitiveE atol : not_primitive atol rots trans = false ->
  forall i, (i < List.length rots)%coq_nat -> List.nth i rots mid = mid -> vall (close0 atol) (List.nth i trans vzero) = true.
Proof.
rewrite /not_primitive => h i hi ei.
have hin : List.In (List.nth i rots mid, List.nth i trans vzero) (List.combine rots trans).
  rewrite -combine_nth; last by rewrite (sg_len _ _ SG).
  by apply: nth_In; rewrite combine_length (sg_len _ _ SG) Nat.min_id.
have [] := @existsb_exists _ (fun x => meqb (fst x) mid && negb (vall (close0 atol) (snd x))) (List.combine rots trans).
case: (vall _ _) / (boolP (vall (close0 atol) (List.nth i trans vzero))) => // nv _ ex.
by move: h; rewrite ex //; exists (List.nth i rots mid, List.nth i trans vzero); split=> //; rewrite /= ei meqb_refl /= nv.
Qed.
Lemma primitive_zero atol : Qlt atol (inject_Z 1%coqZ) -> not_primitive atol rots trans = false ->
  forall i, (i < List.length rots)%coq_nat -> List.nth i rots mid = mid -> veq (List.nth i trans vzero) vzero.
Proof.
move=> a1 np i hi ei; have := not_primitiveE np hi ei; have [i1 [i2 i3]] := identity_translation hi ei.
rewrite /vall => /andb_prop [/andb_prop [c1 c2] c3].
by split; [exact: small_int_zero c1|split; [exact: small_int_zero c2|exact: small_int_zero c3]].
Qed.
Lemma not_primitive_iff atol : not_primitive atol rots trans = true <->
  exists i, [/\ (i < List.length rots)%coq_nat, List.nth i rots mid = mid &
    ~ (Qle (Qabs.Qabs (v1 (List.nth i trans vzero))) atol /\ Qle (Qabs.Qabs (v2 (List.nth i trans vzero))) atol /\
       Qle (Qabs.Qabs (v3 (List.nth i trans vzero))) atol)].
Proof.
have V w : vall (close0 atol) w = true <-> (Qle (Qabs.Qabs (v1 w)) atol /\ Qle (Qabs.Qabs (v2 w)) atol /\ Qle (Qabs.Qabs (v3 w)) atol).
  rewrite /vall /close0 !Bool.andb_true_iff !Qle_bool_iff; tauto.
split.
  move=> /existsb_exists [[r w] [hin /andb_prop [/meqb_eq /= er /negP hw]]].
  have [i [hi ei]] := In_nth_lt _ _ (mid, vzero) hin; rewrite combine_length (sg_len _ _ SG) Nat.min_id in hi.
  rewrite combine_nth ?(sg_len _ _ SG) // in ei; case: ei => e1 e2.
  exists i; split=> //; first by rewrite e1.
  by rewrite e2 => /V.
move=> [i [hi ei hw]]; case np: (not_primitive atol rots trans) => //; case: hw; apply: (proj1 (V _)); exact: (not_primitiveE np hi ei).
Qed.
End Core.
