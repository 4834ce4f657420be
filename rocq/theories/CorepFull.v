(** Proofs about CorepModel: in exact arithmetic the returned co-representations that obey the
    co-representation law are irreducible, and every irreducible co-representation is matched. *)
From Coq Require Import QArith ZArith List String.
From mathcomp Require Import all_ssreflect all_algebra all_fingroup.
From Verif Require Import Py Mat3 MatQ GroupModel GroupSpec GroupProofs RepSpec RepModel RepTheory RepProofs Mx2 IndexRepSpec IndexGroup
  ClassTheory CExpSpec ChainModel ChainTheory SmallModel SmallSpec SmallTheory SpinorModel SpinorSpec SpinorTheory SpinorProofs SpinorConv CorepModel CorepSpec CorepProofs
  CorepTheory CorepKinds CorepBridge CorepPipeline CorepOutcome PurifyTheory RobustTheory ClaimsChain CorepIrr CorepCover.
Import Order.TTheory GRing.Theory Num.Theory.
Set Implicit Arguments.
Unset Strict Implicit.
Unset Printing Implicit Defensive.
Local Open Scope ring_scope.

(** A non-zero representation, unitary or not, contains a member of a complete list. *)
Section Constituent.
Variables (C : numClosedFieldType) (n : nat) (mul : nat -> nat -> nat) (e : nat).
Hypothesis G : group_law n mul e.
Variable mu : nat -> nat -> C.
Hypothesis mufs : ifactor_system n mul e mu.
Variables (N : nat) (dim : nat -> nat) (D : forall k, nat -> 'M[C]_(dim k)).
Hypothesis cD : complete_irreps n mul e mu N D.
Lemma constituent d (X : nat -> 'M[C]_d) : (0 < d)%N -> iprojrep n mul e mu X ->
  exists2 k, (k < N)%N & exists2 T : 'M[C]_(d, dim k), T != 0 & forall i, (i < n)%N -> X i *m T = T *m D k i.
Proof.
move=> d0 rX; have fs := ifs_fs G mufs.
have en : (e < n)%N by apply/ssrnat.ltP; case: G.
have col j : (j < n)%N -> \sum_(k < N) (dim k)%:R * (\tr (D k j))^* = if eq_op j e then n%:R else 0.
  move=> hj; transitivity (\sum_(k < N) \tr (D k e) * (\tr (D k j))^*).
    by apply: eq_bigr => k _; have [-> _] := ci_rep cD (ltn_ord k); rewrite mxtrace1.
  rewrite (icolumn G mufs cD en hj).
  have er i : (i < n)%N -> mul i e = i by move=> hi; apply: (gl_1r _ _ _ G _ (ssrnat.ltP hi)).
  have el i : (i < n)%N -> mul e i = i by move=> hi; apply: (gl_1l _ _ _ G _ (ssrnat.ltP hi)).
  have v1 : ival (1%g : igT G) = e := ival1 G.
  have m1 i : (i < n)%N -> mu i e = 1 /\ mu e i = 1.
    by move=> /(ival_surj G) [x <-]; have := mux1 fs x; have := mu1x fs x; rewrite /imu v1.
  case: eqP => [->|ne].
    rewrite (eq_bigl (fun=> true)) => [|i]; last by rewrite er ?el ?eqxx.
    rewrite (eq_bigr (fun=> 1)) => [|i _]; first by rewrite sumr_const card_ord.
    by have [-> ->] := m1 i (ltn_ord i); rewrite conjC1 mulr1.
  rewrite big1 // => i /eqP; rewrite er // => h; case: ne.
  have [y ey] := ival_surj G hj; have [x ex] := ival_surj G (ltn_ord i).
  move: h; rewrite -ex -ey -ivalM => /ival_inj h; have -> : y = 1%g by apply: (mulIg x); rewrite -h mul1g.
  by rewrite v1.
have tot : \sum_(k < N) (dim k)%:R * icip n (D k) X = n%:R * d%:R.
  under eq_bigr => k _ do rewrite /icip big_distrr /=.
  rewrite exchange_big /= (eq_bigr (fun i : 'I_n => (if eq_op (i : nat) e then n%:R else 0) * \tr (X i))) => [|i _]; last first.
    by rewrite -col // big_distrl /=; apply: eq_bigr => k _; rewrite mulrA.
  rewrite (bigD1 (Ordinal en)) //= eqxx big1 ?addr0 => [|i ne].
    by have [-> _] := rX; rewrite mxtrace1.
  by rewrite -val_eqE /= in ne; rewrite (negPf ne) mul0r.
have [k kN nz] : exists2 k, (k < N)%N & icip n X (D k) != 0.
  have cc k : icip n X (D k) = (icip n (D k) X)^*.
    by rewrite /icip rmorph_sum; apply: eq_bigr => i _; rewrite rmorphM conjCK mulrC.
  case: (pickP (fun k : 'I_N => icip n X (D k) != 0)) => [k nk|z0]; first by exists k.
  move: tot; rewrite big1 => [|k _].
    move/esym/eqP; rewrite (negPf (_ : n%:R * d%:R != 0 :> C)) // mulf_neq0 // pnatr_eq0 -lt0n //.
    exact: leq_ltn_trans (leq0n e) en.
  by have := z0 k; rewrite cc => /negbFE; rewrite conjC_eq0 => /eqP ->; rewrite mulr0.
exists k => //; rewrite (icipE G) cipE conjC_eq0 in nz.
set S := [set: igT G] in nz; have [i [j nij]] : exists i j, avg S (fun g => X (ival g)) (fun g => D k (ival g)) (delta_mx i j) i j != 0.
  case: (pickP (fun p : 'I_d * 'I_(dim k) => avg S (fun g => X (ival g)) (fun g => D k (ival g)) (delta_mx p.1 p.2) p.1 p.2 != 0)) => [p hp|z0]; first by exists p.1, p.2.
  case/eqP: nz; apply: big1 => i _; apply: big1 => j _; by have := z0 (i, j) => /negbFE /eqP.
exists (avg S (fun g => X (ival g)) (fun g => D k (ival g)) (delta_mx i j)).
  by apply: contraNneq nij => ->; rewrite mxE.
move=> p hp; have [x <-] := ival_surj G hp.
have pX := proj1 (iprojrepE G mu X) rX.
have pD := proj1 (iprojrepE G mu (D k)) (ci_rep cD kN).
have uD := proj1 (iunitaryE G (D k)) (ci_unitary cD kN).
by apply: (avg_intertwines fs _ pX pD uD); rewrite inE.
Qed.
End Constituent.

Section Full.
Variables (C : numClosedFieldType) (E : numpy C).
Variables (rots : list mat) (flags : list bool) (mul : nat -> nat -> nat) (e : nat) (rtol atol : Q).
Hypothesis LE : size flags = size rots.
Hypotheses (LG : lists_magnetic_group (combine rots flags)) (M : mag_multiplication (combine rots flags) mul e).
Hypotheses (NO : numpy_ok E rtol atol) (RO : rounds (np_around E)) (A3 : Qle atol (Qmake 1 3)).
Local Notation n := (size rots).
Local Notation anti := (anti flags).
Local Notation xsg := (linear_ops rots flags).
Local Notation eps := (qC C atol).
Hypothesis eps_0 : eps = 0.
Let Gl := lin_group_law LE LG M.
Variables (z mu : nat -> nat -> C).
Hypothesis SS : sign_system (size rots) mul e z mu.
Local Notation H := (linear_subgroup LE LG M).
Local Notation gT := (igT Gl).
Local Notation v := (@ival _ _ _ Gl).
Local Notation half := (linear_half (LE := LE) (LG := LG) (M := M)).
Local Notation inx := (in_xsg (LE := LE) (LG := LG) (M := M)).
Local Notation zw := (CorepBridge.w (LE := LE) (LG := LG) (M := M) (zi z)).
Local Notation lft A := (lift (LE := LE) (LG := LG) (M := M) (aget A)).
Let mup p q : C := mu (nth 0%N xsg p) (nth 0%N xsg q).
Local Notation lmul := (linear_mul rots flags mul).
Local Notation le_ := (linear_e rots flags e).
Let zc := ss_cocycle SS.
Let ze := ss_e SS.
Let ms := mu_sign SS.
Let p1 := CorepPipeline.wc (LE := LE) (LG := LG) (M := M) zc.
Let p2 := CorepPipeline.w1 LE LG M ze.
Let powP := or_cpowinv (no_oracles NO).
Let eps0 : 0 <= eps := or_atol (no_oracles NO).
Variables (a0 inv_a0 : nat).
Hypotheses (a0n : (a0 < n)%N) (aa0 : anti a0) (in0 : (inv_a0 < n)%N) (inv0 : mul inv_a0 a0 = e).
Local Notation gA := (ga LE LG M a0n).
Local Notation cm := (conj_mats rots flags mul mu a0 inv_a0).
Let aH := gaH LE LG M a0n aa0.

Lemma cjv (x : gT) p q (B : 'M[C]_(p, q)) : cj H x B = conj_if (anti (v x)) B.
Proof. by rewrite /cj -inx mem_linear /linear_op ival_lt /= negbK. Qed.
Lemma cirrP d (F : nat -> 'M[C]_d) : cirr H (fun x => F (v x)) <-> corep_irreducible n anti F.
Proof.
split=> -[d0 h]; split=> // m W hW; apply: h.
  by move=> x; have [Y eY] := hW (v x) (ival_lt x); exists Y; rewrite cjv.
by move=> i /(ival_surj Gl) [x <-]; have [Y eY] := hW x; exists Y; rewrite -cjv.
Qed.
Lemma cequivP d1 d2 (X : nat -> 'M[C]_d1) (F : nat -> 'M[C]_d2) :
  cequiv H (fun x => X (v x)) (fun x => F (v x)) <-> corep_equivalent n anti X F.
Proof.
split=> -[T [T' [h1 h2 h3]]]; exists T, T'; split=> //.
  by move=> i /(ival_surj Gl) [x <-]; rewrite -cjv h3.
by move=> x; rewrite cjv h3 // ival_lt.
Qed.
Lemma law_group d (X : nat -> 'M[C]_d) : corep n mul e anti z X -> forall g h, law_at H zw (fun x => X (v x)) g h.
Proof.
move=> [_ h] x y; have := h _ _ (ival_lt x) (ival_lt y).
by rewrite /corep_at /law_at cjv ivalM (ss_sign SS) ?ival_lt.
Qed.
Section One.
Variable A' : arr C.
Local Notation A := (purify_irrep_value E eps A').
Hypothesis oA : aorder A' = size xsg.
Hypothesis rA : iprojrep (size xsg) lmul le_ mup (aget A').
Hypothesis uA : iunitary (size xsg) (aget A').
Hypothesis iA : iirreducible (size xsg) (aget A').
Lemma made_irr max_num ind x : made rots flags mul mu a0 inv_a0 E eps max_num ind A x -> x.2 ->
  total H zw gA (lft A') = ind%:~R * #|H|%:R -> corep n mul e anti z (aget x.1) ->
  cirr H (fun g => aget x.1 (v g)) /\
  forall d k (X : gT -> 'M[C]_d) (B : gT -> 'M[C]_k) (T : 'M[C]_(d, k)), (forall g h, law_at H zw X g h) -> cirr H X ->
    irreducible H B -> T != 0 -> (forall u, u \in H -> X u *m T = T *m B u) ->
    (equivalent H B (lft A') \/ equivalent H B (conjrep zw gA (lft A'))) <-> cequiv H X (fun g => aget x.1 (v g)).
Proof.
move=> mk x2 T; have [_ h1 _ un] := made_structure LE LG M NO SS A3 oA rA uA a0n aa0 in0 inv0 mk.
rewrite (lawP LE LG M SS h1).
have pD := lft_rep LE LG M SS rA; have uD := lft_uni (LE := LE) (LG := LG) (M := M) uA; have iD := lft_irr LE LG M iA.
have FA u : u \in H -> aget x.1 (v (gA * u)%g) = (-1) ^+ zw gA u *: (aget x.1 a0 *m aget x.1 (v u)).
  move=> hu; rewrite ivalM v_ga un /linear_op -?mem_linear ?inx // (ss_sign SS) ?ival_lt //.
have F1 : aget x.1 (v 1%g) = 1%:M by rewrite (ival1 Gl).
case: x mk x2 h1 {un} FA F1 => F b /= mk x2 h1 FA F1 law.
have hx u : u \in H -> v u \in xsg by rewrite inx.
rewrite (exact NO A3 A' eps_0) in mk; case: mk => /= [[i1 [U xE /(_ x2) EU]]|[i1 [U xE /(_ x2) EU]]|[i1 xE]]; rewrite i1 in T; subst F.
- have [hU UU] := found_ok ms zc ze a0n aa0 in0 inv0 eps0 powP oA pD uD iD EU.
  have FD u : u \in H -> aget (fill_corep n mu xsg (a0_ops rots flags mul a0) a0 U (amats A')) (v u) = lft A' u.
    by move=> /hx hu; rewrite (made_linear LE M mu a0n aa0 U oA).
  split; first exact: (irr_plus iD FD).
  move=> d k X B S lX iX iB S0 hS; apply: (match_plus half aH iD lX iX iB S0 hS law F1 FD).
  exists (adj U), U; split=> //; first exact: mulmx1C.
  move=> u hu; have U2 : adj U *m U = 1%:M by apply: mulmx1C.
  by rewrite -[LHS]mul1mx -U2 -mulmxA [U *m _]mulmxA -hU // -!mulmxA UU mulmx1.
- have [hU UU] := found_ok ms zc ze a0n aa0 in0 inv0 eps0 powP oA pD uD iD EU.
  have sl : size (dbl rots flags mul mu a0 inv_a0 A') = size xsg := size_dbl _ _ _ _ oA.
  have [_ _ Fa _] := fill_unconj LE LG M SS a0n aa0 (offm U) sl (dbl_e LE LG M SS a0n in0 inv0 oA (pr_one pD)).
  rewrite rmorphN mulN1r in T; set F := fill_corep _ _ _ _ _ _ _ in law F1 h1 FA Fa *.
  have FD u : u \in H -> aget F (v u) = doubled zw gA (lft A') u.
    by move=> hu; rewrite (made_linear LE M mu a0n aa0 _ sl) ?hx // (conj_dbl ms a0n in0 inv0).
  rewrite Fa in FA; have /(_ law) DD := proj1 (built_minus p1 p2 half aH pD uD iD UU hU T FD FA).
  have iF : cirr H (fun g => aget F (v g)).
    apply: (irr_minus p1 p2 half aH pD uD iD UU FD) => [u hu|]; last by rewrite v_ga.
    by have [_ [X]] := DD u hu; rewrite FD // /doubled => /eq_block_mx [-> _ _ ->].
  split=> // d k X B S lX iX iB S0 hS; exact: (match_double p1 p2 half aH pD uD iD lX iX iB S0 hS law F1 iF FD).
have sl : size (dbl rots flags mul mu a0 inv_a0 A') = size xsg := size_dbl _ _ _ _ oA.
have [_ _ Fa _] := fill_unconj LE LG M SS a0n aa0 (off0 zw gA (lft A')) sl (dbl_e LE LG M SS a0n in0 inv0 oA (pr_one pD)).
have K0 : off0 zw gA (lft A') = block_mx 0 (mu a0 a0 *: aget A' (index (mul a0 a0) xsg)) 1%:M 0.
  by rewrite /off0 /lift ivalM v_ga ms // /CorepBridge.w v_ga.
rewrite K0 in Fa; set F := fill_corep _ _ _ _ _ _ _ in law F1 h1 FA Fa *.
have FD u : u \in H -> aget F (v u) = doubled zw gA (lft A') u.
  by move=> hu; rewrite (made_linear LE M mu a0n aa0 _ sl) ?hx // (conj_dbl ms a0n in0 inv0).
have no X : intertwines H zw gA (lft A') X -> X = 0.
  move/(interE LE LG M SS a0n aa0); case: (kind_of SS rA uA aa0 iA T) => [[]|[]|[_ h]] //; exact: h.
have iF : cirr H (fun g => aget F (v g)).
  by apply: (irr_zero p1 p2 half aH pD uD iD no FD); rewrite v_ga Fa K0.
split=> // d k X B S lX iX iB S0 hS; exact: (match_double p1 p2 half aH pD uD iD lX iX iB S0 hS law F1 iF FD).
Qed.
End One.
Section List.
Hypothesis small : (n ^ 2)%:R * eps < 2%:R^-1.
Variable Ls : seq (arr C).
Hypothesis ol : forall k, (k < size Ls)%N -> aorder (arr_nth Ls k) = size xsg.
Hypothesis ci : complete_irreps (size xsg) lmul le_ mup (size Ls) (fun k => aget (arr_nth Ls k)).
Local Notation A k := (arr_nth Ls k).
Local Notation pur B := (purify_irrep_value E eps B).
Variable chosen : seq (int * nat).
Hypothesis EP : let P := [seq pur B | B <- Ls] in
  corep_pairs E mu (a0_ops rots flags mul a0) (sq_ops rots flags mul a0) (size xsg) [seq get_character B | B <- P]
    [seq get_character_mats (cm B) | B <- P] (iota 0 (size P)) (nseq (size P) false) = COk chosen.
Local Notation ch m := (nth (0%R : int, 0%N) chosen m).2.
Lemma cover_group k : (k < size Ls)%N -> exists m, (m < size chosen)%N /\ forall m', (m' < size chosen)%N ->
  (equivalent H (lft (A k)) (lft (A (ch m'))) \/ equivalent H (lft (A k)) (conjrep zw gA (lft (A (ch m'))))) <-> m' = m.
Proof.
move=> hk; have [rA uA iA] := And3 (ci_rep ci hk) (ci_unitary ci hk) (ci_irreducible ci hk).
have [partner part] := partners LE LG M SS a0n aa0 in0 inv0 ci.
have rX : linear_rep n mul e anti z (fun i => aget (A k) (index i xsg)).
  have pD := lft_rep LE LG M SS rA.
  apply: (@group_half C rots flags mul e LE LG M z mu SS _ (lft (A k))) => //; [exact: (pr_one pD)|exact: (lin_law pD)|exact: (lft_uni uA)].
have iX : linear_irreducible n anti (fun i => aget (A k) (index i xsg)).
  case: iA => d0 h; split=> // m W hW; apply: h => p hp.
  by have := hW (nth 0%N xsg p); rewrite index_uniq ?uniq_linear //; apply; rewrite /linear_op -mem_linear mem_nth.
have [m [hm un]] := cover LE LG M NO RO A3 SS small a0n aa0 in0 inv0 ol ci part EP rX iX.
exists m; split=> // m' hm'; rewrite -(un m' hm').
have e1 : equivalent H (lft (A k)) (lft (A (ch m'))) <->
    linear_equivalent n anti (fun i => aget (A k) (index i xsg)) (fun i => aget (A (ch m')) (index i xsg)).
  split=> -[T [T' [h1 h2 h3]]]; exists T, T'; split=> //.
    by move=> i hi; have [x hx <-] : exists2 x, x \in H & v x = i by [apply: xsg_elt; rewrite mem_linear]; apply: h3.
  by move=> x hx; apply: h3; rewrite /linear_op -mem_linear inx.
have e2 : equivalent H (lft (A k)) (conjrep zw gA (lft (A (ch m')))) <->
    conj_equivalent n mul anti z a0 (fun i => aget (A k) (index i xsg)) (fun i => aget (A (ch m')) (index i xsg)).
  rewrite (half_conj LE LG M SS a0n aa0 in0 inv0); split=> [[T [T' [h1 h2 h3]]]|/iequivalent_sym [T [T' [h1 h2 h3]]]].
    apply: iequivalent_sym; exists T, T'; split=> // p /(elt LE LG M) [x [hx <- <-]].
    by rewrite h3 // (cm_at SS a0n in0 inv0).
  exists T, T'; split=> // x hx; have vx : v x \in xsg by rewrite inx.
  by have := h3 (index (v x) xsg); rewrite index_mem nth_index // (cm_at SS a0n in0 inv0) //; apply.
by rewrite e1 e2.
Qed.
(** The irreps of the unitary half, counted through the chosen ones. *)
Lemma pair_squares : (\sum_(m < size chosen) (if eq_op (nth (0%R : int, 0%N) chosen m).1 0%R then 2 else 1) * adim (A (ch m)) ^ 2 = size xsg)%N.
Proof.
have [partner part] := partners LE LG M SS a0n aa0 in0 inv0 ci.
have sP : size [seq get_character B | B <- [seq pur B | B <- Ls]] = size Ls by rewrite !size_map.
have c1 k : (k < size Ls)%N -> count (belongs partner k) chosen = 1%N.
  move=> hk; rewrite (pairs_count (E := E) (mu := mu) (l1 := a0_ops rots flags mul a0) (l2 := sq_ops rots flags mul a0) (order := size xsg)
    (partner := partner) _ _ _ _ _ EP) ?sP //.
  - by rewrite nth_nseq size_map hk.
  - move=> i hi; rewrite (nth_map (@Arr C 0 [::])) ?size_map // (nth_map (@Arr C 0 [::])) // -/(arr_nth Ls i) => m0 q0.
    set s := np_int _ _ in m0 q0; apply: (own_ok LE LG M NO A3 SS small a0n aa0 in0 inv0 ol ci part (k := (s %/ (size xsg)%:Z)%Z)) => //; rewrite -/s.
    by rewrite {1}(divz_eq s (size xsg)%:Z) m0 addr0.
  - move=> i j hi hj; rewrite !(nth_map (@Arr C 0 [::])) ?size_map // -/(arr_nth Ls i) -/(arr_nth Ls j).
    by rewrite (test_ok LE LG M NO RO A3 SS small a0n aa0 in0 inv0 ol ci part) //; move/eqP.
  - by rewrite size_nseq size_map.
  - by move=> i; rewrite mem_iota add0n size_map.
  by move=> i hi _; rewrite mem_iota add0n size_map.
rewrite -(ci_squares ci) [RHS](eq_bigr (fun k : 'I_(size Ls) => \sum_(m < size chosen) belongs partner k (nth (0%R : int, 0%N) chosen m) * adim (A k) ^ 2)%N); last first.
  move=> k _; rewrite -big_distrl /= -{1}[(adim _ ^ 2)%N]mul1n -(c1 k (ltn_ord k)) -sum1_count big_mkcond /=.
  by rewrite (big_nth (0, 0%N)) big_mkord; congr (_ * _)%N; apply: eq_bigr => m _; case: belongs.
rewrite exchange_big /=; apply: eq_bigr => m _.
have hx := mem_nth (0 : int, 0%N) (ltn_ord m); move: (nth _ chosen m) hx => x hx.
have [hi _] := chosen_kind LE LG M NO A3 SS small a0n aa0 ol ci EP hx.
have [hp [T [T' [TT' T'T _]]] _] := part _ hi; have [_ iE] := pairs_sound EP hx.
rewrite (nth_map (@Arr C 0 [::])) ?size_map // (nth_map (@Arr C 0 [::])) // -/(arr_nth Ls x.2) in iE.
have ed : adim (A (partner x.2)) = adim (A x.2).
  have := mulmx_max_rank T T'; have := mulmx_max_rank T' T; rewrite TT' T'T !mxrank1 => h1 h2.
  by apply/eqP; rewrite eqn_leq h1 h2.
have term (k : 'I_(size Ls)) : (belongs partner k x * adim (A k) ^ 2 = belongs partner k x * adim (A x.2) ^ 2)%N.
  by rewrite /belongs; case: eqP => [->//|_]; case: eqP => [<-|//] /=; rewrite ed.
rewrite [RHS](eq_bigr _ (fun k _ => term k)) -big_distrl /=; congr (_ * _)%N.
rewrite (bigD1 (Ordinal hi)) //= /belongs eqxx /=; case: (eqVneq x.1 0) => x0.
  have ne := other_ok LE LG M NO A3 SS small a0n aa0 in0 inv0 ol ci part hi.
  rewrite iE x0 mul0r in ne; have {}ne := ne erefl.
  rewrite (bigD1 (Ordinal hp)) /=; last by rewrite -val_eqE /=; apply/eqP.
  rewrite eqxx orbT /= big1 // => k /andP [k1 k2]; rewrite -!val_eqE /= in k1 k2.
  by rewrite eq_sym (negPf k1) eq_sym (negPf k2).
have own := own_ok LE LG M NO A3 SS small a0n aa0 in0 inv0 ol ci part hi iE (elimN eqP x0).
rewrite big1 // => k; rewrite -val_eqE /= own => k1; by rewrite eq_sym (negPf k1).
Qed.
(** A co-representation contains one of the irreps of the unitary half. *)
Lemma corep_constituent d (X : nat -> 'M[C]_d) : (0 < d)%N -> corep n mul e anti z X ->
  exists2 k, (k < size Ls)%N & exists2 T : 'M[C]_(d, adim (A k)), T != 0 &
    forall u, u \in H -> X (v u) *m T = T *m lft (A k) u.
Proof.
move=> d0 [X1 XM].
have LGl : group_law (size xsg) lmul le_ by rewrite -size_linear_rots; apply: (mult_group_law (linear_group LE LG M) (linear_multiplication LE M)).
have mfs := mup_fs LE M SS; rewrite size_linear_rots in mfs.
have [|k hk [T T0' hT]] := @constituent C _ _ _ LGl mup mfs _ _ _ ci d (fun p => X (nth 0%N xsg p)) d0.
  split; first by rewrite /linear_e nth_index ?(e_linear LE M).
  move=> p q hp hq; have [hp1 hp2] := nth_linear hp; have [hq1 _] := nth_linear hq.
  have := XM _ _ hp1 hq1; rewrite /corep_at hp2 /= => ->.
  by rewrite (nth_linear_mul LE M) // /mup (ss_mu SS) //; have [] := nth_linear hp; have [] := nth_linear hq.
exists k => //; exists T => // u hu; have vu : v u \in xsg by rewrite inx.
by have := hT (index (v u) xsg); rewrite index_mem nth_index //; apply.
Qed.
End List.
End Full.
