(** Real mode at k-points with 2k not a reciprocal lattice vector (irreps.py:127-140). *)
From Coq Require Import QArith ZArith String Lia List.
From mathcomp Require Import all_ssreflect all_algebra all_fingroup.
From Verif Require Import Py Mat3 MatQ GroupModel GroupSpec GroupProofs PointGroupModel PointGroupData RepSpec RepModel RepTheory CExpSpec IndexRepSpec IndexGroup RepProofs
  ChainModel SmallModel SmallSpec SmallTheory SmallExamples SpinorSpec RealSpec RealTheory PairTheory RealOutcome ClaimsChain.
Import Order.TTheory GRing.Theory Num.Theory.
Set Implicit Arguments.
Unset Strict Implicit.
Unset Printing Implicit Defensive.
Local Open Scope ring_scope.
Delimit Scope Z_scope with coqZ.

Section Bloch.
Variables (C : numClosedFieldType) (cexp : Q -> C).
Hypothesis ce : exp_spec cexp.
Lemma cexp_conj a : (cexp a)^* * cexp a = 1.
Proof. by rewrite mulrC -normCK (ce_norm ce) expr1n. Qed.
Lemma phase_not_real k : ~ vint (vadd k k) -> exists2 t, vint t & (cexp (Qopp (vdot k t)))^* != cexp (Qopp (vdot k t)).
Proof.
move=> nk.
have key t : (cexp (Qopp (vdot k t)))^* = cexp (Qopp (vdot k t)) -> qint (vdot (vadd k k) t).
  move=> h; have := cexp_conj (Qopp (vdot k t)); rewrite h -(ce_add ce) => /(ce_int ce) [z hz].
  exists (- z)%coqZ; rewrite inject_Z_opp -hz /vdot /vadd /=; ring.
pose ex := Vec (inject_Z 1%coqZ) (inject_Z Z0) (inject_Z Z0); pose ey := Vec (inject_Z Z0) (inject_Z 1%coqZ) (inject_Z Z0); pose ez := Vec (inject_Z Z0) (inject_Z Z0) (inject_Z 1%coqZ).
have i0 : qint (inject_Z Z0) by exists Z0. have i1 : qint (inject_Z 1%coqZ) by exists 1%coqZ.
have qe a b : Qeq a b -> qint a -> qint b by move=> h [z hz]; exists z; rewrite -h.
have [hx|hx] := boolP ((cexp (Qopp (vdot k ex)))^* == cexp (Qopp (vdot k ex))); last by exists ex.
have [hy|hy] := boolP ((cexp (Qopp (vdot k ey)))^* == cexp (Qopp (vdot k ey))); last by exists ey.
have [hz|hz] := boolP ((cexp (Qopp (vdot k ez)))^* == cexp (Qopp (vdot k ez))); last by exists ez.
case: nk; split; [|split].
- apply: qe (key ex (eqP hx)); rewrite /vdot /vadd /=; ring.
- apply: qe (key ey (eqP hy)); rewrite /vdot /vadd /=; ring.
- apply: qe (key ez (eqP hz)); rewrite /vdot /vadd /=; ring.
Qed.

(** If 2k is not integral, the real representation of the space group determines the small
    representation. *)
Lemma bloch_forms_differ n e k d1 d2 (D1 : nat -> 'M[C]_d1) (D2 : nat -> 'M[C]_d2) :
  ~ vint (vadd k k) -> (e < n)%N -> D1 e = 1%:M -> D2 e = 1%:M ->
  same_physical n cexp k D1 D2 -> iequivalent n D1 D2.
Proof.
move=> /phase_not_real [t it nr] en e1 e2 [P [P' [PP PP' h]]].
set c := cexp _ in nr.
rewrite -(submxK P) -(submxK P') in PP PP' h.
move: (ulsubmx P) (ursubmx P) (dlsubmx P) (drsubmx P) (ulsubmx P') (ursubmx P') (dlsubmx P') (drsubmx P') PP PP' h => A1 A2 A3 A4 B1 B2 B3 B4.
have blocks t' g : vint t' -> (g < n)%N -> let c' := cexp (Qopp (vdot k t')) in
    with_conjugate (bloch_rep cexp k D1 t' g) *m block_mx A1 A2 A3 A4 = block_mx A1 A2 A3 A4 *m with_conjugate (bloch_rep cexp k D2 t' g) ->
    [/\ c' *: (D1 g *m A1) = c' *: (A1 *m D2 g), c' *: (D1 g *m A2) = c'^* *: (A2 *m map_mx conjC (D2 g)) &
        c'^* *: (map_mx conjC (D1 g) *m A3) = c' *: (A3 *m D2 g)].
  move=> it' hg c'; rewrite /with_conjugate /bloch_rep !mulmx_block !mul0mx !mulmx0 !add0r !addr0 -/c'.
  case/eq_block_mx; rewrite !map_mxZ /= -!scalemxAl -!scalemxAr => -> -> -> _; split=> //.
move=> PP PP' h.
have [_ z2 z3] := blocks t e it en (h t e it en).
rewrite -/c e1 e2 !map_mx1 !mul1mx !mulmx1 in z2 z3.
have c0 : c - c^* != 0 by rewrite subr_eq0 eq_sym.
have A20 : A2 = 0.
  apply/eqP; have /eqP : (c - c^*) *: A2 = 0 by rewrite scalerBl z2 subrr.
  by rewrite scaler_eq0 (negbTE c0).
have A30 : A3 = 0.
  apply/eqP; have /eqP : (c - c^*) *: A3 = 0 by rewrite scalerBl z3 subrr.
  by rewrite scaler_eq0 (negbTE c0).
move: PP PP'; rewrite !mulmx_block A20 A30 !mul0mx !mulmx0 !addr0 !add0r !scalar_mx_block.
move=> /eq_block_mx [p1 _ _ _] /eq_block_mx [p2 _ _ _]; exists A1, B1; split=> // g hg.
have v0 : vint vzero by do ?split; exists Z0.
have [h1 _ _] := blocks vzero g v0 hg (h vzero g v0 hg).
move: h1; have -> : cexp (Qopp (vdot k vzero)) = 1.
  by apply/(ce_int ce); exists Z0; rewrite /vdot /=; ring.
by rewrite !scale1r.
Qed.
End Bloch.

Section Symmorphic.
Variables (C : numClosedFieldType) (E : numpy C) (rtol atol : Q).
Hypothesis NO : numpy_ok E rtol atol.
Hypothesis A8 : Qle atol (Qmake 1 8).
Hypothesis around_near : forall (z : C) (k : nat), `|z - k%:R| < 2%:R^-1 -> np_around E z = k%:R.
Local Notation eps := (qC C atol).
Let a0 : 0 <= eps := or_atol (no_oracles NO).
Let A3 : Qle atol (Qmake 1 3). Proof. exact: Qle_trans A8 _. Qed.
Let ce := or_cexp (no_oracles NO).
Variables (rots : list mat) (mul : nat -> nat -> nat) (e : nat) (k : vec) (method : string) (max_num : nat).
Local Notation n := (size rots).
Local Notation trans := (nseq n vzero).
Hypothesis small2 : (n * n)%:R * (2%:R * eps + eps ^+ 2) < 2%:R^-1.
Hypotheses (LG : lists_group rots) (M : multiplication rots mul e) (mok : method_ok E rots method).
Hypothesis nk : two_k_integral k = false.
Local Notation mu := (little_factor_system E rots trans k).
Let f real := enumerate_small_representations E rots trans k real method rtol atol max_num.

Lemma nth_zero j : List.nth j (trans : list vec) vzero = vzero.
Proof. by elim: n j => [|m IH] [|j] //=. Qed.
Lemma exp0 v : np_exp E (Qopp (vdot v vzero)) = 1.
Proof. by apply/(ce_int ce); exists Z0; rewrite /vdot /=; ring. Qed.
Lemma mu_one i j : mu i j = 1.
Proof. by rewrite /little_factor_system /factor_phase nth_zero exp0. Qed.
Lemma phases_id A : aorder A = n -> apply_phases E trans k A = A.
Proof.
case: A => d ms; rewrite /aorder /apply_phases /= => <-.
congr Arr; elim: ms => //= m ms IH; by rewrite exp0 scale1r IH.
Qed.

Lemma symmorphic_real :
  [\/ f true = CWarn /\ method = "Neto"%string /\ unlucky_samples n (np_rnd E) eps max_num,
      f true = COk ([::], [::], false) /\ method = "random"%string |
      exists L inds L' ps, [/\ f false = COk (L, inds, true), complete_list rots mul e (fun _ _ => 1) L', near_list eps L L',
        perm_eq (members ps) (iota 0 (size L)) &
        (forall i j, (i, j) \in ps <-> [/\ (i <= j)%N, (j < size L)%N &
            iequivalent n (fun g => map_mx conjC (aget (arr_nth L' i) g)) (aget (arr_nth L' j))]) /\
        exists Rs, f true = COk (Rs, nseq (size ps) 0, true) /\ size Rs = size ps]].
Proof.
have n0 : (0 < n)%N by apply: leq_ltn_trans (mt_e M).
have small : n%:R * (2%:R * eps + eps ^+ 2) < 2%:R^-1.
  apply: le_lt_trans small2; apply: ler_wpmul2r; last by rewrite ler_nat leq_pmulr.
  by apply: addr_ge0; [apply: mulr_ge0; rewrite ?ler0n|rewrite exprn_ge0].
have mr i j : (i < n)%N -> (j < n)%N -> mu i j \is Num.real by rewrite mu_one rpred1.
have fs : ifactor_system n mul e mu.
  by split=> [i j l _ _ _|i j _ _|]; rewrite !mu_one ?normr1.
pose co := enumerate_unitary_irreps E rots mu false method rtol atol max_num.
have fE r : f r = cbind co (fun co =>
  let irreps := [seq apply_phases E trans k A | A <- co.1.1] in
  if ~~ r then
    cbind (cmap (fun A => clift (frobenius_schur_indicator (np_int E) A)) irreps) (fun inds =>
    COk (irreps, inds, co.2))
  else cbind (physically_irreps E irreps (~~ two_k_integral k) eps max_num) (fun r => COk (r, co.2))) by [].
case: (unitary_real_outcome NO max_num A3 small LG M fs mr mok) => [[h1 h2]|[h1 h2]|[L [L' [inds [h1 cl nr si mean]]]]].
- by apply: Or31; split=> //; rewrite fE /co h1.
- by apply: Or32; split=> //; rewrite fE /co h1.
apply: Or33; rewrite -/co in h1.
have sL : size L = size L' := nr.1.
have ph : [seq apply_phases E trans k A | A <- L] = L.
  apply: (@eq_from_nth _ (@Arr C 0 [::])); rewrite size_map // => i hi.
  rewrite (nth_map (@Arr C 0 [::])) //; apply: phases_id.
  have [d [ms [ns [EA EB szz _]]]] := nr.2 i hi.
  by rewrite -/(arr_nth L i) EA /aorder /= szz -(cl.1 i) -?sL // EB.
have indE : inds = [seq np_int E (fs_number A) | A <- L] /\ forall m, (m < size L)%N -> np_int E (fs_number (arr_nth L m)) <= 1.
  move: h1; rewrite /co /enumerate_unitary_irreps; case: (raw_irreps _ _ _ _ _ _ _) => [[raw b]|||] //=.
  set I := [seq purify_irrep_value E eps A | A <- raw].
  case: (indicators E I) => [[-> hb]|[-> hb]] //= [<- <- _]; split=> //.
have pE := conjugated_pairsE a0 around_near M mr small2 cl nr.
have sc : size [seq get_character A | A <- L] = size L by rewrite size_map.
have sv : size (nseq (size L) false) = size [seq get_character A | A <- L] by rewrite size_nseq sc.
have [p1 p2 p3] := @pair_loop_members C E [seq get_character A | A <- L] (size L) 0 (nseq (size L) false) (esym sc) sv (fun i h => False_ind _ (elimF idP (ltn0 i) h)).
rewrite -/(conjugated_pairs E L) in p1 p2 p3.
have inp i j : (i, j) \in conjugated_pairs E L -> (i < size L)%N /\ (j < size L)%N.
  move=> h.
  have mem x : (x == i) || (x == j) -> x \in members (conjugated_pairs E L).
    move=> hx; apply/flattenP; eexists; first by apply/mapP; exists (i, j).
    by rewrite /=; move: hx; case: (i =P j) => [->|_]; rewrite !inE ?orbb.
  by split; [have := mem i|have := mem j]; rewrite eqxx ?orbT => /(_ isT); rewrite p2 sc => /andP [].
exists L, inds, L', (conjugated_pairs E L); split=> //.
- rewrite fE h1 /= ph indE.1.
  by case: (indicators E L) => [[-> _]|[_ [m [hm]]]] //=; rewrite ltNge indE.2.
- split; first exact: cl.1.
  by apply: complete_eq (mult_group_law LG M) (fun i j _ _ => mu_one i j) (fun _ _ _ _ => erefl) cl.2.
- apply: uniq_perm => //; first exact: iota_uniq.
  by move=> i; rewrite p2 sc mem_iota /= add0n nth_nseq; case: ltnP.
split.
  move=> i j; split=> [h|[le lt eq]].
    have [hi hj] := inp i j h; have le := p3 _ h; split=> //.
    by apply/(pE i j); rewrite // -sL.
  by apply/(pE i j) => //; rewrite -sL //; apply: leq_ltn_trans lt.
rewrite fE h1 /= ph nk /= /physically_irreps.
set st := (fun p : nat * nat => _).
have stE p : p \in conjugated_pairs E L -> exists R, st p = COk (R, 0).
  case: p => i j /inp [hi _]; rewrite /st /= indicatorE.
  have -> : (1 < np_int E (fs_number (nth (@Arr C 0 [::]) L i))) = false.
    by rewrite ltNge (indE.2 i hi).
  by rewrite /= /get_physically_irrep /=; eexists.
have [l [-> sl zl]] : exists l, [/\ cmap st (conjugated_pairs E L) = COk l, size l = size (conjugated_pairs E L) &
    [seq x.2 | x <- l] = nseq (size (conjugated_pairs E L)) 0].
  elim: (conjugated_pairs E L) stE => [|p ps IH] h; first by exists [::].
  have [R hR] := h p (mem_head _ _).
  have [|l [El sl zl]] := IH; first by move=> q hq; apply: h; rewrite in_cons hq orbT.
  by exists ((R, 0) :: l); rewrite /= hR /= El /= sl zl.
by rewrite /= zl; exists [seq x.1 | x <- l]; rewrite size_map sl.
Qed.
End Symmorphic.

(** ** The space group P3 *)
Definition p3_mul (i j : nat) : nat := ((i + j) %% 3)%N.
Lemma p3_group : lists_group p3_rots.
Proof.
split.
- by repeat constructor => //=; intuition discriminate.
- by left.
- by rewrite /p3_rots /= => a b [<-|[<-|[<-|[]]]] [<-|[<-|[<-|[]]]]; vm_compute; auto.
- by rewrite /p3_rots /= => a [<-|[<-|[<-|[]]]];
    [exists mid|exists (Mat (-1) 1 0 (-1) 0 0 0 0 1)%coqZ|exists (Mat 0 (-1) 0 1 (-1) 0 0 0 1)%coqZ]; vm_compute; auto.
Qed.
Lemma p3_multiplication : multiplication p3_rots p3_mul 0.
Proof.
split=> // [i j _ _|]; first by rewrite ltn_mod.
by case=> [|[|[|//]]] [|[|[|//]]].
Qed.
Lemma size_members (ps : seq (nat * nat)) : size (members ps) = (size ps + count (fun p => p.1 != p.2) ps)%N.
Proof.
elim: ps => // p ps IH; rewrite members_cons size_cat IH /=; case: eqP => _ /=; first by rewrite add0n add1n.
by rewrite addSn addnCA addSn.
Qed.

Section P3.
Variables (C : numClosedFieldType) (cexp : Q -> C).
Hypothesis ce : exp_spec cexp.
Definition p3_irrep (m g : nat) : 'M[C]_1 := (cexp (Qmake 1 3) ^+ (m * g))%:M.
Local Notation w := (cexp (Qmake 1 3)).
Lemma w3 : w ^+ 3 = 1.
Proof. by rewrite !exprS expr0 mulr1 -!(ce_add ce); apply/(ce_int ce); exists 1%coqZ. Qed.
Lemma w_neq1 : w != 1.
Proof. by apply/eqP => /(ce_int ce) [z]; rewrite /Qeq /= => h; lia. Qed.
Lemma w_conj : w^* = w ^+ 2.
Proof.
have w0 : w != 0 by rewrite -normr_eq0 (ce_norm ce) oner_eq0.
by apply: (mulIf w0); rewrite (cexp_conj ce) -exprSr w3.
Qed.
Lemma p3_irrep_rep m : iprojrep 3 p3_mul 0 (fun _ _ => 1) (p3_irrep m).
Proof.
split=> [|i j hi hj]; first by rewrite /p3_irrep muln0.
rewrite scale1r /p3_irrep -scalar_mxM -exprD; congr (_%:M).
rewrite /p3_mul -mulnDr {1}(divn_eq (i + j) 3) mulnDr exprD mulnA [(_ * _ * 3)%N]mulnC exprM w3 expr1n mul1r //.
Qed.
Lemma irrep1 (F : nat -> 'M[C]_1) : iirreducible 3 F.
Proof.
split=> // m W _; case: (W =P 0) => [|/eqP W0]; [by left|right].
have [j hj] : exists j, W 0 j != 0.
  apply/existsP; apply: contraNT W0; rewrite negb_exists => /forallP h.
  by apply/eqP/matrixP=> i j; rewrite (ord1 i) mxE; apply/eqP; move/negbNE: (h j).
exists ((W 0 j)^-1 *: delta_mx j 0); rewrite -scalemxAr; apply/matrixP=> a b.
rewrite !mxE (bigD1 j) //= big1 => [|i ij]; rewrite !mxE ?eqxx ?(negbTE ij) ?mulr0 //.
by rewrite !(ord1 _) mulr1 addr0 mulVf.
Qed.
Lemma p3_irrep_conj g : map_mx conjC (p3_irrep 1 g) = p3_irrep 2 g.
Proof. by rewrite map_scalar_mx /= rmorphX w_conj mul1n -exprM. Qed.
Lemma p3_inequivalent : ~ iequivalent 3 (p3_irrep 1) (p3_irrep 2).
Proof.
move/iequivalent_tr => /(_ 1%N isT); rewrite /p3_irrep !mxtrace_scalar !muln1 expr1 => h.
have w0 : w != 0 by rewrite -normr_eq0 (ce_norm ce) oner_eq0.
by move/eqP: w_neq1; apply; apply: (mulIf w0); rewrite mul1r -expr2.
Qed.
Lemma iequivalent_trans n d1 d2 d3 (A : nat -> 'M[C]_d1) (B : nat -> 'M[C]_d2) (D : nat -> 'M[C]_d3) :
  iequivalent n A B -> iequivalent n B D -> iequivalent n A D.
Proof.
case=> T [T' [h1 h2 h3]] [S [S' [g1 g2 g3]]]; exists (T *m S), (S' *m T'); split.
- by rewrite mulmxA -[_ *m S *m _]mulmxA g1 mulmx1.
- by rewrite mulmxA -[_ *m T' *m _]mulmxA h2 mulmx1.
- by move=> i hi; rewrite mulmxA h3 // -mulmxA g3 // mulmxA.
Qed.

Lemma p3_pairs L' ps : complete_list p3_rots p3_mul 0 (fun _ _ => 1 : C) L' ->
  perm_eq (members ps) (iota 0 (size L')) ->
  (forall i j, (i, j) \in ps <-> [/\ (i <= j)%N, (j < size L')%N &
            iequivalent 3 (fun g => map_mx conjC (aget (arr_nth L' i) g)) (aget (arr_nth L' j))]) ->
  size L' = 3%N /\ size ps = 2%N.
Proof.
move=> [_ ci] pe hp.
have d1 (i : 'I_(size L')) : adim (arr_nth L' i) = 1%N.
  have : (adim (arr_nth L' i) ^ 2 <= 3)%N by rewrite -[X in (_ <= X)%N](ci_squares ci) (bigD1 i) //= leq_addr.
  have [+ _] := ci_irreducible ci (ltn_ord i).
  by case: (adim _) => [|[|d]] // _ h; have : (2 ^ 2 <= d.+2 ^ 2)%N; [rewrite leq_sqr|move=> h2; have := leq_trans h2 h].
have s3 : size L' = 3%N.
  have := ci_squares ci; rewrite (eq_bigr (fun _ => 1%N)) => [|i _]; last by rewrite d1.
  by rewrite sum1_card card_ord.
split=> //.
have [k1 [h1 e1 _]] := ci_complete ci (p3_irrep_rep 1) (irrep1 _).
have [k2 [h2 e2 _]] := ci_complete ci (p3_irrep_rep 2) (irrep1 _).
have ne : k1 <> k2.
  by move=> kk; subst k2; apply: p3_inequivalent; apply: iequivalent_trans (iequivalent_sym e1) e2.
have c12 : iequivalent 3 (fun g => map_mx conjC (aget (arr_nth L' k1) g)) (aget (arr_nth L' k2)).
  apply: iequivalent_trans (iequivalent_conj e1) _; apply: iequivalent_trans (iequivalent_sym e2).
  by exists 1%:M, 1%:M; rewrite mulmx1; split=> // g _; rewrite p3_irrep_conj mulmx1 mul1mx.
have c21 : iequivalent 3 (fun g => map_mx conjC (aget (arr_nth L' k2) g)) (aget (arr_nth L' k1)).
  apply: iequivalent_sym; apply: iequivalent_trans _ (iequivalent_conj c12).
  by exists 1%:M, 1%:M; rewrite mulmx1; split=> // g _; rewrite cjxK mulmx1 mul1mx.
have : (0 < count (fun p : nat * nat => p.1 != p.2) ps)%N.
  rewrite -has_count; apply/hasP.
  case: (leqP k1 k2) => h; [exists (k1, k2)|exists (k2, k1)] => /=; try by apply/hp; split=> //; rewrite ltnW.
    by apply/eqP. by apply/eqP => /esym.
have := count_size (fun p : nat * nat => p.1 != p.2) ps.
have := perm_size pe; rewrite size_members size_iota s3.
case: (size ps) => [|[|[|x]]] //; case: (count _ _) => [|[|[|y]]] //; by rewrite !addnS ?addn0.
Qed.
End P3.
