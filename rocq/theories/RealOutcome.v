(** What the real mode of enumerate_unitary_irreps returns (irreps.py:204-240). *)
From Coq Require Import QArith ZArith List String Field.
From mathcomp Require Import all_ssreflect all_algebra all_fingroup.
From Verif Require Import Py Mat3 MatQ GroupModel GroupSpec GroupProofs GroupProofs2 PointGroupModel
  PointGroupSpec ChainSpec RepSpec RepModel CExpSpec RepTheory IndexRepSpec IndexGroup ChainModel ChainTheory RandomModel
  RepProofs SmallModel PurifyTheory SmallSpec GaugeTheory SmallTheory ClaimsChain ClaimsRandom SpinorSpec RealSpec RealTheory PairTheory FieldTac.
Import Order.TTheory GRing.Theory Num.Theory.
Set Implicit Arguments.
Unset Strict Implicit.
Unset Printing Implicit Defensive.
Local Open Scope ring_scope.
Delimit Scope Z_scope with coqZ.

Section ConjRep.
Variables (C : numClosedFieldType) (n : nat) (mul : nat -> nat -> nat) (e : nat) (mu : nat -> nat -> C).
Hypothesis mr : forall i j, (i < n)%N -> (j < n)%N -> mu i j \is Num.real.
Variables (d : nat) (D : nat -> 'M[C]_d).
Local Notation cjx := (map_mx (@conjC C)).
Lemma cjxK m k (A : 'M[C]_(m, k)) : cjx (cjx A) = A.
Proof. by apply/matrixP=> i j; rewrite !mxE conjCK. Qed.
Lemma conj_iprojrep : iprojrep n mul e mu D -> iprojrep n mul e mu (fun g => cjx (D g)).
Proof.
case=> h1 h2; split=> [|i j hi hj]; first by rewrite h1 map_mx1.
by rewrite -map_mxM h2 // map_mxZ /= conj_Creal // mr.
Qed.
Lemma conj_iunitary : iunitary n D -> iunitary n (fun g => cjx (D g)).
Proof.
move=> u i hi; have /(congr1 cjx) := u i hi; rewrite map_mxM map_mx1 => <-; congr (_ *m _).
by rewrite /adj map_trmx.
Qed.
Lemma conj_iirreducible : iirreducible n D -> iirreducible n (fun g => cjx (D g)).
Proof.
case=> d0 h; split=> // m W inv.
have [i hi|/(congr1 cjx)|[V hV]] := h m (cjx W).
- by have [Y hY] := inv i hi; exists (cjx Y); rewrite -map_mxM -hY map_mxM cjxK.
- by rewrite cjxK map_mx0; left.
- by right; exists (cjx V); rewrite -[W]cjxK -map_mxM hV map_mx1.
Qed.
End ConjRep.

Section Equiv.
Variables (C : numClosedFieldType) (n : nat).
Local Notation cjx := (map_mx (@conjC C)).
Lemma iequivalent_sym d1 d2 (A : nat -> 'M[C]_d1) (B : nat -> 'M[C]_d2) : iequivalent n A B -> iequivalent n B A.
Proof.
case=> T [T' [h1 h2 h3]]; exists T', T; split=> // i hi.
by rewrite -[LHS]mul1mx -h2 -mulmxA [T *m _]mulmxA -h3 // -!mulmxA h1 mulmx1.
Qed.
Lemma iequivalent_tr d1 d2 (A : nat -> 'M[C]_d1) (B : nat -> 'M[C]_d2) : iequivalent n A B ->
  forall i, (i < n)%N -> \tr (A i) = \tr (B i).
Proof.
case=> T [T' [h1 h2 h3]] i hi.
by rewrite -[A i]mulmx1 -h1 mulmxA h3 // -mulmxA mxtrace_mulC -mulmxA h2 mulmx1.
Qed.
Lemma iequivalent_conj d1 d2 (A : nat -> 'M[C]_d1) (B : nat -> 'M[C]_d2) :
  iequivalent n A B -> iequivalent n (fun i => cjx (A i)) (fun i => cjx (B i)).
Proof.
case=> T [T' [h1 h2 h3]]; exists (cjx T), (cjx T').
by rewrite -!map_mxM h1 h2 !map_mx1; split=> // i hi; rewrite -!map_mxM h3.
Qed.
End Equiv.

Section PairList.
Variables (C : numClosedFieldType) (E : numpy C) (eps : C).
Add Field pairC : (fth C).
Hypothesis eps0 : 0 <= eps.
Hypothesis around_near : forall (z : C) (k : nat), `|z - k%:R| < 2%:R^-1 -> np_around E z = k%:R.
Variables (rots : list mat) (mul : nat -> nat -> nat) (e : nat) (mu : nat -> nat -> C).
Hypotheses (LG : lists_group rots) (M : multiplication rots mul e) (fs : ifactor_system (size rots) mul e mu).
Hypothesis mr : forall i j, (i < size rots)%N -> (j < size rots)%N -> mu i j \is Num.real.
Local Notation n := (size rots).
Hypothesis small : (n * n)%:R * (2%:R * eps + eps ^+ 2) < 2%:R^-1.
Variables L L' : seq (arr C).
Hypotheses (cl : complete_list rots mul e mu L') (nr : near_list eps L L').
Local Notation D i := (aget (arr_nth L' i)).
Local Notation cjx := (map_mx (@conjC C)).
Let G := mult_group_law LG M.
Let sL : size L = size L' := nr.1.
Let n0 : (0 < n)%N. Proof. by apply: leq_ltn_trans (mt_e M). Qed.

Definition conj_rep i g : 'M[C]_(adim (arr_nth L' i)) := cjx (D i g).

Lemma dim_sq i : (i < size L')%N -> (adim (arr_nth L' i) ^ 2 <= n)%N.
Proof. by move=> hi; rewrite -[X in (_ <= X)%N](ci_squares cl.2) (bigD1 (Ordinal hi)) //= leq_addr. Qed.

(** The irrep equivalent to the conjugate of the i-th one. *)
Lemma conj_partner i : (i < size L')%N ->
  exists k, [/\ (k < size L')%N, iequivalent n (D k) (conj_rep i) &
    forall l, (l < size L')%N -> iequivalent n (D l) (conj_rep i) -> l = k].
Proof.
move=> hi; apply: (ci_complete cl.2).
  exact/(conj_iprojrep mr)/(ci_rep cl.2).
exact/conj_iirreducible/(ci_irreducible cl.2).
Qed.

Lemma conj_icip i j : (i < size L')%N -> (j < size L')%N ->
  (icip n (conj_rep i) (D j) = n%:R /\ iequivalent n (conj_rep i) (D j)) \/
  (icip n (conj_rep i) (D j) = 0 /\ ~ iequivalent n (conj_rep i) (D j)).
Proof.
move=> hi hj; have [k [hk ek uk]] := conj_partner hi.
have -> : icip n (conj_rep i) (D j) = icip n (D k) (D j).
  by apply: eq_bigr => g _; rewrite (iequivalent_tr ek).
rewrite (ci_orthogonal cl.2 hk hj); case: eqP => [kj|kj]; [left|right]; split=> //.
  by subst j; exact: iequivalent_sym.
by move/iequivalent_sym/(uk j hj)/esym.
Qed.

Lemma tr_bound i g : (i < size L')%N -> (g < n)%N -> `|\tr (D i g)| <= (adim (arr_nth L' i))%:R.
Proof.
move=> hi hg; rewrite -[X in _ <= X]mulr1; apply: sum_bound => a.
exact/unitary_entry/(ci_unitary cl.2).
Qed.

Lemma near_tr i g : (i < size L')%N -> (g < n)%N ->
  nth 0 (get_character (arr_nth L i)) g = \tr (aget (arr_nth L i) g) /\
  `|\tr (aget (arr_nth L i) g) - \tr (D i g)| <= (adim (arr_nth L' i))%:R * eps.
Proof.
move=> hi hg; have [d [ms [ns [EA EB szz h]]]] := nr.2 i (eq_rect_r (fun m => (i < m)%N) hi sL).
have sz := cl.1 i hi; rewrite EA EB; rewrite EB in sz; rewrite /aorder /= in sz.
split; first by rewrite /get_character /get_character_mats (nth_map 0) //= szz sz.
by rewrite /aget /= -raddfB; apply: sum_bound => a; rewrite !mxE; apply: h.
Qed.
Lemma near_size i : (i < size L')%N -> size (get_character (arr_nth L i)) = n.
Proof.
move=> hi; have [d [ms [ns [EA EB szz h]]]] := nr.2 i (eq_rect_r (fun m => (i < m)%N) hi sL).
by have sz := cl.1 i hi; rewrite EA size_map /= szz -sz EB.
Qed.

Lemma near_product (x y a b da db : C) : `|x| <= da -> `|y| <= db -> 0 <= da -> 0 <= db ->
  `|a - x| <= da * eps -> `|b - y| <= db * eps ->
  `|a * b - x * y| <= da * db * (2%:R * eps + eps ^+ 2).
Proof.
move=> hx hy da0 db0 ha hb.
have -> : a * b - x * y = (a - x) * (b - y) + (a - x) * y + x * (b - y).
  by to_field C; ring.
have -> : da * db * (2%:R * eps + eps ^+ 2) = (da * eps) * (db * eps) + (da * eps) * db + da * (db * eps).
  by rewrite expr2 mulr2n; to_field C; ring.
apply: le_trans (ler_norm_add _ _) _; rewrite normrM; apply: ler_add; last by apply: ler_pmul.
by apply: le_trans (ler_norm_add _ _) _; rewrite !normrM; apply: ler_add; apply: ler_pmul.
Qed.
Lemma dim_prod i j : (i < size L')%N -> (j < size L')%N ->
  (adim (arr_nth L' i) * adim (arr_nth L' j) <= n)%N.
Proof.
move=> /dim_sq hi /dim_sq hj; rewrite -leq_sqr expnMn -[X in (_ <= X)%N]mulnn.
exact: leq_mul.
Qed.

Lemma conjugate_test_near i j : (i < size L')%N -> (j < size L')%N ->
  reflect (iequivalent n (conj_rep i) (D j)) (conjugate_test E [seq get_character A | A <- L] i j).
Proof.
move=> hi hj; rewrite /conjugate_test /is_equivalent_irrep size_map.
rewrite !(nth_map (@Arr C 0 [::])) ?sL // -!/(arr_nth L _) near_size //.
set s := char_sum _ _.
have cs : s = \sum_(g < n) \tr (aget (arr_nth L i) g) * \tr (aget (arr_nth L j) g).
  rewrite /s /char_sum (big_nth (0, 0)) size_zip size_map !near_size // minnn big_mkord.
  apply: eq_bigr => g _; rewrite nth_zip; last by rewrite !size_map -!(size_map mxtrace) !near_size.
  rewrite /= (nth_map 0) ?near_size // conjCK.
  by rewrite (near_tr hi (ltn_ord g)).1 (near_tr hj (ltn_ord g)).1.
have ci : icip n (conj_rep i) (D j) = \sum_(g < n) \tr (D i g) * \tr (D j g).
  apply: eq_bigr => g _; congr (_ * _).
  have -> : \tr (conj_rep i g) = (\tr (D i g))^*.
    by rewrite /mxtrace rmorph_sum; apply: eq_bigr => a _; rewrite mxE.
  exact: conjCK.
have close : `|s - icip n (conj_rep i) (D j)| < 2%:R^-1.
  apply: le_lt_trans small; rewrite cs ci -sumrB natrM -mulrA; apply: sum_bound => g.
  have [_ b1] := near_tr hi (ltn_ord g); have [_ b2] := near_tr hj (ltn_ord g).
  apply: le_trans (near_product (tr_bound hi (ltn_ord g)) (tr_bound hj (ltn_ord g)) _ _ b1 b2) _; rewrite ?ler0n //.
  rewrite -natrM; apply: ler_wpmul2r; last by rewrite ler_nat dim_prod.
  by apply: addr_ge0; [apply: mulr_ge0; rewrite ?ler0n|rewrite exprn_ge0].
have nn : (0 : C) != n%:R by rewrite eq_sym pnatr_eq0 -lt0n.
apply: (iffP eqP); case: (conj_icip hi hj) => [[h eq]|[h ne]] // hh; rewrite h in close.
  by move/eqP: nn; rewrite -hh (@around_near s 0%N).
exact: around_near.
Qed.

Lemma conjugate_sym i j : (i < size L')%N -> (j < size L')%N -> iequivalent n (conj_rep i) (D j) ->
  iequivalent n (conj_rep j) (D i).
Proof.
move=> hi hj /iequivalent_conj /iequivalent_sym [T [T' [h1 h2 h3]]]; exists T, T'; split=> // g hg.
by rewrite h3 // /conj_rep cjxK.
Qed.

Lemma conjugated_pairsE i j : (i < size L')%N -> (j < size L')%N -> (i <= j)%N ->
  reflect (iequivalent n (conj_rep i) (D j)) ((i, j) \in conjugated_pairs E L).
Proof.
move=> hi hj le; rewrite /conjugated_pairs.
have sc : size [seq get_character A | A <- L] = size L' by rewrite size_map sL.
have sE : size L = size [seq get_character A | A <- L] by rewrite size_map.
rewrite {1 2}sE (pairs_conjugate (E := E)) ?sc //.
- case: (i =P j) => [<-|_]; last exact: conjugate_test_near.
  apply: (iffP idP) => [/forallP h|h].
    have [k [hk ek uk]] := conj_partner hi.
    have := h (Ordinal hk); rewrite /=; case: (k =P i) => [ki _|_ /=].
      by subst k; exact: iequivalent_sym.
    by move=> /(elimN (conjugate_test_near hi hk)) []; exact: iequivalent_sym.
  apply/forallP=> l; apply/implyP=> /eqP li; apply/negP => hq.
  have hl : (val l < size L')%N := ltn_ord l.
  have := elimT (conjugate_test_near hi hl) hq => h2.
  have [k [hk ek uk]] := conj_partner hi; apply: li.
  by rewrite (uk _ hl (iequivalent_sym h2)) (uk _ hi (iequivalent_sym h)).
- move=> a b ha hb /(conjugate_test_near ha hb)/(conjugate_sym ha hb) h.
  exact/(conjugate_test_near hb ha).
- move=> a b l ha hb hl /(conjugate_test_near ha hb) h1 /(conjugate_test_near ha hl) h2.
  have [k [hk ek uk]] := conj_partner ha.
  by rewrite (uk _ hb (iequivalent_sym h1)) (uk _ hl (iequivalent_sym h2)).
Qed.
End PairList.

Section RealMode.
Variables (C : numClosedFieldType) (E : numpy C) (rtol atol : Q).
Hypothesis NO : numpy_ok E rtol atol.
Hypothesis A8 : Qle atol (Qmake 1 8).
Hypothesis around_near : forall (z : C) (k : nat), `|z - k%:R| < 2%:R^-1 -> np_around E z = k%:R.
Local Notation eps := (qC C atol).
Let a0 : 0 <= eps := or_atol (no_oracles NO).
Let A3 : Qle atol (Qmake 1 3). Proof. exact: Qle_trans A8 _. Qed.
Let e8 : eps <= 8%:R^-1. Proof. by have := qC_le C A8; rewrite qC_inv. Qed.

Lemma near_purify_real A : near eps (purify_real_irrep_value eps A) A.
Proof.
case: A => d ms; exists d, [seq map_mx (snap eps (real_values C)) M | M <- ms], ms.
rewrite size_map; split=> // g i j; case: (ltnP g (size ms)) => hg.
  by rewrite (nth_map 0) // mxE; apply: (snap_dist (real_sep e8)).
by rewrite !nth_default ?size_map // subrr normr0.
Qed.

(** The matrices returned for a pair whose first member is the irrep A with indicator v. *)
Definition real_form (A : arr C) (v : int) (R : arr C) : Prop :=
  (v <> 1 -> near eps R (Arr [seq real_blocks M | M <- amats A])) /\
  (v = 1 -> adim R = adim A /\ aorder R = aorder A).

Let step irreps max_num (p : nat * nat) :=
  let A := nth (@Arr C 0 [::]) irreps p.1 in
  cbind (clift (frobenius_schur_indicator (np_int E) A)) (fun ind =>
  cbind (get_physically_irrep E A ind eps max_num) (fun R => COk (purify_real_irrep_value eps R, ind))).
Lemma step_all irreps max_num ps :
  (forall p, p \in ps -> -1 <= np_int E (fs_number (arr_nth irreps p.1)) <= 1) ->
  (cmap (step irreps max_num) ps = CWarn /\ exists2 p, p \in ps & np_int E (fs_number (arr_nth irreps p.1)) = 1) \/
  exists l, [/\ cmap (step irreps max_num) ps = COk l, size l = size ps &
    forall k, (k < size ps)%N -> let p := nth (0, 0)%N ps k in
      (nth (@Arr C 0 [::], 0) l k).2 = np_int E (fs_number (arr_nth irreps p.1)) /\
      real_form (arr_nth irreps p.1) (nth (@Arr C 0 [::], 0) l k).2 (nth (@Arr C 0 [::], 0) l k).1].
Proof.
elim: ps => [|p ps IH] hp; first by right; exists [::].
have /andP [g1 l1] := hp p (mem_head p ps).
have {}IH := IH (fun p' h => hp p' (mem_behead (s := p :: ps) h)).
set A := arr_nth irreps p.1 in g1 l1; set v := np_int E (fs_number A) in g1 l1.
have one : (step irreps max_num p = CWarn /\ v = 1) \/
    exists R, step irreps max_num p = COk (R, v) /\ real_form A v R.
  rewrite /step -[nth _ _ _]/A indicatorE -/v ltNge l1 /= /get_physically_irrep.
  case: (v =P 1) => [v1|v1].
    case: (get_intertwiner_mats _ _ _ _ _ _) => [U|] /=; last by left.
    right; eexists; split; [reflexivity|split=> // _; split=> //].
    by rewrite /aorder /= !size_map.
  have -> : (v == -1) || (v == 0) = true.
    move: g1 l1 v1; case: (v) => [[|[|k]]|[|k]] //.
  right; eexists; split; [reflexivity|split=> // _; exact: near_purify_real].
rewrite /=; case: one => [[-> v1]|[R [-> hR]]] /=.
  by left; split=> //; exists p => //; exact: mem_head.
case: IH => [[-> [p' h1 h2]]|[l [-> sl hl]]] /=.
  by left; split=> //; exists p' => //; rewrite in_cons h1 orbT.
by right; exists ((R, v) :: l); split=> //=; [rewrite sl|case=> [|k] //= hk; apply: hl].
Qed.

Lemma real_mode rots mul e (mu : nat -> nat -> C) method max_num :
  (size rots * size rots)%:R * (2%:R * eps + eps ^+ 2) < 2%:R^-1 ->
  lists_group rots -> multiplication rots mul e -> ifactor_system (size rots) mul e mu ->
  (forall i j, (i < size rots)%N -> (j < size rots)%N -> mu i j \is Num.real) ->
  method_ok E rots method ->
  let f real := enumerate_unitary_irreps E rots mu real method rtol atol max_num in
  [\/ f true = CWarn /\ method = "Neto"%string /\ unlucky_samples (size rots) (np_rnd E) eps max_num,
      f true = COk ([::], [::], false) /\ method = "random"%string |
      exists L inds L' ps, [/\ f false = COk (L, inds, true), complete_list rots mul e mu L', near_list eps L L',
        perm_eq (members ps) (iota 0 (size L)) &
        (forall i j, (i, j) \in ps <-> [/\ (i <= j)%N, (j < size L)%N &
            iequivalent (size rots) (fun g => map_mx conjC (aget (arr_nth L' i) g)) (aget (arr_nth L' j))]) /\
        ((f true = CWarn /\ exists2 i, (i < size L)%N & nth 0 inds i = 1) \/
         exists Rs vs, [/\ f true = COk (Rs, vs, true), size Rs = size ps, size vs = size ps &
           forall k, (k < size ps)%N -> let i := (nth (0, 0)%N ps k).1 in
             [/\ (i < size L)%N, nth 0 vs k = nth 0 inds i,
                 fs_meaning (size rots) (aget (arr_nth L' i)) (nth 0 vs k) &
                 real_form (arr_nth L i) (nth 0 vs k) (arr_nth Rs k)]])]].
Proof.
move=> small2 LG M fs mr mok f.
have n0 : (0 < size rots)%N by apply: leq_ltn_trans (mt_e M).
have small : (size rots)%:R * (2%:R * eps + eps ^+ 2) < 2%:R^-1.
  apply: le_lt_trans small2; apply: ler_wpmul2r; last by rewrite ler_nat leq_pmulr.
  by apply: addr_ge0; [apply: mulr_ge0; rewrite ?ler0n|rewrite exprn_ge0].
have fE : f false = cbind (raw_irreps E method rots mu rtol atol max_num) (fun raw =>
  let irreps := [seq purify_irrep_value E eps A | A <- raw.1] in
  cbind (cmap (fun A => clift (frobenius_schur_indicator (np_int E) A)) irreps) (fun inds => COk (irreps, inds, raw.2))) by [].
have tE : f true = cbind (raw_irreps E method rots mu rtol atol max_num) (fun raw =>
  let irreps := [seq purify_irrep_value E eps A | A <- raw.1] in
  cbind (physically_irreps E irreps false eps max_num) (fun r => COk (r, raw.2))) by [].
have noW irreps : cmap (fun A => clift (frobenius_schur_indicator (np_int E) A)) irreps <> CWarn.
  by case: (indicators E irreps) => [[-> _]|[-> _]].
case: (unitary_real_outcome NO max_num A3 small LG M fs mr mok) => [[h1 h2]|[h1 h2]|[L [L' [inds [h1 cl nr si mean]]]]].
- apply: Or31; split=> //; rewrite -/(f false) fE in h1; rewrite tE.
  move: h1; case: (raw_irreps _ _ _ _ _ _ _) => [[raw b]|||] //=.
  by case E1: (cmap _ _) => [a|x||] //= _; case: (noW _ E1).
- apply: Or32; split=> //; rewrite -/(f false) fE in h1; rewrite tE.
  move: h1; case: (raw_irreps _ _ _ _ _ _ _) => [[raw b]|||] //=.
  by case: (cmap _ _) => [a|x||] //= [-> _ ->].
apply: Or33; rewrite -/(f false) in h1.
have tE2 : f true = cbind (physically_irreps E L false eps max_num) (fun r => COk (r, true)).
  rewrite tE; move: h1; rewrite fE; case: (raw_irreps _ _ _ _ _ _ _) => [[raw b]|||] //=.
  by case: (cmap _ _) => [a|x||] //= [-> _ ->].
have indE : inds = [seq np_int E (fs_number A) | A <- L].
  move: h1; rewrite fE; case: (raw_irreps _ _ _ _ _ _ _) => [[raw b]|||] //=.
  by case: (indicators E [seq purify_irrep_value E eps A | A <- raw]) => [[-> _]|[-> _]] //= [-> <- _].
have sL : size L = size L' := nr.1.
have pE := conjugated_pairsE a0 around_near M mr small2 cl nr.
have sc : size [seq get_character A | A <- L] = size L by rewrite size_map.
have sv : size (nseq (size L) false) = size [seq get_character A | A <- L] by rewrite size_nseq sc.
have [p1 p2 p3] := @pair_loop_members C E [seq get_character A | A <- L] (size L) 0 (nseq (size L) false) (esym sc) sv (fun i h => False_ind _ (elimF idP (ltn0 i) h)).
rewrite -/(conjugated_pairs E L) in p1 p2 p3.
have inp i j : (i, j) \in conjugated_pairs E L -> (i < size L)%N /\ (j < size L)%N.
  move=> h.
  have mem x : (x == i) || (x == j) -> x \in members (conjugated_pairs E L).
    move=> hx; apply/flattenP; eexists; first by apply/mapP; exists (i, j).
    by rewrite /=; move: hx; case: (i =P j) => [->|_]; rewrite !inE ?orbb.
  by split; [have := mem i|have := mem j]; rewrite eqxx ?orbT => /(_ isT); rewrite p2 sc => /andP [].
have range i : (i < size L)%N -> -1 <= np_int E (fs_number (arr_nth L i)) <= 1.
  move=> hi; have := mean i hi; rewrite indE (nth_map (@Arr C 0 [::])) //.
  by case=> [[-> _]|[-> _]|[-> _]].
exists L, inds, L', (conjugated_pairs E L); split=> //.
  apply: uniq_perm => //; first exact: iota_uniq.
  by move=> i; rewrite p2 sc mem_iota /= add0n nth_nseq; case: ltnP.
split.
  move=> i j; split=> [h|[le lt eq]].
    have [hi hj] := inp i j h; have le := p3 _ h; split=> //.
    by apply/(pE i j); rewrite // -sL.
  by apply/(pE i j) => //; rewrite -sL //; apply: leq_ltn_trans lt.
rewrite tE2 /physically_irreps -/(step L max_num).
case: (@step_all L max_num (conjugated_pairs E L)) => [[i j] h|[-> [[i j] h hv]]|[l [-> sl hl]]].
- by apply: range; exact: (inp i j h).1.
- left; split=> //; exists i; first exact: (inp i j h).1.
  by rewrite indE (nth_map (@Arr C 0 [::])) //; exact: (inp i j h).1.
- right; exists [seq x.1 | x <- l], [seq x.2 | x <- l]; rewrite !size_map; split=> // k hk; set i := (nth _ _ k).1.
  have hi : (i < size L)%N.
    apply: (inp i (nth (0, 0)%N (conjugated_pairs E L) k).2 _).1.
    by rewrite /i -surjective_pairing mem_nth.
  have [e1 e2] := hl k hk; rewrite /arr_nth (nth_map (@Arr C 0 [::], 0)) ?sl // (nth_map (@Arr C 0 [::], 0)) ?sl //.
  split=> //; first by rewrite e1 indE (nth_map (@Arr C 0 [::])).
  by have := mean i hi; rewrite indE (nth_map (@Arr C 0 [::])) // e1.
Qed.
End RealMode.
