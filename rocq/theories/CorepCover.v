(** Proofs about CorepModel: every irreducible representation of the unitary half belongs to
    exactly one of the returned co-representations. *)
From Coq Require Import QArith ZArith List String.
From mathcomp Require Import all_ssreflect all_algebra all_fingroup.
From Verif Require Import Py Mat3 MatQ GroupModel GroupSpec GroupProofs RepSpec RepModel RepTheory RepProofs Mx2 IndexRepSpec IndexGroup
  CExpSpec ChainModel ChainTheory SmallModel SmallSpec SmallTheory SpinorModel SpinorSpec SpinorTheory SpinorProofs SpinorConv CorepModel CorepSpec CorepProofs
  CorepTheory CorepKinds CorepBridge CorepPipeline CorepOutcome PurifyTheory RobustTheory ClaimsChain.
Import Order.TTheory GRing.Theory Num.Theory.
Set Implicit Arguments.
Unset Strict Implicit.
Unset Printing Implicit Defensive.
Local Open Scope ring_scope.

(** The choice of one member of each pair. *)
Section Pairs.
Variables (C : numClosedFieldType) (E : numpy C) (mu : nat -> nat -> C) (l1 l2 : list nat) (order : nat).
Variables (chars conj_chars : seq (seq C)) (partner : nat -> nat).
Local Notation isum i := (np_int E (corep_indicator_sum mu l1 l2 (nth [::] chars i))).
Hypothesis own : forall i, (i < size chars)%N -> (isum i %% order%:Z)%Z = 0 -> (isum i %/ order%:Z)%Z <> 0 -> partner i = i.
Hypothesis test : forall i j, (i < size chars)%N -> (j < size chars)%N ->
  is_equivalent_irrep (np_around E) (nth [::] conj_chars i) (nth [::] chars j) -> j = partner i.
Definition belongs (k : nat) (x : int * nat) : bool := eq_op x.2 k || eq_op (partner x.2) k.
Lemma pairs_count todo vis l : size vis = size chars -> (forall i, i \in todo -> (i < size chars)%N) ->
  (forall k, (k < size chars)%N -> ~~ nth true vis k -> k \in todo) ->
  corep_pairs E mu l1 l2 order chars conj_chars todo vis = COk l ->
  forall k, (k < size chars)%N -> count (belongs k) l = (~~ nth true vis k)%N.
Proof.
elim: todo vis l => [|i todo IH] vis l sv td cov /=.
  by case=> <- k hk /=; case: (boolP (~~ nth true vis k)) => // /cov; move/(_ hk).
have hi : (i < size chars)%N by apply: td; rewrite mem_head.
have td' j : j \in todo -> (j < size chars)%N by move=> hj; apply: td; rewrite inE hj orbT.
case: ifP => [vi|vi].
  by apply: IH => // k hk nv; have := cov k hk nv; rewrite inE => /orP [/eqP ek|//]; rewrite ek vi in nv.
case: ifP => // /negbFE /eqP m0; case: ifP => [/eqP nz|_].
  case EP: corep_pairs => [l'| | |] //= [<-] k hk.
  have pi := own hi m0 nz; rewrite /= /belongs /= pi orbb.
  have sv' : size (set_nth true vis i true) = size chars by rewrite size_set_nth sv; apply/maxn_idPr.
  have cov' k' : (k' < size chars)%N -> ~~ nth true (set_nth true vis i true) k' -> k' \in todo.
    move=> hk'; rewrite nth_set_nth /=; case: (eqVneq k' i) => // ne nv.
    by have := cov k' hk' nv; rewrite inE (negPf ne).
  rewrite -/(belongs k) (IH _ _ sv' td' cov' EP) // nth_set_nth /= [eq_op k i]eq_sym.
  by case: eqP => // <-; rewrite vi.
set j := find _ _; case: ifP => // hj.
case EP: corep_pairs => [l'| | |] //= [<-] k hk.
have := @nth_find _ 0%N (fun j => ~~ nth true (set_nth true vis i true) j &&
  is_equivalent_irrep (np_around E) (nth [::] conj_chars i) (nth [::] chars j)) (iota 0 (size chars)).
rewrite has_find size_iota -/j hj nth_iota // add0n => /(_ isT) /andP [nj /(test hi hj) pj].
move: j hj nj pj EP => j hj nj pj EP.
have sv' : size (set_nth true (set_nth true vis i true) j true) = size chars.
  by rewrite !size_set_nth sv; rewrite (maxn_idPr hi); apply/maxn_idPr.
have cov' k' : (k' < size chars)%N -> ~~ nth true (set_nth true (set_nth true vis i true) j true) k' -> k' \in todo.
  move=> hk'; rewrite nth_set_nth /=; case: (eqVneq k' j) => //= _; rewrite nth_set_nth /=; case: (eqVneq k' i) => //= ne nv.
  by have := cov k' hk' nv; rewrite inE (negPf ne).
rewrite /= (IH _ _ sv' td' cov' EP) // nth_set_nth /= nth_set_nth /= /belongs /= -pj.
move: nj; rewrite nth_set_nth /=; case: (eqVneq j i) => //= ne nj.
rewrite [eq_op k j]eq_sym [eq_op k i]eq_sym; case: (eqVneq j k) => [<-|_].
  by rewrite nj orbT.
by rewrite orbF; case: eqP => // <-; rewrite vi.
Qed.
Hypothesis divi : forall i, (i < size chars)%N -> (isum i %% order%:Z)%Z = 0.
Hypothesis other : forall i, (i < size chars)%N -> (isum i %/ order%:Z)%Z = 0 -> partner i <> i.
Hypothesis found : forall i, (i < size chars)%N ->
  is_equivalent_irrep (np_around E) (nth [::] conj_chars i) (nth [::] chars (partner i)).
Hypothesis part_lt : forall i, (i < size chars)%N -> (partner i < size chars)%N.
Hypothesis part_inv : forall i, (i < size chars)%N -> partner (partner i) = i.
Lemma pairs_total todo vis : (forall i, i \in todo -> (i < size chars)%N) ->
  (forall k, (k < size chars)%N -> nth true vis (partner k) = nth true vis k) ->
  exists l, corep_pairs E mu l1 l2 order chars conj_chars todo vis = COk l.
Proof.
elim: todo vis => [|i todo IH] vis td cl /=; first by exists [::].
have hi : (i < size chars)%N by apply: td; rewrite mem_head.
have td' j : j \in todo -> (j < size chars)%N by move=> hj; apply: td; rewrite inE hj orbT.
case: ifP => [vi|vi]; first exact: IH.
rewrite divi // eqxx /=; case: ifP => [/eqP nz|/negbFE /eqP z0].
  have [|l ->] := IH (set_nth true vis i true) td'; last by eexists.
  move=> k hk; rewrite !nth_set_nth /= cl //; congr (if _ then _ else _).
  have pi := own hi (divi hi) nz; apply/eqP/eqP => [pk|->] //.
  by rewrite -(part_inv hk) pk.
set j := find _ _; have ne : partner i <> i by apply: other.
have hp : (fun j => ~~ nth true (set_nth true vis i true) j &&
  is_equivalent_irrep (np_around E) (nth [::] conj_chars i) (nth [::] chars j)) (partner i).
  by rewrite /= found // andbT nth_set_nth /=; case: eqP => // _; rewrite cl // vi.
have hj : (j < size chars)%N.
  rewrite /j -[X in (_ < X)%N](size_iota 0) -has_find; apply/hasP; exists (partner i) => //.
  by rewrite mem_iota add0n part_lt.
have jp : j = partner i.
  have := @nth_find _ 0%N (fun j => ~~ nth true (set_nth true vis i true) j &&
    is_equivalent_irrep (np_around E) (nth [::] conj_chars i) (nth [::] chars j)) (iota 0 (size chars)).
  by rewrite has_find size_iota -/j hj nth_iota // add0n => /(_ isT) /andP [_ /(test hi hj)].
rewrite hj jp; have [|l ->] := IH (set_nth true (set_nth true vis i true) (partner i) true) td'; last by eexists.
move=> k hk; have set2 k' : nth true (set_nth true (set_nth true vis i true) (partner i) true) k' =
    if eq_op k' (partner i) then true else if eq_op k' i then true else nth true vis k'.
  by rewrite nth_set_nth /=; case: ifP => // _; rewrite nth_set_nth.
rewrite !set2 cl //.
have -> : eq_op (partner k) (partner i) = eq_op k i.
  by apply/eqP/eqP => [h|-> //]; rewrite -(part_inv hk) h part_inv.
have -> : eq_op (partner k) i = eq_op k (partner i).
  by apply/eqP/eqP => [<-|->]; rewrite part_inv.
by case: (eq_op k i); case: (eq_op k (partner i)).
Qed.
End Pairs.
Lemma count_one T (x0 : T) (p : pred T) l : count p l = 1%N ->
  exists m, [/\ (m < size l)%N, p (nth x0 l m) & forall m', (m' < size l)%N -> p (nth x0 l m') -> m' = m].
Proof.
elim: l => [//|x l IH] /=; case: (boolP (p x)) => px /=.
  rewrite add1n => -[c0]; have h : ~~ has p l by rewrite has_count c0.
  exists 0%N; split=> // -[//|m'] hm /= pm.
  by move/negP: h; case; apply/(has_nthP x0); exists m'.
rewrite add0n => /IH [m [hm pm un]]; exists m.+1; split=> // -[|m'] /=; first by rewrite (negPf px).
by move=> hm' /(un _ hm') ->.
Qed.

(** A sum over perturbed matrices. *)
Lemma inter_near (C : numClosedFieldType) n d (as_ bs as' bs' : seq 'M[C]_d) (R : 'M[C]_d) (eps B : C) :
  size as_ = n -> size bs = n -> size as' = n -> size bs' = n -> 0 <= eps ->
  (forall g i j, (g < n)%N -> `|nth 0 as_ g i j| <= 1) -> (forall g i j, (g < n)%N -> `|nth 0 bs g i j| <= 1) ->
  (forall g i j, (g < n)%N -> `|nth 0 as' g i j - nth 0 as_ g i j| <= eps) ->
  (forall g i j, (g < n)%N -> `|nth 0 bs' g i j - nth 0 bs g i j| <= eps) ->
  (forall i j, `|R i j| <= B) ->
  forall i j, `|intertwiner_sum as' bs' R i j - intertwiner_sum as_ bs R i j| <= (n * d ^ 2)%:R * (B * (2%:R * eps + eps ^+ 2)).
Proof.
move=> s1 s2 s3 s4 eps0 ua ub na nb hR i j.
rewrite /intertwiner_sum !(big_nth (0, 0)) !size_zip s1 s2 s3 s4 !minnn !big_mkord !summxE -sumrB natrM -mulrA.
apply: sum_bound => g; have hg := ltn_ord g; rewrite !nth_zip ?s1 ?s2 ?s3 ?s4 //=.
rewrite !mxE -sumrB expnS expn1 natrM -mulrA; apply: sum_bound => l.
rewrite !mxE !big_distrl -sumrB /=; apply: sum_bound => k.
have -> : forall a r b x y : C, a * r * b - x * r * y = r * (a * b - x * y).
  by move=> a r b x y; rewrite mulrBr !mulrA ![r * _]mulrC.
rewrite normrM; apply: ler_pmul => //; have := @prod_near C (nth 0 bs' g j l) (nth 0 as' g i k) (nth 0 bs g j l) (nth 0 as_ g i k) 1 1 eps eps0 ler01 ler01 (ub _ _ _ hg) (ua _ _ _ hg).
by rewrite !mul1r ![_ * (_)^*]mulrC; apply; [apply: nb|apply: na].
Qed.
Lemma unlucky_weaken (C : numClosedFieldType) n rnd (x y : C) max_num : x <= y -> unlucky_samples n rnd x max_num -> unlucky_samples n rnd y max_num.
Proof. by move=> xy [m [d [U [h1 h2 h3 h4]]]]; exists m, d, U; split=> // tr i j ht; apply: le_trans (h4 tr i j ht) xy. Qed.

Section Cover.
Variables (C : numClosedFieldType) (E : numpy C).
Variables (rots : list mat) (flags : list bool) (mul : nat -> nat -> nat) (e : nat) (rtol atol : Q).
Hypothesis LE : size flags = size rots.
Hypotheses (LG : lists_magnetic_group (combine rots flags)) (M : mag_multiplication (combine rots flags) mul e).
Hypotheses (NO : numpy_ok E rtol atol) (RO : rounds (np_around E)) (A3 : Qle atol (Qmake 1 3)).
Local Notation n := (size rots).
Local Notation anti := (anti flags).
Local Notation xsg := (linear_ops rots flags).
Local Notation eps := (qC C atol).
Let Gl := lin_group_law LE LG M.
Variables (z mu : nat -> nat -> C).
Hypothesis SS : sign_system (size rots) mul e z mu.
Hypothesis small : (n ^ 2)%:R * eps < 2%:R^-1.
Local Notation H := (linear_subgroup LE LG M).
Local Notation gT := (igT Gl).
Local Notation v := (@ival _ _ _ Gl).
Local Notation half := (linear_half (LE := LE) (LG := LG) (M := M)).
Local Notation inx := (in_xsg (LE := LE) (LG := LG) (M := M)).
Local Notation zw := (CorepBridge.w (LE := LE) (LG := LG) (M := M) (zi z)).
Local Notation lft A := (lift (LE := LE) (LG := LG) (M := M) (aget A)).
Let mup p q : C := mu (nth 0%N xsg p) (nth 0%N xsg q).
Local Notation lmul := (linear_mul rots flags mul).
Local Notation le_ := (linear_e rots flags e).
Let zs := ss_sign SS.
Let zc := ss_cocycle SS.
Let ze := ss_e SS.
Let ms := mu_sign SS.
Let p1 := CorepPipeline.wc (LE := LE) (LG := LG) (M := M) zc.
Let p2 := CorepPipeline.w1 LE LG M ze.
Let eps0 : 0 <= eps := or_atol (no_oracles NO).
Variables (a0 inv_a0 : nat).
Hypotheses (a0n : (a0 < n)%N) (aa0 : anti a0) (in0 : (inv_a0 < n)%N) (inv0 : mul inv_a0 a0 = e).
Local Notation gA := (ga LE LG M a0n).
Local Notation cm := (conj_mats rots flags mul mu a0 inv_a0).

Lemma elt p : (p < size xsg)%N -> exists x : gT, [/\ x \in H, v x = nth 0%N xsg p & index (v x) xsg = p].
Proof.
move=> hp; have [x hx ex] := xsg_elt LE LG M (mem_nth 0%N hp).
by exists x; split=> //; rewrite ex index_uniq ?uniq_linear.
Qed.
Section One.
Variable A : arr C.
Hypothesis rA : iprojrep (size xsg) lmul le_ mup (aget A).
Hypothesis uA : iunitary (size xsg) (aget A).
Hypothesis iA : iirreducible (size xsg) (aget A).
Lemma cm_at x : x \in H -> nth 0 (cm A) (index (v x) xsg) = conjrep zw gA (lft A) x.
Proof. exact: (conj_matsE ms a0n in0 inv0). Qed.
Lemma cm_rep : iprojrep (size xsg) lmul le_ mup (nth 0 (cm A)).
Proof.
have pD := lft_rep LE LG M SS rA.
have pB := conjrep_rep p1 p2 half (gaH LE LG M a0n aa0) pD.
split.
  have -> : le_ = index (v 1%g) xsg by rewrite (ival1 Gl).
  by rewrite cm_at ?group1 // (pr_one pB).
move=> p q /elt [x [hx ex <-]] /elt [y [hy ey <-]].
have -> : lmul (index (v x) xsg) (index (v y) xsg) = index (v (x * y)%g) xsg.
  have vx : v x \in xsg by rewrite inx.
  have vy : v y \in xsg by rewrite inx.
  by rewrite /linear_mul (nth_index _ vx) (nth_index _ vy).
rewrite !cm_at ?groupM // (lin_law pB) //.
congr (_ *: _); rewrite /mup !nth_index ?inx //.
by rewrite ms ?ival_lt.
Qed.
Lemma cm_uni : iunitary (size xsg) (nth 0 (cm A)).
Proof.
move=> p /elt [x [hx ex <-]]; rewrite cm_at //.
exact: (conjrep_uni zw half (gaH LE LG M a0n aa0) (lft_uni uA)).
Qed.
Lemma cm_irr : iirreducible (size xsg) (nth 0 (cm A)).
Proof.
case: iA => d0 h; split=> // m W hW.
have [|c0|[V hV]] := h m (conj_mx W).
- move=> q /elt [y [hy ey <-]]; set x := (y ^ gA^-1)%g.
  have xy : (x ^ gA)%g = y by rewrite /x conjgKV.
  have hx : x \in H.
    by rewrite /x conjgE invgK !half groupV hy; case: (gA \in H).
  have [|Y] := hW (index (v x) xsg); first by rewrite index_mem inx.
  rewrite cm_at // /conjrep xy => hY; exists ((-1) ^+ f zw gA x *: conj_mx Y).
  have := congr1 (conj_mx (n:=m)) hY; rewrite !conj_mxM conj_mxZ conj_mxK sgC_conj -scalemxAl => h2.
  rewrite -scalemxAr -h2 scalerA sgC_sq scale1r; by rewrite /lift.
- by left; rewrite -[W]conj_mxK c0 conj_mx0.
by right; exists (conj_mx V); rewrite -[W]conj_mxK -conj_mxM hV conj_mx1.
Qed.
End One.

(** Conjugating twice gives an equivalent representation. *)
Lemma cm_cm (A : arr C) : iprojrep (size xsg) lmul le_ mup (aget A) -> iunitary (size xsg) (aget A) ->
  iequivalent (size xsg) (aget A) (nth 0 (cm (Arr (cm A)))).
Proof.
move=> rA uA; have pD := lft_rep LE LG M SS rA.
have sH := sH half (gaH LE LG M a0n aa0); have us := lft_uni uA sH.
exists (lft A (gA * gA)%g), (adj (lft A (gA * gA)%g)); split=> //; first exact: mulmx1C.
move=> p /elt [x [hx ex <-]].
have hxa := cuH half (gaH LE LG M a0n aa0) hx.
have E2 : lft (Arr (cm A)) (x ^ gA)%g = conjrep zw gA (lft A) (x ^ gA)%g by have := cm_at A hxa.
have E3 := conj_conjrep p1 half (gaH LE LG M a0n aa0) pD hx.
rewrite (conj_matsE ms a0n in0 inv0) // /conjrep E2 -scalemxAr; exact: E3.
Qed.
Lemma cm_equivalent (A B : arr C) : iequivalent (size xsg) (aget A) (aget B) ->
  iequivalent (size xsg) (nth 0 (cm A)) (nth 0 (cm B)).
Proof.
move=> [T [T' [TT' T'T h]]]; exists (conj_mx T), (conj_mx T'); split; rewrite -?conj_mxM ?TT' ?T'T ?conj_mx1 //.
move=> p /elt [x [hx ex <-]]; rewrite !cm_at // /conjrep /lift -scalemxAl -scalemxAr -!conj_mxM h //.
by rewrite index_mem inx (cuH half (gaH LE LG M a0n aa0)).
Qed.
Lemma twice_half : (2 * size xsg <= n)%N.
Proof.
have -> : (2 * size xsg)%N = size (xsg ++ a0_ops rots flags mul a0) by rewrite size_cat size_map mul2n addnn.
rewrite -[X in (_ <= X)%N](size_iota 0); apply: uniq_leq_size.
  rewrite cat_uniq uniq_linear (uniq_a0 LE LG M a0n) andbT; apply/hasPn => i /(a0_disj LE M a0n aa0) //.
move=> i; rewrite mem_cat mem_iota add0n => /orP [|/(a0_lt LE M a0n) //].
by rewrite mem_linear => /andP [].
Qed.
Lemma eps1 : eps <= 1.
Proof. by apply: le_trans (atol_third C A3) _; rewrite invf_le1 ?ltr0n // ler1n. Qed.

Lemma equivalent_icip m d1 d2 d (F1 : nat -> 'M[C]_d1) (F2 : nat -> 'M[C]_d2) (F : nat -> 'M[C]_d) :
  iequivalent m F1 F2 -> icip m F1 F = icip m F2 F.
Proof.
move=> [T [T' [TT' T'T h]]]; apply: eq_bigr => i _; congr (_^* * _).
by rewrite -[F1 i]mulmx1 -TT' mulmxA h // mxtrace_mulC mulmxA T'T mul1mx.
Qed.
Lemma iequivalent_sym m d1 d2 (F1 : nat -> 'M[C]_d1) (F2 : nat -> 'M[C]_d2) : iequivalent m F1 F2 -> iequivalent m F2 F1.
Proof.
move=> [T [T' [TT' T'T h]]]; exists T', T; split=> // i hi.
by rewrite -[LHS]mul1mx -T'T -!mulmxA [T *m _]mulmxA -h // -!mulmxA TT' mulmx1.
Qed.
Lemma iequivalent_trans m d1 d2 d3 (F1 : nat -> 'M[C]_d1) (F2 : nat -> 'M[C]_d2) (F3 : nat -> 'M[C]_d3) :
  iequivalent m F1 F2 -> iequivalent m F2 F3 -> iequivalent m F1 F3.
Proof.
move=> [T [T' [TT' T'T h]]] [S [S' [SS' S'S h']]]; exists (T *m S), (S' *m T'); split.
- by rewrite mulmxA -[T *m S *m S']mulmxA SS' mulmx1.
- by rewrite mulmxA -[S' *m T' *m T]mulmxA T'T mulmx1.
by move=> i hi; rewrite mulmxA h // -!mulmxA h'.
Qed.
Lemma fin_choice N (P : nat -> nat -> Prop) : (forall k, (k < N)%N -> exists l, P k l) ->
  exists f, forall k, (k < N)%N -> P k (f k).
Proof.
elim: N => [|N IH] h; first by exists id.
have [f hf] : exists f, forall k, (k < N)%N -> P k (f k) by apply: IH => k hk; apply: h; apply: ltnW.
have [l hl] := h N (ltnSn N); exists (fun k => if k == N then l else f k) => k.
by rewrite ltnS leq_eqVlt; case: eqP => [->|_] //= hk; apply: hf.
Qed.

Section List.
Variable Ls : seq (arr C).
Hypothesis ol : forall k, (k < size Ls)%N -> aorder (arr_nth Ls k) = size xsg.
Hypothesis ci : complete_irreps (size xsg) lmul le_ mup (size Ls) (fun k => aget (arr_nth Ls k)).
Local Notation A k := (arr_nth Ls k).
Local Notation pur B := (purify_irrep_value E eps B).
Lemma dim_sq k : (k < size Ls)%N -> (adim (A k) ^ 2 <= size xsg)%N.
Proof. by move=> hk; rewrite -(ci_squares ci) (bigD1 (Ordinal hk)) //= leq_addr. Qed.
Lemma dims k l : (k < size Ls)%N -> (l < size Ls)%N -> (adim (A k) * adim (A l) <= size xsg)%N.
Proof.
move=> /dim_sq hk /dim_sq hl; case/orP: (leq_total (adim (A k)) (adim (A l))) => h.
  by apply: leq_trans hl; rewrite expnS expn1 leq_mul.
by apply: leq_trans hk; rewrite expnS expn1 leq_mul.
Qed.
Lemma small_sum k l : (k < size Ls)%N -> (l < size Ls)%N ->
  (size xsg * (adim (A k) * adim (A l)))%:R * (2%:R * eps + eps ^+ 2) < 2%:R^-1.
Proof.
move=> hk hl; apply: le_lt_trans small.
have h4 : (size xsg * (adim (A k) * adim (A l)) * 4 <= n ^ 2)%N.
  apply: leq_trans (_ : (2 * size xsg) * (2 * size xsg) <= _)%N; last by rewrite expnS expn1 leq_mul // twice_half.
  by rewrite mulnACA [X in (_ <= X)%N]mulnC leq_mul2r /= leq_mul2l dims // orbT.
have le4 : 2%:R * eps + eps ^+ 2 <= 4%:R * eps.
  rewrite -[4%:R]/((2 + 2)%:R) natrD mulrDl ler_add2l expr2 ler_wpmul2r //.
  by apply: le_trans eps1 _; rewrite ler1n.
apply: le_trans (ler_wpmul2l (ler0n _ _) le4) _.
by rewrite mulrA -natrM ler_wpmul2r // ler_nat.
Qed.
Lemma sum_small i : (i < size Ls)%N -> (size xsg)%:R * (adim (A i))%:R * eps < 2%:R^-1.
Proof.
move=> hi; apply: le_lt_trans small; rewrite -natrM ler_wpmul2r // ler_nat.
have sn' : (size xsg <= n)%N by rewrite size_filter (leq_trans (count_size _ _)) ?size_iota.
have d0 := (ci_irreducible ci hi).1.
by rewrite expnS expn1 leq_mul // (leq_trans _ sn') // (leq_trans _ (dim_sq hi)) // expnS expn1 leq_pmull.
Qed.
Lemma partners : exists partner : nat -> nat, forall k, (k < size Ls)%N ->
  [/\ (partner k < size Ls)%N, iequivalent (size xsg) (aget (A (partner k))) (nth 0 (cm (A k))) &
      forall l, (l < size Ls)%N -> iequivalent (size xsg) (aget (A l)) (nth 0 (cm (A k))) -> l = partner k].
Proof.
apply: (@fin_choice (size Ls) (fun k p => [/\ (p < size Ls)%N, iequivalent (size xsg) (aget (A p)) (nth 0 (cm (A k))) &
  forall l, (l < size Ls)%N -> iequivalent (size xsg) (aget (A l)) (nth 0 (cm (A k))) -> l = p])) => k hk.
exact: (ci_complete ci (cm_rep (ci_rep ci hk)) (cm_irr (ci_irreducible ci hk))).
Qed.
Variable partner : nat -> nat.
Hypothesis part : forall k, (k < size Ls)%N ->
  [/\ (partner k < size Ls)%N, iequivalent (size xsg) (aget (A (partner k))) (nth 0 (cm (A k))) &
      forall l, (l < size Ls)%N -> iequivalent (size xsg) (aget (A l)) (nth 0 (cm (A k))) -> l = partner k].
Lemma test_ok i j : (i < size Ls)%N -> (j < size Ls)%N ->
  is_equivalent_irrep (np_around E) (get_character_mats (cm (pur (A i)))) (get_character (pur (A j))) = eq_op j (partner i).
Proof.
move=> hi hj; have n0 : (0 < size xsg)%N by have := e_linear LE M; rewrite -index_mem; apply: leq_ltn_trans.
have [hp eqp _] := part hi.
have ic : icip (size xsg) (nth 0 (cm (A i))) (nth 0 (amats (A j))) = (nat_of_bool (eq_op j (partner i)) * size xsg)%:R.
  by rewrite -(equivalent_icip _ eqp) (ci_orthogonal ci) // eq_sym; case: eqP; rewrite ?mul1n ?mul0n.
have tn := @test_near C (size xsg) (adim (A i)) (adim (A j)) eps (cm (A i)) (cm (pur (A i))) (amats (A j)) (amats (pur (A j)))
  eps0 _ _ _ _ _ _ (np_around E) (eq_op j (partner i)) RO n0 (small_sum hi hj) ic.
transitivity (eq_op (nat_of_bool (eq_op j (partner i))) 1%N); last by case: (eq_op j (partner i)).
apply: tn.
- exact: (size_conj_mats rots flags mul mu a0 inv_a0 (pur (A i))).
- exact: (purified_order _ _ (ol hj)).
- exact: (cm_uni (ci_unitary ci hi)).
- exact: (ci_unitary ci hj).
- move=> g a b; case: (ltnP g (size xsg)) => hg.
    exact: (conj_mats_near LE LG M NO SS A3 (ol hi) a0n aa0 in0 inv0 a b hg).
  by rewrite (nth_default _ (_ : (size (cm (pur (A i))) <= g)%N)) ?size_conj_mats // (nth_default _ (_ : (size (cm (A i)) <= g)%N)) ?size_conj_mats // subrr normr0.
move=> g a b; case: (ltnP g (size xsg)) => hg.
  by rewrite -/(aget (pur (A j)) g) (purified_at _ _ (ol hj)) // mxE; apply: (sn_near NO A3).
have s1 : size (amats (pur (A j))) = size xsg by exact: (purified_order _ _ (ol hj)).
have s2 : size (amats (A j)) = size xsg by exact: (ol hj).
by rewrite (nth_default _ (_ : (size (amats (pur (A j))) <= g)%N)) ?s1 // (nth_default _ (_ : (size (amats (A j)) <= g)%N)) ?s2 // subrr normr0.
Qed.
Lemma partner_inv k : (k < size Ls)%N -> partner (partner k) = k.
Proof.
move=> hk; have [hp ep _] := part hk; have [_ _ un] := part hp; symmetry; apply: un => //.
apply: iequivalent_trans (cm_cm (ci_rep ci hk) (ci_unitary ci hk)) _.
by apply: iequivalent_sym; apply: (@cm_equivalent (A (partner k)) (Arr (cm (A k)))).
Qed.
Lemma other_ok i : (i < size Ls)%N ->
  np_int E (corep_indicator_sum mu (a0_ops rots flags mul a0) (sq_ops rots flags mul a0) (get_character (pur (A i)))) = 0 ->
  partner i <> i.
Proof.
move=> hi iE pi; have [oA rA uA iA] := And4 (ol hi) (ci_rep ci hi) (ci_unitary ci hi) (ci_irreducible ci hi).
have iE' : np_int E (corep_indicator_sum mu (a0_ops rots flags mul a0) (sq_ops rots flags mul a0) (get_character (pur (A i)))) = 0 * (size xsg)%:Z.
  by rewrite mul0r.
have T := total_near LE LG M NO SS A3 oA rA uA a0n aa0 iA (sum_small hi) iE'.
have K := kind_of SS rA uA aa0 iA T.
have [_ [S [S' [SS' _ h]]] _] := part hi; rewrite pi in S S' SS' h.
case: K => [[//]|[//]|[_ K]]; have S0 : S = 0.
  apply: K; apply/(interE LE LG M SS a0n aa0) => x hx.
  by have := h (index (v x) xsg); rewrite index_mem inx hx cm_at // => /(_ isT).
have := iA.1; rewrite lt0n; move/eqP: SS'; rewrite S0 mul0mx eq_sym -mxrank_eq0 mxrank1 => ->.
done.
Qed.
Lemma own_ok i (k : int) : (i < size Ls)%N ->
  np_int E (corep_indicator_sum mu (a0_ops rots flags mul a0) (sq_ops rots flags mul a0) (get_character (pur (A i)))) = k * (size xsg)%:Z ->
  k <> 0 -> partner i = i.
Proof.
move=> hi iE k0; have [oA rA uA iA] := And4 (ol hi) (ci_rep ci hi) (ci_unitary ci hi) (ci_irreducible ci hi).
have T := total_near LE LG M NO SS A3 oA rA uA a0n aa0 iA (sum_small hi) iE.
have K := kind_of SS rA uA aa0 iA T.
have [U [/(interE LE LG M SS a0n aa0) hU UU]] : exists U, conj_intertwiner n mul anti z a0 (fun p => aget (A i) (index p xsg)) U /\ U *m adj U = 1%:M.
  by case: K => [[_ [U [h1 h2 _]]]|[_ [U [h1 h2 _]]]|[/k0 []]]; exists U.
have [hp _ un] := part hi; symmetry; apply: un => //; exists U, (adj U); split=> //; first exact: mulmx1C.
by move=> p /elt [x [hx ex <-]]; rewrite cm_at // -hU.
Qed.
(** A failed search for the antiunitary part. *)
Lemma missed i (k : int) max_num B : (i < size Ls)%N ->
  np_int E (corep_indicator_sum mu (a0_ops rots flags mul a0) (sq_ops rots flags mul a0) (get_character (pur (A i)))) = k * (size xsg)%:Z ->
  k <> 0 -> (forall trial d (a b : 'I_d), (trial < max_num)%N -> `|np_rnd E trial d a b| <= B) ->
  get_intertwiner_mats (np_powinv E) (np_rnd E) eps max_num (amats (pur (A i))) (cm (pur (A i))) = None ->
  unlucky_samples (size xsg) (np_rnd E) (eps + (size xsg ^ 2)%:R * (B * (2%:R * eps + eps ^+ 2))) max_num.
Proof.
move=> hi iE k0 hB; have [oA rA uA iA] := And4 (ol hi) (ci_rep ci hi) (ci_unitary ci hi) (ci_irreducible ci hi).
have T := total_near LE LG M NO SS A3 oA rA uA a0n aa0 iA (sum_small hi) iE.
have K := kind_of SS rA uA aa0 iA T.
have [U [/(interE LE LG M SS a0n aa0) hU UU]] : exists U, conj_intertwiner n mul anti z a0 (fun p => aget (A i) (index p xsg)) U /\ U *m adj U = 1%:M.
  by case: K => [[_ [U [h1 h2 _]]]|[_ [U [h1 h2 _]]]|[/k0 []]]; exists U.
rewrite /get_intertwiner_mats => /search_None_iff none.
have d0 := iA.1; have n0 : (0 < size xsg)%N by apply: leq_trans (dim_sq hi); rewrite expn_gt0 d0.
exists (size xsg), (adim (A i)), U; split=> //; first by rewrite n0 leqnn.
  by rewrite expn_gt0 d0 dim_sq.
move=> tr a b ht; have := none tr; rewrite add0n => /(_ ht) /forallP /(_ a) /forallP /(_ b).
set R := np_rnd E tr (adim (A i)).
have B0 : 0 <= B by apply: le_trans (hB tr _ a b ht).
have e0 : 0 <= 2%:R * eps + eps ^+ 2 by apply: addr_ge0; [apply: mulr_ge0; [exact: ler0n|exact: eps0]|apply: exprn_ge0; exact: eps0].
have nr := @inter_near C (size xsg) _ (amats (A i)) (cm (A i)) (amats (pur (A i))) (cm (pur (A i))) R eps B.
have {}nr : `|intertwiner_sum (amats (pur (A i))) (cm (pur (A i))) R a b - intertwiner_sum (amats (A i)) (cm (A i)) R a b|
    <= (size xsg * adim (A i) ^ 2)%:R * (B * (2%:R * eps + eps ^+ 2)).
  apply: nr; [exact: oA|exact: size_conj_mats|exact: (purified_order _ _ oA)|exact: size_conj_mats|exact: eps0| | | | |].
  - by move=> g c c' hg; apply: unitary_entry; apply: uA.
  - by move=> g c c' hg; apply: unitary_entry; apply: (cm_uni uA).
  - by move=> g c c' hg; rewrite -[nth 0 (amats (pur _)) g]/(aget (pur (A i)) g) (purified_at E atol oA hg) mxE; exact: (sn_near NO A3).
  - by move=> g c c' hg; exact: (conj_mats_near LE LG M NO SS A3 oA a0n aa0 in0 inv0 c c' hg).
  - by move=> c c'; apply: hB.
rewrite (isum_avg LE LG M ms a0n in0 inv0 oA) in nr; have fs := sign_fs C p1 p2.
have pD := lft_rep LE LG M SS rA; have uD := lft_uni (LE := LE) (LG := LG) (M := M) uA.
have N1 := irreducible_norm1 fs pD uD (lft_irr LE LG M iA).
have avE : avg H (lft (A i)) (conjrep zw gA (lft (A i))) R = (#|H|%:R / (adim (A i))%:R * \tr (R *m adj U)) *: U.
  have U2 : adj U *m U = 1%:M by apply: mulmx1C.
  rewrite -mul_scalar_mx -(avg_self fs pD uD N1) /avg mulmx_suml; apply: eq_bigr => s sH.
  have -> : conjrep zw gA (lft (A i)) s = adj U *m lft (A i) s *m U by rewrite -mulmxA hU // mulmxA U2 mul1mx.
  by rewrite !adjM adjK !mulmxA.
move=> le1; rewrite avE mxE card_linear in nr; set c := _ / _ * \tr _ in nr.
have -> : (size xsg)%:R / (adim (A i))%:R * `|\tr (R *m adj U)| * `|U a b| = `|c * U a b|.
  by rewrite !normrM normfV !normr_nat.
rewrite -[c * _](subrK (intertwiner_sum (amats (pur (A i))) (cm (pur (A i))) R a b)) addrC.
apply: le_trans (ler_norm_add _ _) _; apply: ler_add; first by [].
rewrite distrC; apply: le_trans nr _; apply: ler_wpmul2r; first exact: mulr_ge0.
by rewrite ler_nat [X in (_ <= X)%N]expnS expn1 leq_mul2l dim_sq ?orbT.
Qed.
(** From representations of the operations without time reversal to those of the positions. *)
Lemma half_rep d (X : nat -> 'M[C]_d) : linear_rep n mul e anti z X ->
  iprojrep (size xsg) lmul le_ mup (fun p => X (nth 0%N xsg p)).
Proof.
move=> [X1 XM _]; split; first by rewrite /linear_e nth_index ?(e_linear LE M).
move=> p q hp hq; have lin p' : (p' < size xsg)%N -> linear_op n anti (nth 0%N xsg p') by move=> h; rewrite /linear_op -mem_linear mem_nth.
by rewrite XM ?lin // (nth_linear_mul LE M) // /mup (ss_mu SS) //; have [] := nth_linear hp; have [] := nth_linear hq.
Qed.
Lemma half_irr d (X : nat -> 'M[C]_d) : linear_irreducible n anti X -> iirreducible (size xsg) (fun p => X (nth 0%N xsg p)).
Proof.
move=> [d0 h]; split=> // m W hW; apply: h => i hi; have hx : i \in xsg by rewrite mem_linear.
by have := hW (index i xsg); rewrite index_mem nth_index //; apply.
Qed.
Lemma half_equivalent d1 d2 (X : nat -> 'M[C]_d1) (F : nat -> 'M[C]_d2) :
  linear_equivalent n anti X (fun i => F (index i xsg)) <-> iequivalent (size xsg) F (fun p => X (nth 0%N xsg p)).
Proof.
split=> [[T [T' [TT' T'T h]]]|/iequivalent_sym [T [T' [TT' T'T h]]]].
  apply: iequivalent_sym; exists T, T'; split=> // p hp.
  by rewrite h ?index_uniq ?uniq_linear // /linear_op -mem_linear mem_nth.
exists T, T'; split=> // u hu; have hx : u \in xsg by rewrite mem_linear.
by have := h (index u xsg); rewrite index_mem nth_index //; apply.
Qed.
Lemma half_conj d (X : nat -> 'M[C]_d) (B : arr C) :
  conj_equivalent n mul anti z a0 X (fun i => aget B (index i xsg)) <->
  iequivalent (size xsg) (nth 0 (cm B)) (fun p => X (nth 0%N xsg p)).
Proof.
have key x (c : nat) : x \in H -> linear_op n anti c -> mul a0 c = mul (v x) a0 ->
    nth 0 (cm B) (index (v x) xsg) = (z (v x) a0 / z a0 c) *: map_mx conjC (aget B (index c xsg)).
  move=> hx hc E1; have [y hy ey] : exists2 y, y \in H & v y = c by apply: xsg_elt; rewrite mem_linear.
  have xy : (x ^ gA = y)%g by apply: (mulgI gA); rewrite cuE; apply: ival_inj; rewrite !ivalM ey.
  rewrite cm_at // /conjrep /f xy /lift ey /CorepBridge.w ey v_ga !zs -?ey ?ival_lt // sgC_inv sgC_add.
  done.
split=> [[T [T' [TT' T'T h]]]|/iequivalent_sym [T [T' [TT' T'T h]]]].
  apply: iequivalent_sym; exists T, T'; split=> // p /elt [x [hx <- <-]].
  have hc := cuH half (gaH LE LG M a0n aa0) hx.
  have lin y : y \in H -> linear_op n anti (v y) by rewrite -inx mem_linear.
  have E1 : mul a0 (v (x ^ gA)%g) = mul (v x) a0 by have := congr1 v (cuE gA x); rewrite !ivalM !v_ga.
  by rewrite (key x _ hx (lin _ hc) E1) -h ?lin.
exists T, T'; split=> // u c hu hc E1; have [x hx ex] : exists2 x, x \in H & v x = u by apply: xsg_elt; rewrite mem_linear.
have hxg : v x \in xsg by rewrite inx.
have := h (index (v x) xsg); rewrite index_mem nth_index // => /(_ hxg).
by rewrite -ex in E1 *; rewrite (key x c hx hc E1).
Qed.
Lemma chosen_total : let P := [seq pur B | B <- Ls] in exists chosen,
  corep_pairs E mu (a0_ops rots flags mul a0) (sq_ops rots flags mul a0) (size xsg) [seq get_character B | B <- P]
    [seq get_character_mats (cm B) | B <- P] (iota 0 (size P)) (nseq (size P) false) = COk chosen.
Proof.
have sP : size [seq get_character B | B <- [seq pur B | B <- Ls]] = size Ls by rewrite !size_map.
have n0 : (size xsg)%:Z <> 0 by have := e_linear LE M; rewrite -index_mem => h [] E0; rewrite E0 in h.
have key i : (i < size Ls)%N -> exists k, np_int E (corep_indicator_sum mu (a0_ops rots flags mul a0) (sq_ops rots flags mul a0)
    (nth [::] [seq get_character B | B <- [seq pur B | B <- Ls]] i)) = k * (size xsg)%:Z /\
    np_int E (corep_indicator_sum mu (a0_ops rots flags mul a0) (sq_ops rots flags mul a0) (get_character (pur (A i)))) = k * (size xsg)%:Z.
  move=> hi; have [oA rA uA iA] := And4 (ol hi) (ci_rep ci hi) (ci_unitary ci hi) (ci_irreducible ci hi).
  have [k [kE _]] := total_int LE LG M NO SS A3 oA rA uA a0n aa0 iA (sum_small hi).
  by exists k; rewrite (nth_map (@Arr C 0 [::])) ?size_map // (nth_map (@Arr C 0 [::])).
apply: (pairs_total (partner := partner)); rewrite ?sP.
- move=> i hi m0; have [k [-> kE]] := key i hi; rewrite mulzK ?(introF eqP n0) //.
  by move=> k0; apply: own_ok kE k0.
- move=> i j hi hj; rewrite !(nth_map (@Arr C 0 [::])) ?size_map // -/(arr_nth Ls i) -/(arr_nth Ls j) test_ok //.
  by move/eqP.
- by move=> i hi; have [k [-> _]] := key i hi; rewrite modzMl.
- move=> i hi; have [k [-> kE]] := key i hi; rewrite mulzK ?(introF eqP n0) // => k0.
  by apply: other_ok => //; rewrite kE k0 mul0r.
- move=> i hi; have [hp _ _] := part hi; rewrite !(nth_map (@Arr C 0 [::])) ?size_map //.
  by rewrite -/(arr_nth Ls i) -/(arr_nth Ls (partner i)) test_ok // eqxx.
- by move=> i hi; have [] := part hi.
- by move=> i hi; apply: partner_inv.
- by move=> i; rewrite mem_iota add0n size_map.
by move=> k hk; rewrite !nth_nseq !size_map hk; have [-> _ _] := part hk.
Qed.
(** The chosen irreps. *)
Variable chosen : seq (int * nat).
Hypothesis EP : let P := [seq pur B | B <- Ls] in
  corep_pairs E mu (a0_ops rots flags mul a0) (sq_ops rots flags mul a0) (size xsg) [seq get_character B | B <- P]
    [seq get_character_mats (cm B) | B <- P] (iota 0 (size P)) (nseq (size P) false) = COk chosen.
Let D m (i : nat) := aget (A (nth (0, 0%N) chosen m).2) (index i xsg).
Lemma chosen_lt m : (m < size chosen)%N -> ((nth (0%R : int, 0%N) chosen m).2 < size Ls)%N.
Proof.
move=> hm; have [+ _] := pairs_sound EP (mem_nth (0, 0%N) hm).
by rewrite mem_iota add0n size_map.
Qed.
Lemma chosen_kind x : x \in chosen -> (x.2 < size Ls)%N /\ [\/ x.1 = 1, x.1 = -1 | x.1 = 0].
Proof.
move=> hx; have [h1 h2] := pairs_sound EP hx; have hi : (x.2 < size Ls)%N by move: h1; rewrite mem_iota add0n size_map.
split=> //; rewrite (nth_map (@Arr C 0 [::])) ?size_map // (nth_map (@Arr C 0 [::])) // -/(arr_nth Ls x.2) in h2.
have [oA rA uA iA] := And4 (ol hi) (ci_rep ci hi) (ci_unitary ci hi) (ci_irreducible ci hi).
have T := total_near LE LG M NO SS A3 oA rA uA a0n aa0 iA (sum_small hi) h2.
by case: (kind_of SS rA uA aa0 iA T) => [[-> _]|[-> _]|[-> _]]; [apply: Or31|apply: Or32|apply: Or33].
Qed.
Lemma cover d (X : nat -> 'M[C]_d) : linear_rep n mul e anti z X -> linear_irreducible n anti X ->
  exists m, (m < size chosen)%N /\ forall m', (m' < size chosen)%N ->
    (linear_equivalent n anti X (D m') \/ conj_equivalent n mul anti z a0 X (D m')) <-> m' = m.
Proof.
move=> rX iX; have [k [hk Xk un]] := ci_complete ci (half_rep rX) (half_irr iX).
have sP : size [seq get_character B | B <- [seq pur B | B <- Ls]] = size Ls by rewrite !size_map.
have c1 : count (belongs partner k) chosen = 1%N.
  rewrite (pairs_count (E := E) (mu := mu) (l1 := a0_ops rots flags mul a0) (l2 := sq_ops rots flags mul a0) (order := size xsg)
    (partner := partner) _ _ _ _ _ EP) ?sP //.
  - by rewrite nth_nseq size_map hk.
  - move=> i hi; rewrite (nth_map (@Arr C 0 [::])) ?size_map // (nth_map (@Arr C 0 [::])) // -/(arr_nth Ls i) => m0 q0.
    set s := np_int _ _ in m0 q0; apply: (@own_ok i (s %/ (size xsg)%:Z)%Z) => //; rewrite -/s.
    by rewrite {1}(divz_eq s (size xsg)%:Z) m0 addr0.
  - move=> i j hi hj; rewrite !(nth_map (@Arr C 0 [::])) ?size_map // -/(arr_nth Ls i) -/(arr_nth Ls j) test_ok //.
    by move/eqP.
  - by rewrite size_nseq size_map.
  - by move=> i; rewrite mem_iota add0n size_map.
  by move=> i hi _; rewrite mem_iota add0n size_map.
have bel m : (m < size chosen)%N ->
    (linear_equivalent n anti X (D m) \/ conj_equivalent n mul anti z a0 X (D m)) <-> belongs partner k (nth (0, 0%N) chosen m).
  move=> hm; have hc := chosen_lt hm; have [hp ep up] := part hc.
  rewrite half_equivalent half_conj /belongs; split.
    case=> [h|h]; apply/orP; [left|right]; apply/eqP; first exact: un.
    by apply: un => //; apply: iequivalent_trans ep h.
  case/orP => /eqP h; [left|right]; first by rewrite h.
  by apply: iequivalent_trans (iequivalent_sym ep) _; rewrite h.
have [m [hm pm um]] := count_one (0, 0%N) c1.
exists m; split=> // m' hm'; rewrite bel //; split=> [|-> //]; exact: um.
Qed.
End List.
Lemma make_total t max_num (ind : int) (B : arr C) : (forall i j, (i < n)%N -> (j < n)%N -> tget t i j = mul i j) ->
  [\/ ind = 1, ind = -1 | ind = 0] -> aorder B = size xsg ->
  exists x, make_corep E n t mu xsg (a0_ops rots flags mul a0) a0 eps max_num ind (cm B) = COk x /\
    (~~ x.2 -> ind <> 0 /\ get_intertwiner_mats (np_powinv E) (np_rnd E) eps max_num (amats B) (cm B) = None).
Proof.
move=> tE k oB; have a00 : mul a0 a0 \in xsg.
  by rewrite mem_linear (lin_mulN LE M) //=; have [_ ->] := lin_mulE LE M a0n a0n; rewrite aa0.
rewrite /make_corep; case: k => -> /=; rewrite ?oB ?size_conj_mats ?eqxx /=.
- by eexists; split; first reflexivity; case: get_intertwiner_mats.
- by eexists; split; first reflexivity; case: get_intertwiner_mats.
by rewrite tE // /xsg_position a00 /=; eexists; split; first reflexivity.
Qed.
End Cover.

Section Total.
Variables (C : numClosedFieldType) (E : numpy C) (G : trig C) (L : 'M[C]_3).
Variables (rots : list mat) (trans : list vec) (flags : list bool) (kpt : vec) (mul : nat -> nat -> nat) (e : nat) (rtol atol : Q).
Hypotheses (LE : size flags = size rots) (sT : size trans = size rots).
Hypotheses (LG : lists_magnetic_group (combine rots flags)) (M : mag_multiplication (combine rots flags) mul e).
Hypotheses (NO : numpy_ok E rtol atol) (RO : rounds (np_around E)) (A3 : Qle atol (Qmake 1 3)).
Local Notation n := (size rots).
Local Notation xsg := (linear_ops rots flags).
Local Notation eps := (qC C atol).
Variables (z : nat -> nat -> C) (Us : seq 'M[C]_2).
Hypothesis spin : get_corep_spinor_factor_system E G L rots flags = Ret (z, Us, flags).
Hypothesis small : (n ^ 2)%:R * eps < 2%:R^-1.
Let mu i j : C := z i j * little_factor_system E rots trans kpt i j.
Let mup p q : C := mu (nth 0%N xsg p) (nth 0%N xsg q).
Variable z' : nat -> nat -> C.
Hypothesis SS : sign_system n mul e z' mu.
Lemma small_half a0 : (a0 < n)%N -> CorepBridge.anti flags a0 -> (size (linear_rots rots flags))%:R * (2%:R * eps + eps ^+ 2) < 2%:R^-1.
Proof.
move=> a0n aa0; apply: le_lt_trans small; rewrite size_linear_rots; have eps0 := or_atol (no_oracles NO).
have le4 : 2%:R * eps + eps ^+ 2 <= 4%:R * eps.
  rewrite -[4%:R]/((2 + 2)%:R) natrD mulrDl ler_add2l expr2 ler_wpmul2r //.
  by apply: le_trans (eps1 _ A3) _; rewrite ler1n.
apply: le_trans (ler_wpmul2l (ler0n _ _) le4) _; rewrite mulrA -natrM ler_wpmul2r // ler_nat.
have h := twice_half LE LG M a0n aa0; have h1 : (size xsg <= size xsg * size xsg)%N by case: (size xsg) => // k; rewrite leq_pmulr.
apply: leq_trans (_ : (2 * size xsg) * (2 * size xsg) <= _)%N; last by rewrite expnS expn1 leq_mul.
by rewrite mulnACA [X in (_ <= X)%N]mulnC leq_mul2r h1 orbT.
Qed.
Lemma corep_outcome method max_num B : method_ok E (linear_rots rots flags) method -> has id flags ->
  (forall trial d (a b : 'I_d), (trial < max_num)%N -> `|np_rnd E trial d a b| <= B) ->
  let f := enumerate_spinor_small_corepresentations E G L rots trans flags kpt method rtol atol max_num in
  [\/ f = CWarn /\ method = "Neto"%string /\ unlucky_samples (size xsg) (np_rnd E) eps max_num,
      exists r, [/\ f = COk r, ~~ co_ok r & (method = "random"%string /\ co_irreps r = [::]) \/
        unlucky_samples (size xsg) (np_rnd E) (eps + (size xsg ^ 2)%:R * (B * (2%:R * eps + eps ^+ 2))) max_num] |
      exists r, f = COk r /\ co_ok r].
Proof.
move=> mok hs hB f; have := unitary_outcome NO A3 (linear_group LE LG M) (linear_multiplication LE M) max_num
  (mup_fs LE M SS) mok.
rewrite size_linear_rots /f /enumerate_spinor_small_corepresentations .
have -> : forallb negb flags = false.
  apply/negbTE; apply/negP => /forallb_forall h; move/hasP: hs => [b /In_mem /h /= /negbTE nb hb].
  by rewrite /id nb in hb.
have nall : ~~ all id flags.
  apply/negP => /allP h; have [_] := lin_id LE M; rewrite /CorepBridge.anti.
  by rewrite (h (nth false flags e)) // mem_nth // LE (lin_e LE M).
have [tri [a0 [-> a0n aa0]]] := decompose_shape sT LE nall hs.
rewrite /= spin /=; set mu' := fun i j => z i j * _.
case=> [[-> h]|[-> h]|[Ls [cl [nr [[-> _]|[-> h]]]]]].
- by apply: Or31.
- have Gl := lin_group_law LE LG M; have [t ht] := cayley_total (combine rots flags) (mg_mul _ LG).
  rewrite ht /=; have tE i j : (i < n)%N -> (j < n)%N -> tget t i j = mul i j by rewrite -(size_ops LE); apply: (mag_table LG M ht).
  have W : wf_table n t by have [h1 [h2 _]] := cayley_spec _ _ ht; rewrite -(size_ops LE).
  have G2 : group_law n (tget t) e by apply: group_law_ext Gl => i j hi hj; rewrite tE.
  have [inv_a0 [-> _]] := inverse_index_correct _ _ _ _ W G2 (ssrnat.ltP a0n).
  rewrite /= -/(linear_ops rots flags) (a0u_ok flags tE a0n) (squares_ok LE M tE a0n) /=.
  by apply: Or32; eexists; split; [reflexivity| |left].
- have Gl := lin_group_law LE LG M; have [t ht] := cayley_total (combine rots flags) (mg_mul _ LG).
  rewrite ht /=; have tE i j : (i < n)%N -> (j < n)%N -> tget t i j = mul i j by rewrite -(size_ops LE); apply: (mag_table LG M ht).
  have W : wf_table n t by have [h1 [h2 _]] := cayley_spec _ _ ht; rewrite -(size_ops LE).
  have G2 : group_law n (tget t) e by apply: group_law_ext Gl => i j hi hj; rewrite tE.
  have [inv_a0 [-> [/ssrnat.ltP in0 [_ inv0]]]] := inverse_index_correct _ _ _ _ W G2 (ssrnat.ltP a0n).
  rewrite tE // in inv0.
  rewrite /= -/(linear_ops rots flags) (a0u_ok flags tE a0n).
  rewrite (cmap_all (g := fun A => existT (fun A : arr C => seq 'M[C]_(adim A)) A (conj_mats rots flags mul mu' a0 inv_a0 A))); last first.
    by move=> A; rewrite (conjugated_ok LE LG M mu' tE a0n aa0 in0 inv0).
  rewrite [cbind (COk _) _]/= (squares_ok LE M tE a0n) [cbind (COk _) _]/=.
  have [ol ci] := cl; rewrite size_linear_rots in ol ci.
  have [partner part] := partners LE LG M SS a0n aa0 in0 inv0 ci.
  have [chosen EP] := chosen_total LE LG M NO RO A3 SS small a0n aa0 in0 inv0 ol ci part.
  rewrite [corep_pairs _ _ _ _ _ _ _ _ _](_ : _ = COk chosen); last by rewrite -!map_comp; move: EP; rewrite /= -!map_comp.
  rewrite [cbind (COk _) _]/=.
  have ck := chosen_kind LE LG M NO A3 SS small a0n aa0 ol ci EP.
  set g := fun x : int * nat => make_corep _ _ _ _ _ _ _ _ _ _ _.
  have [cs [-> good]] : exists cs, cmap g chosen = COk cs /\ (all snd cs \/
      unlucky_samples (size xsg) (np_rnd E) (eps + (size xsg ^ 2)%:R * (B * (2%:R * eps + eps ^+ 2))) max_num).
    have sub : {subset chosen <= chosen} by [].
    elim: {-2}chosen sub => [|x l IH] sub /=; first by exists [::]; split=> //; left.
    have [|cs [-> good]] := IH; first by move=> y hy; apply: sub; rewrite inE hy orbT.
    have hx := sub x (mem_head _ _); have [hx2 k] := ck x hx.
    have -> : g x = make_corep E n t mu' xsg (a0_ops rots flags mul a0) a0 eps max_num x.1
        (conj_mats rots flags mul mu' a0 inv_a0 (purify_irrep_value E eps (arr_nth Ls x.2))).
      by rewrite /g (nth_map (@Arr C 0 [::])) ?size_map // [projT2 _]/= (nth_map (@Arr C 0 [::])).
    have oB := purified_order E atol (ol _ hx2).
    have [y [-> ym]] := make_total E atol LE M mu' inv_a0 a0n aa0 max_num tE k oB.
    eexists; split; first reflexivity; rewrite /=; case: good => [good|]; last by right.
    case: (boolP y.2) => [_|/ym [k0 none]]; [by left|right].
    have [_ iE] := pairs_sound EP hx.
    rewrite (nth_map (@Arr C 0 [::])) ?size_map // (nth_map (@Arr C 0 [::])) // -/(arr_nth Ls x.2) in iE.
    exact: (missed LE LG M NO A3 SS small a0n aa0 in0 inv0 ol ci hx2 iE k0 hB none).
  case: good => good; first by apply: Or33; eexists; split; first reflexivity.
  case: (boolP (all snd cs)) => good'; first by apply: Or33; eexists; split; first reflexivity.
  by apply: Or32; eexists; split; [reflexivity|exact: good'|right].
have real i j : (i < size (linear_rots rots flags))%N -> (j < size (linear_rots rots flags))%N -> mup i j \is Num.real.
  by rewrite size_linear_rots => hi hj; rewrite /mup (mup_sign SS) // rpredX // rpredN rpred1.
have [m [hm]] := h; have [le _] := fs_number_near NO (linear_group LE LG M) (linear_multiplication LE M)
  (mup_fs LE M SS) real (small_half a0n aa0) cl nr hm.
by rewrite ltNge le.
Qed.
End Total.
