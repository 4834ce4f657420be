(** Proofs about the functions of representation.py. *)
From Coq Require Import QArith List.
From mathcomp Require Import all_ssreflect all_algebra all_fingroup.
From mathcomp.real_closed Require Import mxtens.
From Verif Require Import Py GroupModel GroupSpec GroupProofs RepSpec RepModel RepTheory IsoTheory IndexRepSpec IndexGroup.
Import Order.TTheory GRing.Theory Num.Theory.
Set Implicit Arguments.
Unset Strict Implicit.
Unset Printing Implicit Defensive.
Local Open Scope ring_scope.

(** * Regular representation (C20) *)
Section Regular.
Variables (C : numClosedFieldType) (n : nat) (t : table) (e : nat).
Hypothesis G : group_law n (tget t) e.
Variable mu : nat -> nat -> C.
Local Notation m := (tget t).
Let reg := @Arr C n (regular_mats t mu n).

Lemma mul_lt i j : (i < n)%N -> (j < n)%N -> (m i j < n)%N.
Proof. by move=> /ssrnat.ltP hi /ssrnat.ltP hj; apply/ssrnat.ltP; exact: (gl_closed _ _ _ G). Qed.
Lemma mulA i j k : (i < n)%N -> (j < n)%N -> (k < n)%N -> m i (m j k) = m (m i j) k.
Proof. by move=> /ssrnat.ltP hi /ssrnat.ltP hj /ssrnat.ltP hk; exact: (gl_assoc _ _ _ G). Qed.
Lemma mul_inv i : (i < n)%N -> exists j, [/\ (j < n)%N, m i j = e & m j i = e].
Proof.
move=> /ssrnat.ltP hi; have [j [h1 [h2 h3]]] := gl_inv _ _ _ G i hi.
by exists j; split=> //; apply/ssrnat.ltP.
Qed.
Lemma mul1 i : (i < n)%N -> m e i = i /\ m i e = i.
Proof. by move=> /ssrnat.ltP hi; split; [exact: (gl_1l _ _ _ G)|exact: (gl_1r _ _ _ G)]. Qed.
Lemma e_lt : (e < n)%N. Proof. exact/ssrnat.ltP/(gl_e _ _ _ G). Qed.
Lemma mulI k i j : (k < n)%N -> (i < n)%N -> (j < n)%N -> m k i = m k j -> i = j.
Proof.
move=> hk hi hj E; have [k' [hk' _ h2]] := mul_inv hk.
by rewrite -(proj1 (mul1 hi)) -(proj1 (mul1 hj)) -h2 -!mulA // E.
Qed.
Lemma mulI2 k i : (k < n)%N -> (i < n)%N -> m k i = i -> k = e.
Proof.
move=> hk hi E; have [i' [hi' h1 h2]] := mul_inv hi.
by rewrite -(proj2 (mul1 hk)) -h1 mulA // E.
Qed.

Lemma fill_regularE s k i j :
  fill_regular t mu s k i j = if ((k, j) \in s) && (i == m k j) then mu k j else 0.
Proof.
rewrite /fill_regular; elim/last_ind: s => [|s [k' j'] IH] //; rewrite foldl_rcons /set3 /= IH mem_rcons inE xpair_eqE.
case: (k =P k') => [->|_] //=; case: (j =P j') => [->|_] /=; last by rewrite andbF.
by rewrite andbT; case: (i =P m k' j') => //; rewrite andbF.
Qed.
Lemma regE k (i j : 'I_n) : (k < n)%N ->
  aget reg k i j = if val i == m k (val j) then mu k (val j) else 0.
Proof.
move=> kn; rewrite /aget /= (nth_map 0%N) ?size_iota // nth_iota // add0n mxE fill_regularE.
have -> //= : (k, val j) \in [seq (k, j) | k <- iota 0 n, j <- iota 0 n].
by apply/allpairsP; exists (k, val j); rewrite /= !mem_iota /= add0n kn ltn_ord.
Qed.

Lemma reg_mul a b (i j : 'I_n) : (a < n)%N -> (b < n)%N ->
  (aget reg a *m aget reg b) i j = if val i == m a (m b (val j)) then mu a (m b (val j)) * mu b (val j) else 0.
Proof.
move=> an bn; rewrite mxE; have bj : (m b (val j) < n)%N by exact: (mul_lt bn (ltn_ord j)).
rewrite (bigD1 (Ordinal bj)) //= big1 => [|k kk]; last first.
  rewrite [aget reg b _ _]regE //; case: eqP => [h|_]; last by rewrite mulr0.
  by case/eqP: kk; apply: val_inj.
rewrite addr0 !regE //= eqxx; case: eqP => _; by rewrite ?mul0r.
Qed.

Lemma reg_rep_iff :
  (forall a b, (a < n)%N -> (b < n)%N -> aget reg a *m aget reg b = mu a b *: aget reg (m a b)) <->
  (forall i j k, (i < n)%N -> (j < n)%N -> (k < n)%N -> mu i (m j k) * mu j k = mu (m i j) k * mu i j).
Proof.
split=> [h i j k hi hj hk|h a b ha hb].
  have hij := mul_lt hi hj; have hr := mul_lt hij hk.
  have := congr1 (fun M : 'M[C]_n => M (Ordinal hr) (Ordinal hk)) (h i j hi hj).
  by rewrite reg_mul // mxE regE //= -mulA // eqxx => ->; rewrite mulrC.
apply/matrixP => i j; rewrite reg_mul // mxE regE ?mul_lt // -(mulA ha hb (ltn_ord j)).
by case: eqP => _; rewrite ?mulr0 // (h a b j ha hb (ltn_ord j)) mulrC.
Qed.

Lemma reg_unitary_iff :
  (forall a, (a < n)%N -> aget reg a *m adj (aget reg a) = 1%:M) <->
  (forall i j, (i < n)%N -> (j < n)%N -> `|mu i j| = 1).
Proof.
have E a (i k : 'I_n) (an : (a < n)%N) : (aget reg a *m adj (aget reg a)) i k =
   \sum_(j < n) (if val i == m a (val j) then if val k == m a (val j) then mu a j * (mu a j)^* else 0 else 0).
  rewrite mxE; apply: eq_bigr => j _; rewrite adjE !regE //.
  by case: eqP => _; case: eqP => _; rewrite ?conjC0 ?mul0r ?mulr0.
split=> [h i j hi hj|h a an].
  have hr := mul_lt hi hj; have := congr1 (fun M : 'M[C]_n => M (Ordinal hr) (Ordinal hr)) (h i hi).
  rewrite E // (bigD1 (Ordinal hj)) //= eqxx big1 => [|k kk].
    rewrite addr0 mxE eqxx -normCK => /eqP; rewrite sqrf_eq1 => /orP [/eqP //|/eqP h'].
    by have := normr_ge0 (mu i j); rewrite h' oppr_ge0 ler10.
  by case: eqP => // h'; case/eqP: kk; apply: val_inj; rewrite /=; apply: (mulI hi).
apply/matrixP => i k; rewrite E // mxE.
have [a' [ha' h1 h2]] := mul_inv an.
have ai : (m a' i < n)%N by exact: mul_lt.
have mi : m a (m a' i) = i by rewrite mulA // h1 (mul1 (ltn_ord i)).1.
rewrite (bigD1 (Ordinal ai)) //= mi eqxx big1 => [|j jj]; last first.
  by case: eqP => // h'; case/eqP: jj; apply: val_inj => /=; apply: (mulI an) => //; rewrite mi.
rewrite addr0 [i == k]eq_sym -[(k == i :> nat)]/(k == i); case: eqP => // _.
by rewrite -normCK h // expr1n.
Qed.

Lemma reg_char : (forall j, (j < n)%N -> mu e j = 1) ->
  forall k, (k < n)%N -> \tr (aget reg k) = if k == e then n%:R else 0.
Proof.
move=> h k kn; rewrite /mxtrace; case: eqP => [->|ne].
  rewrite (eq_bigr (fun=> 1)) => [|i _]; first by rewrite sumr_const card_ord.
  by rewrite (regE i i e_lt) (mul1 (ltn_ord i)).1 eqxx (h _ (ltn_ord i)).
rewrite big1 // => i _; rewrite regE //; case: eqP => // h'; case: ne.
by apply: (mulI2 kn (ltn_ord i)).
Qed.
End Regular.

(** * Intertwiners (C21) *)
Section Inter.
Variables (C : numClosedFieldType) (n : nat) (mul : nat -> nat -> nat) (e : nat).
Hypothesis G : group_law n mul e.
Variable mu : nat -> nat -> C.
Hypothesis imufs : ifactor_system n mul e mu.
Variables (cpowinv : C -> nat -> C) (rnd : nat -> forall d, 'M[C]_d).
Hypothesis cpowinvP : forall z m, (0 < m)%N -> cpowinv z m ^+ m = z.
Variables (d : nat) (ms1 ms2 : seq 'M[C]_d).
Hypotheses (sz1 : size ms1 = n) (sz2 : size ms2 = n).
Let D1 (i : nat) : 'M[C]_d := nth 0 ms1 i.
Let D2 (i : nat) : 'M[C]_d := nth 0 ms2 i.
Hypotheses (p1 : iprojrep n mul e mu D1) (u1 : iunitary n D1).
Hypotheses (p2 : iprojrep n mul e mu D2) (u2 : iunitary n D2).

Let T := [set: igT G]%G.
Let F1 (g : igT G) := D1 (ival g).
Let F2 (g : igT G) := D2 (ival g).
Let mufs := ifs_fs G imufs.
Let P1 : projrep (imu mu) T F1. Proof. exact/(iprojrepE G). Qed.
Let P2 : projrep (imu mu) T F2. Proof. exact/(iprojrepE G). Qed.
Let U1 : unirep T F1. Proof. exact/(iunitaryE G). Qed.
Let U2 : unirep T F2. Proof. exact/(iunitaryE G). Qed.
Let cT : #|T| = n. Proof. by rewrite cardsT ival_card. Qed.

Lemma isum R : intertwiner_sum ms1 ms2 R = avg T F1 F2 R.
Proof.
rewrite /intertwiner_sum /avg (big_nth (0, 0)) size_zip sz1 sz2 minnn big_mkord.
rewrite [RHS](eq_bigl predT) => [|i]; last by rewrite inE.
apply: eq_bigr => i _; rewrite nth_zip ?sz1 ?sz2 //.
Qed.
Lemma isum_intertwines R i : (i < n)%N -> D1 i *m intertwiner_sum ms1 ms2 R = intertwiner_sum ms1 ms2 R *m D2 i.
Proof.
move=> hi; have [g <-] := ival_surj G hi; rewrite isum.
by apply: (avg_intertwines mufs R P1 P2 U2); rewrite inE.
Qed.

Section Irr.
Hypotheses (i1 : iirreducible n D1) (i2 : iirreducible n D2).
Let I1 : irreducible T F1. Proof. exact/(iirreducibleE G). Qed.
Let I2 : irreducible T F2. Proof. exact/(iirreducibleE G). Qed.
Let N1 := irreducible_norm1 mufs P1 U1 I1.
Let N2 := irreducible_norm1 mufs P2 U2 I2.
Lemma isum_scalar R : intertwiner_sum ms1 ms2 R = 0 \/
  exists a, [/\ 0 < a, intertwiner_sum ms1 ms2 R *m adj (intertwiner_sum ms1 ms2 R) = a%:M &
     intertwiner_sum ms1 ms2 R != 0].
Proof.
rewrite isum; have hT := avg_intertwines mufs R P1 P2 U2.
case: (intertwiner_scalar mufs P1 U1 N1 P2 U2 N2 hT) => [|[a [a0 h1 h2]]]; [by left|right].
exists a; split=> //; apply/eqP => z; move: h1; rewrite z mul0mx => /(congr1 mxtrace).
by rewrite mxtrace0 mxtrace_scalar => /eqP; rewrite eq_sym mulrn_eq0 (gt_eqF a0) orbF -leqn0 leqNgt i1.1.
Qed.
Lemma isum_ineq R : ~ iequivalent n D1 D2 -> intertwiner_sum ms1 ms2 R = 0.
Proof.
move=> ne; apply/eqP; apply/negPn/negP => nz; apply: ne; apply/(iequivalentE G).
rewrite isum in nz; exact: (intertwiner_equivalent mufs P1 U1 N1 P2 U2 N2 (avg_intertwines mufs R P1 P2 U2) nz).
Qed.
Lemma isum_dich R : intertwiner_sum ms1 ms2 R = 0 \/ iequivalent n D1 D2.
Proof.
have [->|nz] := eqVneq (intertwiner_sum ms1 ms2 R) 0; [by left|right].
apply/(iequivalentE G); rewrite isum in nz.
exact: (intertwiner_equivalent mufs P1 U1 N1 P2 U2 N2 (avg_intertwines mufs R P1 P2 U2) nz).
Qed.
Lemma normalised R : intertwiner_sum ms1 ms2 R != 0 ->
  let M := (cpowinv (\det (intertwiner_sum ms1 ms2 R)) d)^-1 *: intertwiner_sum ms1 ms2 R in
  M *m adj M = 1%:M /\ \det M = 1.
Proof.
move=> nz M; have d0 := i1.1.
have [z|[a [a0 h _]]] := isum_scalar R; first by rewrite z eqxx in nz.
set A := intertwiner_sum ms1 ms2 R in nz h M *; set c := cpowinv _ d in M *.
have dd : \det A * (\det A)^* = a ^+ d.
  by rewrite -det_map_mx -[\det (map_mx _ A)]det_tr -det_mulmx -/(adj A) h det_scalar.
have dn : \det A != 0.
  by apply: contraTneq a0 => z; move: dd; rewrite z mul0r => /esym /eqP; rewrite expf_eq0 d0 /= => /eqP ->; rewrite ltxx.
have cP : c ^+ d = \det A by exact: cpowinvP.
have c0 : c != 0 by apply: contraNneq dn => z; rewrite -cP z expr0n; case: (d) d0.
have cc : c * c^* = a.
  apply: (@pexpIrn _ d) => //; rewrite ?nnegrE ?mul_conjC_ge0 ?ltW //.
  by rewrite exprMn -rmorphX cP.
split.
  rewrite /M adjZ -scalemxAl -scalemxAr scalerA h fmorphV -invfM cc scale_scalar_mx mulVf //.
  by rewrite gt_eqF.
by rewrite detZ exprVn cP mulVf.
Qed.
End Irr.
End Inter.

(** * Frobenius-Schur indicator (C29) *)
Section FS.
Variables (C : numClosedFieldType) (n : nat) (mul : nat -> nat -> nat) (e : nat).
Hypothesis G : group_law n mul e.
Variable mu : nat -> nat -> C.
Hypothesis imufs : ifactor_system n mul e mu.
Hypothesis mu_real : forall i j, (i < n)%N -> (j < n)%N -> mu i j \is Num.real.
Variables (d : nat) (D : nat -> 'M[C]_d).
Hypotheses (pD : iprojrep n mul e mu D) (uD : iunitary n D) (irr : iirreducible n D).

Let T := [set: igT G]%G.
Let F (g : igT G) := D (ival g).
Let Fb (g : igT G) := map_mx conjC (D (ival g)).
Let mufs := ifs_fs G imufs.
Let pF : projrep (imu mu) T F. Proof. exact/(iprojrepE G). Qed.
Let uF : unirep T F. Proof. exact/(iunitaryE G). Qed.
Let iF : irreducible T F. Proof. exact/(iirreducibleE G). Qed.
Let nF := irreducible_norm1 mufs pF uF iF.
Let pFb : projrep (imu mu) T Fb.
Proof.
case: pF => h1 h2; split=> [|x y xT yT]; first by rewrite /Fb -[D _]/(F 1%g) h1 map_mx1.
rewrite /Fb -map_mxM -[D (ival x)]/(F x) -[D (ival y)]/(F y) h2 // map_mxZ /= conj_Creal //.
by apply: mu_real; exact: ival_lt.
Qed.
Let uFb : unirep T Fb.
Proof.
move=> x xT; have /(congr1 (map_mx (@conjC C))) := uF xT.
by rewrite map_mxM map_mx1 /adj -map_trmx.
Qed.
Let nFb : cip T Fb Fb = #|T|%:R.
Proof.
rewrite -nF /cip; apply: eq_bigr => s _.
have e1 : \tr (Fb s) = (\tr (F s))^* by rewrite /Fb /mxtrace rmorph_sum; apply: eq_bigr => i _; rewrite mxE.
by rewrite e1 conjCK mulrC.
Qed.

Definition fs_sum : C := \sum_(k < n) \sum_i \sum_j D k i j * D k j i.
(** The three cases. *)
Definition fs_inter (X : 'M[C]_d) : Prop := forall k, (k < n)%N -> D k *m X = X *m map_mx conjC (D k).

Lemma fs_sumE : fs_sum = \sum_i \sum_j avg T F Fb (delta_mx j i) i j.
Proof.
rewrite /fs_sum; under [RHS]eq_bigr => i _ do under eq_bigr => j _ do rewrite avgE.
rewrite exchange_big /=; apply: eq_bigr => i _; rewrite exchange_big /=; apply: eq_bigr => j _.
rewrite [RHS](eq_bigl predT) => [|g]; last by rewrite inE.
by apply: eq_bigr => g _; rewrite mxE conjCK.
Qed.
Lemma d_gt0 : (0 < d)%N. Proof. exact: irr.1. Qed.
Lemma n_neq0 : (n%:R : C) != 0.
Proof. by have := cardH_neq0 C T; rewrite cardsT ival_card. Qed.

Lemma fs_cases :
  (fs_sum = 0 /\ forall X, fs_inter X -> X = 0) \/
  exists U, [/\ fs_inter U, U *m adj U = 1%:M & (U^T = U /\ fs_sum = n%:R) \/ (U^T = - U /\ fs_sum = - n%:R)].
Proof.
have cT : #|T| = n by rewrite cardsT ival_card.
case: (cip_dich mufs pF uF nF pFb uFb nFb) => [[z ne]|[_ eq]].
  left.
  have Z X : fs_inter X -> X = 0.
    move=> hX; apply/eqP; apply/negPn/negP => X0; apply: ne.
    apply: (intertwiner_equivalent mufs pF uF nF pFb uFb nFb _ X0) => x _.
    by apply: hX; exact: ival_lt.
  split=> //; rewrite fs_sumE big1 // => i _; rewrite big1 // => j _.
  rewrite (Z (avg T F Fb _)) ?mxE // => k kn; have [g <-] := ival_surj G kn.
  by apply: (avg_intertwines mufs _ pF pFb uFb); rewrite inE.
right.
have [W [W' [h1 h2 h3]]] := eq.
have W0 : W != 0.
  apply: contraTneq d_gt0 => W0; move: h1; rewrite W0 mul0mx => /(congr1 mxtrace).
  by rewrite mxtrace0 mxtrace1 => /eqP; rewrite eq_sym pnatr_eq0 -eqn0Ngt.
have [z|[a [a0 g1 g2]]] := intertwiner_scalar mufs pF uF nF pFb uFb nFb h3; first by rewrite z eqxx in W0.
have cc : (sqrtC a)^* = sqrtC a by rewrite conj_Creal // realE sqrtC_ge0 ltW.
pose U := (sqrtC a)^-1 *: W.
have UU : U *m adj U = 1%:M.
  rewrite /U adjZ fmorphV cc -scalemxAl -scalemxAr g1 scalerA scale_scalar_mx; congr (_%:M).
  by rewrite -invfM -expr2 sqrtCK mulVf // gt_eqF.
have UU' : adj U *m U = 1%:M by apply: mulmx1C.
have hU x : x \in T -> F x *m U = U *m Fb x by move=> xT; rewrite -scalemxAr h3 // -scalemxAl.
clearbody U.
(* the transpose is again an intertwiner *)
have FbT x : x \in T -> (F x)^T *m Fb x = 1%:M.
  move=> xT; have /(congr1 trmx) := unirep_l uF xT.
  by rewrite trmx_mul trmx1 /adj trmxK.
have hUt x : x \in T -> F x *m U^T = U^T *m Fb x.
  move=> xT; have /(congr1 trmx) := hU x xT; rewrite !trmx_mul => h.
  have -> : U^T *m Fb x = F x *m ((Fb x)^T *m U^T) *m Fb x.
    rewrite mulmxA; have -> : (Fb x)^T = adj (F x) by [].
    by rewrite (uF xT) mul1mx.
  by rewrite -h -!mulmxA FbT // mulmx1.
have hUa x : x \in T -> Fb x *m adj U = adj U *m F x.
  move=> xT; have := congr1 (fun M => adj U *m M *m adj U) (hU x xT).
  by rewrite !mulmxA UU' mul1mx -[X in X = _]mulmxA UU mulmx1.
have sc : U^T *m adj U = (\tr (U^T *m adj U) / d%:R)%:M.
  apply: (schur_scalar mufs pF uF nF) => x xT.
  by rewrite mulmxA hUt // -mulmxA hUa // mulmxA.
set c := _ / _ in sc.
clearbody c.
have Uc : U^T = c *: U.
  by rewrite -mul_scalar_mx -sc -mulmxA UU' mulmx1.
have c2 : c * c = 1.
  have := congr1 trmx Uc; rewrite trmxK linearZ /= Uc scalerA => h.
  have := congr1 (fun M => \tr (M *m adj U)) h; rewrite -scalemxAl UU mxtraceZ mxtrace1.
  have d0 : (d%:R : C) != 0 by rewrite pnatr_eq0 -lt0n d_gt0.
  by move=> h'; apply: (mulIf d0); rewrite mul1r -h'.
have aE X : avg T F Fb X = (n%:R / d%:R * \tr (X *m adj U)) *: U.
  have cTR : (n%:R : C) = #|T|%:R by rewrite cT.
  rewrite cTR -mul_scalar_mx -(avg_self mufs pF uF nF) /avg mulmx_suml; apply: eq_bigr => x xT.
  have -> : adj (Fb x) = adj U *m adj (F x) *m U.
    rewrite -adjM hU // adjM -mulmxA UU' mulmx1 //.
  by rewrite !mulmxA.
have fsE : fs_sum = c * n%:R.
  rewrite fs_sumE.
  have d0 : (d%:R : C) != 0 by rewrite pnatr_eq0 -lt0n d_gt0.
  have -> : c * n%:R = n%:R / d%:R * (c * \tr (U *m adj U)).
    by rewrite UU mxtrace1 mulrC -!mulrA; congr (_ * _); rewrite mulrCA mulVf // mulr1.
  rewrite tr_mul_adj pair_big !mulr_sumr /=; apply: eq_bigr => -[i j] _ /=.
  rewrite aE mxE -!mulrA; congr (_ * (_ * _)).
  have -> : \tr (delta_mx j i *m adj U) = (U j i)^*.
    rewrite /mxtrace (bigD1 j) //= big1 => [|k kj].
      rewrite mxE (bigD1 i) //= big1 => [|l li]; first by rewrite !mxE !eqxx mul1r !addr0.
      by rewrite mxE (negPf li) andbF mul0r.
    by rewrite mxE big1 // => l _; rewrite mxE (negPf kj) mul0r.
  have -> : U j i = c * U i j by have := congr1 (fun M : 'M[C]_d => M i j) Uc; rewrite !mxE.
  have cr : c^* = c.
    by move/eqP: c2; rewrite -expr2 sqrf_eq1 => /orP [] /eqP ->; rewrite ?rmorphN ?rmorph1.
  by rewrite rmorphM cr -mulrA [(U i j)^* * _]mulrC.
exists U; split=> //; first by move=> k kn; have [g <-] := ival_surj G kn; apply: hU; rewrite inE.
move/eqP: c2; rewrite -expr2 sqrf_eq1 => /orP [] /eqP ce; [left|right].
  by rewrite fsE Uc ce scale1r mul1r.
by rewrite fsE Uc ce scaleN1r mulN1r.
Qed.
End FS.

(** * The search loop of get_intertwiner *)
Section Search.
Variables (C : numClosedFieldType) (cpowinv : C -> nat -> C) (rnd : nat -> forall d, 'M[C]_d) (atol : C).
Variables (d : nat) (rep1 rep2 : seq 'M[C]_d).
Local Notation smp j := (intertwiner_sum rep1 rep2 (rnd j d)).
Lemma search_None_iff k i : intertwiner_search cpowinv rnd atol rep1 rep2 k i = None <->
  forall j, (i <= j < i + k)%N -> allclose0 atol (smp j).
Proof.
elim: k i => [|k IH] i /=; first by split=> // _ j; rewrite addn0; case: ltngtP.
case: ifP => c; last by split=> // /(_ i); rewrite leqnn addnS ltnS leq_addr c => /(_ isT).
split=> [/IH h j /andP [ij]|h].
  rewrite addnS -addSn => jk; case: (ltngtP i j) ij => // [ij _|<- //]; apply: h; by rewrite ij jk.
by apply/IH => j /andP [ij jk]; apply: h; rewrite addnS -addSn jk ltnW.
Qed.
Lemma search_Some k i M : intertwiner_search cpowinv rnd atol rep1 rep2 k i = Some M ->
  exists j, [/\ (i <= j < i + k)%N, ~~ allclose0 atol (smp j) & M = (cpowinv (\det (smp j)) d)^-1 *: smp j].
Proof.
elim: k i => [|k IH] i //=; case: ifP => c; last first.
  by case=> <-; exists i; rewrite leqnn addnS ltnS leq_addr c.
case/IH => j [/andP [h1 h2] h3 h4]; exists j; split=> //.
by rewrite (ltnW h1) addnS -addSn.
Qed.
End Search.

(** * Direct products (C39) *)
Section Direct.
Variable C : numClosedFieldType.
Lemma adj_tens m n p q (A : 'M[C]_(m, n)) (B : 'M[C]_(p, q)) : adj (A *t B) = adj A *t adj B.
Proof. by rewrite /adj map_mxT trmx_tens. Qed.
Lemma tr_tens m n (A : 'M[C]_m) (B : 'M[C]_n) : \tr (A *t B) = \tr A * \tr B.
Proof.
rewrite /mxtrace big_distrlr /= pair_big /=.
rewrite (reindex (@mxtens_index m n)) /=; last first.
  by exists (@mxtens_unindex m n) => x _; rewrite ?mxtens_indexK ?mxtens_unindexK.
by apply: eq_bigr => -[i j] _; rewrite tensmxE.
Qed.
Lemma tens1 m n : (1%:M : 'M[C]_m) *t (1%:M : 'M[C]_n) = 1%:M.
Proof.
apply/matrixP => x y; case: (mxtens_indexP x) => i j; case: (mxtens_indexP y) => k l.
rewrite tensmxE !mxE (can_eq (@mxtens_indexK m n)) xpair_eqE.
by case: eqP; case: eqP; rewrite ?mulr1 ?mulr0.
Qed.
Lemma tensZ m n p q a b (A : 'M[C]_(m, n)) (B : 'M[C]_(p, q)) : (a *: A) *t (b *: B) = (a * b) *: (A *t B).
Proof.
apply/matrixP => x y; case: (mxtens_indexP x) => i j; case: (mxtens_indexP y) => k l.
by rewrite [RHS]mxE !tensmxE !mxE mulrACA.
Qed.
End Direct.
