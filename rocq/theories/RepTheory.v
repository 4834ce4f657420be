(** Elementary theory of unitary projective representations: averaging, orthogonality
    relations, Schur's lemma. *)
From mathcomp Require Import all_ssreflect all_algebra all_fingroup.
From Verif Require Import RepSpec.
Import Order.TTheory GRing.Theory Num.Theory.
Set Implicit Arguments.
Unset Strict Implicit.
Unset Printing Implicit Defensive.
Local Open Scope ring_scope.

Section Adj.
Variable C : numClosedFieldType.
Implicit Types m n p : nat.

Lemma adjE m n (A : 'M[C]_(m, n)) i j : adj A i j = (A j i)^*.
Proof. by rewrite !mxE. Qed.
Lemma adjK m n (A : 'M[C]_(m, n)) : adj (adj A) = A.
Proof. by apply/matrixP => i j; rewrite !adjE conjCK. Qed.
Lemma adjM m n p (A : 'M[C]_(m, n)) (B : 'M[C]_(n, p)) : adj (A *m B) = adj B *m adj A.
Proof. by rewrite /adj map_mxM trmx_mul. Qed.
Lemma adj1 n : adj (1%:M : 'M[C]_n) = 1%:M.
Proof. by rewrite /adj map_mx1 trmx1. Qed.
Lemma adj0 m n : adj (0 : 'M[C]_(m, n)) = 0.
Proof. by rewrite /adj map_mx0 trmx0. Qed.
Lemma adjZ m n (a : C) (A : 'M[C]_(m, n)) : adj (a *: A) = a^* *: adj A.
Proof. by rewrite /adj map_mxZ linearZ. Qed.
Lemma adjD m n (A B : 'M[C]_(m, n)) : adj (A + B) = adj A + adj B.
Proof. by rewrite /adj map_mxD linearD. Qed.
Lemma adjB m n (A B : 'M[C]_(m, n)) : adj (A - B) = adj A - adj B.
Proof. by rewrite /adj map_mxB linearB. Qed.
Lemma adj_scalar n (a : C) : adj (a%:M : 'M[C]_n) = (a^*)%:M.
Proof. by rewrite -[a%:M]scalemx1 adjZ adj1 scalemx1. Qed.
Lemma adj_sum m n I (r : seq I) P (F : I -> 'M[C]_(m, n)) :
  adj (\sum_(i <- r | P i) F i) = \sum_(i <- r | P i) adj (F i).
Proof. by elim/big_rec2: _ => [|i x y _ <-]; rewrite ?adj0 ?adjD. Qed.
Lemma mxtrace_adj n (A : 'M[C]_n) : \tr (adj A) = (\tr A)^*.
Proof. by rewrite rmorph_sum; apply: eq_bigr => i _; rewrite adjE. Qed.

Lemma tr_mul_adj m n (A B : 'M[C]_(m, n)) :
  \tr (A *m adj B) = \sum_(x : 'I_m * 'I_n) A x.1 x.2 * (B x.1 x.2)^*.
Proof.
rewrite /mxtrace (eq_bigr (fun i => \sum_j A i j * (B i j)^*)); last first.
  by move=> i _; rewrite mxE; apply: eq_bigr => j _; rewrite adjE.
by rewrite pair_big.
Qed.
Lemma sqn_ge0 m n (A : 'M[C]_(m, n)) : 0 <= \tr (A *m adj A).
Proof. by rewrite tr_mul_adj sumr_ge0 // => x _; rewrite -normCK exprn_ge0. Qed.
Lemma sqn_eq0 m n (A : 'M[C]_(m, n)) : \tr (A *m adj A) = 0 -> A = 0.
Proof.
rewrite tr_mul_adj => /eqP; rewrite psumr_eq0 => [/allP h|x _]; last by rewrite -normCK exprn_ge0.
apply/matrixP => i j; rewrite mxE; apply/eqP.
have := h (i, j); rewrite mem_index_enum -normCK expf_eq0 normr_eq0 /= => -> //.
Qed.
Lemma norm1_mul_conj (a : C) : `|a| = 1 -> a * a^* = 1.
Proof. by move=> h; rewrite -normCK h expr1n. Qed.
Lemma norm1_inv (a : C) : `|a| = 1 -> a^-1 = a^*.
Proof.
move=> h; have a0 : a != 0 by rewrite -normr_eq0 h oner_neq0.
by apply: (mulfI a0); rewrite divff // norm1_mul_conj.
Qed.
Lemma norm1_neq0 (a : C) : `|a| = 1 -> a != 0.
Proof. by move=> h; rewrite -normr_eq0 h oner_neq0. Qed.
End Adj.

Section Theory.
Variables (C : numClosedFieldType) (gT : finGroupType) (mu : gT -> gT -> C).
Hypothesis mufs : factor_system mu.
Let mu_norm := fs_norm mufs.
Lemma mu_neq0 x y : mu x y != 0.
Proof. exact: norm1_neq0 (mu_norm x y). Qed.
Lemma mu1x x : mu 1%g x = 1.
Proof.
have := fs_cocycle mufs 1%g 1%g x; rewrite !mul1g (fs_one mufs) mulr1.
by move=> h; apply: (mulfI (mu_neq0 1%g x)); rewrite mulr1.
Qed.
Lemma mux1 x : mu x 1%g = 1.
Proof.
have := fs_cocycle mufs x 1%g 1%g; rewrite !mulg1 (fs_one mufs) mulr1 => h.
by apply: (mulfI (mu_neq0 x 1%g)); rewrite mulr1.
Qed.

Variable H : {group gT}.
Implicit Types d : nat.

Local Notation projrep := (projrep mu H).
Local Notation unirep := (@unirep C gT H _).
Local Notation cip := (cip H).
Local Notation cardH := (#|H|%:R : C).

Lemma cardH_neq0 : cardH != 0.
Proof. by rewrite pnatr_eq0 -lt0n cardG_gt0. Qed.

Lemma unirep_l d (D : gT -> 'M[C]_d) : unirep D -> forall x, x \in H -> adj (D x) *m D x = 1%:M.
Proof. by move=> u x xH; apply: mulmx1C; exact: u. Qed.

Lemma adj_inv d (D : gT -> 'M[C]_d) : projrep D -> unirep D -> forall s, s \in H ->
  adj (D s) = (mu s s^-1%g)^-1 *: D s^-1%g.
Proof.
move=> pD uD s sH; apply: (scalerI (mu_neq0 s s^-1%g)).
rewrite scalerA divff ?mu_neq0 // scale1r.
rewrite -[D s^-1%g in RHS]mul1mx -(unirep_l uD sH) -mulmxA (pr_mul pD) ?groupV //.
by rewrite mulgV (pr_one pD) -scalemxAr mulmx1.
Qed.

(** Averaging. *)
Definition avg d1 d2 (A : gT -> 'M[C]_d1) (B : gT -> 'M[C]_d2) (X : 'M[C]_(d1, d2)) :=
  \sum_(s in H) A s *m X *m adj (B s).

Lemma avg_intertwines d1 d2 (A : gT -> 'M[C]_d1) (B : gT -> 'M[C]_d2) X :
  projrep A -> projrep B -> unirep B ->
  forall t, t \in H -> A t *m avg A B X = avg A B X *m B t.
Proof.
move=> pA pB uB t tH.
have h : A t *m avg A B X *m adj (B t) = avg A B X.
  rewrite /avg mulmx_sumr mulmx_suml.
  rewrite [RHS](reindex_inj (mulgI t)) /=.
  apply: eq_big => [s|s sH]; first by rewrite groupMl.
  rewrite !mulmxA (pr_mul pA) // -mulmxA -adjM (pr_mul pB) //.
  rewrite adjZ -!scalemxAl -scalemxAr scalerA norm1_mul_conj ?scale1r //.
by rewrite -[in RHS]h -mulmxA (unirep_l uB tH) mulmx1.
Qed.

Lemma avgE d1 d2 (A : gT -> 'M[C]_d1) (B : gT -> 'M[C]_d2) j l i k :
  avg A B (delta_mx j l) i k = \sum_(s in H) A s i j * (B s k l)^*.
Proof.
rewrite summxE; apply: eq_bigr => s _.
rewrite mxE (bigD1 l) //= big1 => [|x xl]; last first.
  rewrite mxE big1 ?mul0r // => y _.
  by rewrite mxE (negbTE xl) andbF mulr0.
rewrite addr0 mxE (bigD1 j) //= big1 => [|x xl]; last first.
  by rewrite mxE (negbTE xl) mulr0.
by rewrite addr0 mxE !eqxx mulr1 adjE.
Qed.

Lemma cipE d1 d2 (A : gT -> 'M[C]_d1) (B : gT -> 'M[C]_d2) :
  cip A B = (\sum_i \sum_k avg A B (delta_mx i k) i k)^*.
Proof.
rewrite rmorph_sum /=.
under eq_bigr => i _ do rewrite rmorph_sum /=.
under eq_bigr => i _ do under eq_bigr => k _ do rewrite avgE rmorph_sum /=.
under eq_bigr => i _ do rewrite exchange_big /=.
rewrite exchange_big /=; apply: eq_bigr => s _.
rewrite rmorph_sum /= mulr_suml; apply: eq_bigr => i _.
by rewrite mulr_sumr; apply: eq_bigr => k _; rewrite rmorphM /= conjCK.
Qed.

(** Great orthogonality theorem from the norm of the character. *)
Section Norm1.
Variables (d : nat) (A : gT -> 'M[C]_d).
Hypotheses (pA : projrep A) (uA : unirep A) (nA : cip A A = cardH).

Lemma norm1_dim : (0 < d)%N.
Proof.
rewrite lt0n; apply/eqP => d0; move: nA; rewrite /RepSpec.cip big1 => [/eqP|s _].
  by rewrite eq_sym (negbTE cardH_neq0).
by move: (A) => A'; move: A'; rewrite d0 => A'; rewrite /mxtrace big_ord0 mulr0.
Qed.
Let d0 : (d%:R : C) != 0.
Proof. by rewrite pnatr_eq0 -lt0n norm1_dim. Qed.

Let v (s : gT) (x : 'I_d * 'I_d) := A s x.1 x.2.
Let S (x y : 'I_d * 'I_d) := \sum_(s in H) v s x * (v s y)^*.

Lemma tr_shift s t : s \in H -> t \in H ->
  \tr (A s *m adj (A t)) * (\tr (A s *m adj (A t)))^* = \tr (A (s * t^-1)%g) * (\tr (A (s * t^-1)%g))^*.
Proof.
move=> sH tH.
have E : mu (s * t^-1)%g t *: (A s *m adj (A t)) = A (s * t^-1)%g.
  rewrite scalemxAl; have -> : mu (s * t^-1)%g t *: A s = A (s * t^-1)%g *m A t.
    by rewrite (pr_mul pA) ?groupM ?groupV // mulgKV.
  by rewrite -mulmxA uA // mulmx1.
by rewrite -E mxtraceZ rmorphM /= mulrACA (norm1_mul_conj (mu_norm _ _)) mul1r.
Qed.

Lemma sum_S2 : \sum_x \sum_y S x y * (S x y)^* = cardH * cardH.
Proof.
transitivity (\sum_(s in H) \sum_(t in H) \tr (A s *m adj (A t)) * (\tr (A s *m adj (A t)))^*).
  transitivity (\sum_x \sum_y \sum_(s in H) \sum_(t in H) (v s x * (v t x)^*) * (v s y * (v t y)^*)^*).
    apply: eq_bigr => x _; apply: eq_bigr => y _.
    rewrite rmorph_sum /= mulr_suml; apply: eq_bigr => s _.
    rewrite mulr_sumr; apply: eq_bigr => t _.
    by rewrite !rmorphM /= !conjCK mulrACA.
  under eq_bigr => x _ do rewrite exchange_big /=.
  rewrite exchange_big /=; apply: eq_bigr => s _.
  under eq_bigr => x _ do rewrite exchange_big /=.
  rewrite exchange_big /=; apply: eq_bigr => t _.
  rewrite tr_mul_adj rmorph_sum /= mulr_suml; apply: eq_bigr => x _.
  by rewrite mulr_sumr.
rewrite exchange_big /=.
transitivity (\sum_(t in H) cardH); last by rewrite sumr_const [RHS]mulr_natr.
apply: eq_bigr => t tH.
rewrite -nA /RepSpec.cip [RHS](reindex_inj (mulIg t^-1%g)) /=.
apply: eq_big => [s|s sH]; first by rewrite groupMr // groupV.
by rewrite tr_shift // mulrC.
Qed.

Lemma sum_Sdiag : \sum_x S x x = d%:R * cardH.
Proof.
rewrite exchange_big /=.
transitivity (\sum_(s in H) (d%:R : C)).
  by apply: eq_bigr => s sH; rewrite -tr_mul_adj uA // mxtrace1.
by rewrite sumr_const mulr_natr.
Qed.

Lemma S_val x y : S x y = cardH / d%:R * (x == y)%:R.
Proof.
pose G (x y : 'I_d * 'I_d) : C := cardH / d%:R * (x == y)%:R.
have Gc a b : (G a b)^* = G a b by rewrite /G; do !rewrite ?rmorphM ?fmorphV ?rmorph_nat.
have sumG (f : 'I_d * 'I_d -> 'I_d * 'I_d -> C) :
    \sum_a \sum_b f a b * G a b = cardH / d%:R * \sum_a f a a.
  rewrite mulr_sumr; apply: eq_bigr => a _.
  rewrite (bigD1 a) //= big1 => [|b ba]; last by rewrite /G eq_sym (negbTE ba) !mulr0.
  by rewrite /G eqxx mulr1 addr0 mulrC.
have h : \sum_a \sum_b (S a b - G a b) * (S a b - G a b)^* = 0.
  transitivity (\sum_a \sum_b (S a b * (S a b)^* - (S a b * G a b + (S a b)^* * G a b) + G a b * G a b)).
    apply: eq_bigr => a _; apply: eq_bigr => b _.
    by rewrite rmorphB /= Gc mulrBr !mulrBl [G a b * _]mulrC opprB opprD -!addrA; congr (_ + _); rewrite [G a b * G a b - _]addrC addrCA.
  under eq_bigr => a _ do rewrite big_split /= sumrB big_split /=.
  rewrite big_split /= sumrB big_split /= sum_S2 !sumG.
  have -> : \sum_a (S a a)^* = d%:R * cardH.
    by rewrite -rmorph_sum /= sum_Sdiag rmorphM /= !rmorph_nat.
  rewrite sum_Sdiag.
  have -> : cardH / d%:R * (d%:R * cardH) = cardH * cardH by rewrite mulrA mulfVK.
  have -> : \sum_a G a a = cardH * d%:R.
    transitivity (\sum_(a : 'I_d * 'I_d) (cardH / d%:R)); first by apply: eq_bigr => a _; rewrite /G eqxx mulr1.
    by rewrite sumr_const card_prod card_ord -mulr_natr natrM -[RHS](mulfVK d0) -!mulrA; congr (_ * _); rewrite mulrCA mulVKf // -mulrA mulfV // mulr1.
  have -> : cardH / d%:R * (cardH * d%:R) = cardH * cardH by rewrite mulrC -mulrA [d%:R * _]mulrC mulfVK.
  by rewrite opprD addrA subrr add0r addNr.
have h' : forall a b, S a b - G a b = 0.
  move=> a b; apply/eqP; rewrite -normr_eq0 -[_ == 0](expf_eq0 _ 2) normCK.
  move/eqP: h; rewrite psumr_eq0 => [/allP h|c _]; last first.
    by apply: sumr_ge0 => b' _; rewrite -normCK exprn_ge0.
  have := h a (mem_index_enum _); rewrite psumr_eq0 => [/allP h2|b' _]; last first.
    by rewrite -normCK exprn_ge0.
  by have := h2 b (mem_index_enum _).
by apply/eqP; rewrite -subr_eq0; apply/eqP; exact: h'.
Qed.

Lemma great_orthogonality i j k l :
  \sum_(s in H) A s i j * (A s k l)^* = cardH / d%:R * ((i == k) && (j == l))%:R.
Proof. by have := S_val (i, j) (k, l). Qed.

Lemma avg_self X : avg A A X = (cardH / d%:R * \tr X)%:M.
Proof.
rewrite [X]matrix_sum_delta.
have -> : avg A A (\sum_i \sum_j X i j *: delta_mx i j) = \sum_i \sum_j X i j *: avg A A (delta_mx i j).
  rewrite /avg.
  under [RHS]eq_bigr => i _ do under eq_bigr => j _ do rewrite scaler_sumr.
  under [RHS]eq_bigr => i _ do rewrite exchange_big /=.
  rewrite [RHS]exchange_big /=; apply: eq_bigr => s _.
  rewrite mulmx_sumr mulmx_suml; apply: eq_bigr => i _.
  rewrite mulmx_sumr mulmx_suml; apply: eq_bigr => j _.
  by rewrite -scalemxAr -scalemxAl.
rewrite -matrix_sum_delta.
apply/matrixP => i k; rewrite summxE.
under eq_bigr => j _ do rewrite summxE.
under eq_bigr => j _ do under eq_bigr => l _ do rewrite mxE avgE great_orthogonality.
rewrite [RHS]mxE; case: (i =P k) => [_|_] /=; last first.
  by rewrite mulr0n big1 // => j _; rewrite big1 // => l _; rewrite !mulr0.
rewrite mulr1n /mxtrace mulr_sumr; apply: eq_bigr => j _.
rewrite (bigD1 j) //= eqxx mulr1 big1 ?addr0 1?mulrC // => l lj.
by rewrite eq_sym (negbTE lj) !mulr0.
Qed.

Lemma schur_scalar T : (forall x, x \in H -> A x *m T = T *m A x) -> T = ((\tr T) / d%:R)%:M.
Proof.
move=> cT.
have : avg A A T = cardH *: T.
  rewrite /avg (eq_bigr (fun _ => T)) => [|s sH]; last by rewrite cT // -mulmxA uA // mulmx1.
  by rewrite sumr_const scaler_nat.
rewrite avg_self => h; apply: (scalerI cardH_neq0).
by rewrite -h scale_scalar_mx; congr (_%:M); rewrite mulrAC -mulrA.
Qed.

Lemma norm1_irreducible : irreducible H A.
Proof.
split; first exact: norm1_dim.
move=> m W inv.
case: (W =P 0) => [|/eqP W0]; [by left|right].
pose P := W *m pinvmx W.
have PW : P *m W = W by rewrite /P mulmxKpV // submx_refl.
have avgW : avg A A P *m W = cardH *: W.
  rewrite /avg mulmx_suml (eq_bigr (fun _ => W)) => [|s sH]; last first.
    have [Y EY] := inv _ (groupVr sH).
    have : adj (A s) *m W = (mu s s^-1%g)^-1 *: (W *m Y).
      by rewrite adj_inv // -scalemxAl EY.
    move=> E; have PE : P *m (adj (A s) *m W) = adj (A s) *m W.
      by rewrite E -scalemxAr [P *m _]mulmxA PW.
    by rewrite -[LHS]mulmxA -[LHS]mulmxA PE mulmxA uA // mul1mx.
  by rewrite sumr_const scaler_nat.
rewrite avg_self mul_scalar_mx in avgW.
have trP : (\tr P / d%:R) = 1.
  have : ((cardH / d%:R * \tr P) - cardH) *: W = 0 by rewrite scalerBl avgW subrr.
  move/eqP; rewrite scaler_eq0 (negbTE W0) orbF subr_eq0 => /eqP h.
  by apply: (mulfI cardH_neq0); rewrite mulr1 mulrA mulrAC.
exists (pinvmx W); rewrite -/P.
(* the average of P has column space in W, and is the identity *)
have : avg A A P = cardH *: 1%:M.
  by rewrite avg_self scalemx1; congr (_%:M); rewrite mulrAC -mulrA trP mulr1.
have : P *m avg A A P = avg A A P.
  rewrite /avg mulmx_sumr; apply: eq_bigr => s sH.
  have [Y EY] := inv _ sH.
  have E2 : A s *m P = W *m (Y *m pinvmx W) by rewrite /P mulmxA EY -mulmxA.
  by rewrite mulmxA E2 [P *m _]mulmxA PW.
move=> h1 h2; apply: (scalerI cardH_neq0); move: h1; rewrite h2.
by rewrite -scalemxAr mulmx1.
Qed.
End Norm1.

(** Equivalence. *)
Lemma equivalent_sym d1 d2 (A : gT -> 'M[C]_d1) (B : gT -> 'M[C]_d2) : equivalent H A B -> equivalent H B A.
Proof.
case=> T [T' [h1 h2 h3]]; exists T', T; split=> // x xH.
by rewrite -[RHS]mulmx1 -h1 mulmxA -[T' *m A x *m T]mulmxA h3 // mulmxA h2 mul1mx.
Qed.
Lemma equivalent_trans d1 d2 d3 (A : gT -> 'M[C]_d1) (B : gT -> 'M[C]_d2) (D : gT -> 'M[C]_d3) :
  equivalent H A B -> equivalent H B D -> equivalent H A D.
Proof.
case=> T [T' [h1 h2 h3]] [U [U' [g1 g2 g3]]]; exists (T *m U), (U' *m T'); split.
- by rewrite mulmxA -[T *m U *m U']mulmxA g1 mulmx1.
- by rewrite mulmxA -[U' *m T' *m T]mulmxA h2 mulmx1.
by move=> x xH; rewrite mulmxA h3 // -!mulmxA g3.
Qed.
Lemma equivalent_refl d (A : gT -> 'M[C]_d) : equivalent H A A.
Proof. by exists 1%:M, 1%:M; split=> [||x _]; rewrite ?mulmx1 ?mul1mx. Qed.
Lemma equivalent_dim d1 d2 (A : gT -> 'M[C]_d1) (B : gT -> 'M[C]_d2) : equivalent H A B -> d1 = d2.
Proof.
case=> T [T' [h1 h2 _]]; apply/eqP; rewrite eqn_leq.
have r1 := mulmx_max_rank T T'; have r2 := mulmx_max_rank T' T.
by rewrite h1 mxrank1 in r1; rewrite h2 mxrank1 in r2; rewrite r1 r2.
Qed.
Lemma equivalent_char d1 d2 (A : gT -> 'M[C]_d1) (B : gT -> 'M[C]_d2) :
  equivalent H A B -> forall x, x \in H -> \tr (A x) = \tr (B x).
Proof.
case=> T [T' [h1 h2 h3]] x xH.
by rewrite -[A x]mulmx1 -h1 mulmxA h3 // mxtrace_mulC mulmxA h2 mul1mx.
Qed.

(** Intertwiners between two unitary representations of norm one. *)
Lemma norm1_dim2 d (A : gT -> 'M[C]_d) : projrep A -> cip A A = cardH -> (d ^ 2 <= #|H|)%N.
Proof.
move=> [A1 _]; rewrite /cip (bigD1 1%g) ?group1 //= A1 mxtrace1 => e.
rewrite -(ler_nat C) -e natrX expr2 conjC_nat ler_addl sumr_ge0 // => s _.
by rewrite mulrC mul_conjC_ge0.
Qed.

Section Dich.
Variables (d1 d2 : nat) (A : gT -> 'M[C]_d1) (B : gT -> 'M[C]_d2).
Hypotheses (pA : projrep A) (uA : unirep A) (nA : cip A A = cardH).
Hypotheses (pB : projrep B) (uB : unirep B) (nB : cip B B = cardH).

Lemma intertwiner_scalar T : (forall x, x \in H -> A x *m T = T *m B x) ->
  T = 0 \/ exists a, [/\ 0 < a, T *m adj T = a%:M & adj T *m T = a%:M].
Proof.
move=> hT; case: (T =P 0) => [|/eqP T0]; [by left|right].
have hT' x : x \in H -> B x *m adj T = adj T *m A x.
  move=> xH; have := congr1 (@adj C _ _) (hT x xH); rewrite !adjM => h.
  rewrite -[RHS]mul1mx -(uB xH) -mulmxA [adj (B x) *m _]mulmxA -h.
  by rewrite -!mulmxA (unirep_l uA xH) mulmx1.
have s1 := @schur_scalar _ A pA uA nA (T *m adj T).
have s2 := @schur_scalar _ B pB uB nB (adj T *m T).
have {}s1 : T *m adj T = (\tr (T *m adj T) / d1%:R)%:M.
  by apply: s1 => x xH; rewrite mulmxA hT // -mulmxA hT' // mulmxA.
have {}s2 : adj T *m T = (\tr (adj T *m T) / d2%:R)%:M.
  by apply: s2 => x xH; rewrite mulmxA hT' // -mulmxA hT // mulmxA.
have t0 : 0 < \tr (T *m adj T).
  by rewrite lt0r sqn_ge0 andbT; apply: contraNneq T0 => /sqn_eq0 ->.
have E : d1 = d2.
  have dd1 := norm1_dim nA; have dd2 := norm1_dim nB.
  have n1 : \tr (T *m adj T) / d1%:R != 0 by rewrite mulf_neq0 ?invr_neq0 ?pnatr_eq0 -?lt0n // gt_eqF.
  have n2 : \tr (adj T *m T) / d2%:R != 0.
    by rewrite mxtrace_mulC mulf_neq0 ?invr_neq0 ?pnatr_eq0 -?lt0n // gt_eqF.
  have r1 : \rank (T *m adj T) = d1 by rewrite s1 -scalemx1 mxrank_scale_nz // mxrank1.
  have r2 : \rank (adj T *m T) = d2 by rewrite s2 -scalemx1 mxrank_scale_nz // mxrank1.
  have m1 := mulmx_max_rank T (adj T); have m2 := mulmx_max_rank (adj T) T.
  by apply/eqP; rewrite eqn_leq; rewrite r1 in m1; rewrite r2 in m2; rewrite m1 m2.
exists (\tr (T *m adj T) / d1%:R); split=> //.
  by rewrite divr_gt0 // ltr0n (norm1_dim nA).
by rewrite s2 mxtrace_mulC; congr (_ / _%:R)%:M.
Qed.

Lemma intertwiner_equivalent T : (forall x, x \in H -> A x *m T = T *m B x) -> T != 0 -> equivalent H A B.
Proof.
move=> hT T0; case: (intertwiner_scalar hT) => [E|[a [a0 h1 h2]]]; first by rewrite E eqxx in T0.
have a0' : a != 0 by rewrite gt_eqF.
exists T, (a^-1 *: adj T); split=> //.
  by rewrite -scalemxAr h1 scale_scalar_mx mulVf.
by rewrite -scalemxAl h2 scale_scalar_mx mulVf.
Qed.

Lemma equivalent_cip : equivalent H A B -> cip A B = cardH.
Proof.
move=> eAB; rewrite -nA; apply: eq_bigr => s sH.
by rewrite (equivalent_char eAB sH).
Qed.

Lemma cip_dich : (cip A B = 0 /\ ~ equivalent H A B) \/ (cip A B = cardH /\ equivalent H A B).
Proof.
case: (boolP [forall j, forall l, avg A B (delta_mx j l) == 0]).
  move/forallP => h; left.
  have z : cip A B = 0.
    rewrite cipE big1 ?rmorph0 // => i _; rewrite big1 // => k _.
    by have /forallP/(_ k)/eqP -> := h i; rewrite mxE.
  split=> // /equivalent_cip; rewrite z => /eqP.
  by rewrite eq_sym (negbTE cardH_neq0).
rewrite negb_forall => /existsP [j]; rewrite negb_forall => /existsP [l nz]; right.
have e : equivalent H A B.
  by apply: (intertwiner_equivalent _ nz) => x xH; apply: avg_intertwines.
by split=> //; apply: equivalent_cip.
Qed.
End Dich.

(** Schur's lemma for irreducible representations (not necessarily unitary). *)
Lemma kernel_cols m n k (T : 'M[C]_(m, n)) (X : 'M[C]_(n, k)) :
  T *m X = 0 -> exists Y, X = (kermx T^T)^T *m Y.
Proof.
move=> h; have : (X^T <= kermx T^T)%MS by apply/sub_kermxP; rewrite -trmx_mul h trmx0.
by case/submxP=> Z E; exists Z^T; rewrite -trmx_mul -E trmxK.
Qed.
Lemma kernel_cols0 m n (T : 'M[C]_(m, n)) : T *m (kermx T^T)^T = 0.
Proof. by rewrite -[T]trmxK -trmx_mul !trmxK mulmx_ker trmx0. Qed.

Lemma irreducible_scalar d (A : gT -> 'M[C]_d) T : irreducible H A ->
  (forall x, x \in H -> A x *m T = T *m A x) -> exists a, T = a%:M.
Proof.
case=> d0 irr cT.
have [a ra] : exists a, root (char_poly T) a.
  by apply/closed_rootP; rewrite size_char_poly; case: (d) d0.
exists a; set K := (kermx (T - a%:M)^T)^T.
have invK : invariant H A K.
  move=> x xH; apply: kernel_cols.
  by rewrite mulmxA mulmxBl -cT // mul_scalar_mx -mul_mx_scalar -mulmxBr -mulmxA kernel_cols0 mulmx0.
case: (irr _ K invK) => [K0|[V KV]]; last first.
  apply/eqP; rewrite -subr_eq0; apply/eqP.
  by rewrite -[LHS]mulmx1 -KV mulmxA kernel_cols0 mul0mx.
exfalso; move: ra; rewrite -eigenvalue_root_char => /eigenvalueP [v /eqP h v0].
have r : (T - a%:M) \notin unitmx.
  apply/negP => u; move/negP: v0; apply.
  rewrite -(mulmxK u v) mulmxBr mul_mx_scalar; move/eqP: h => ->.
  by rewrite subrr mul0mx.
move: r; rewrite -unitmx_tr -row_free_unit -kermx_eq0 => /negP; apply.
by rewrite -trmx_eq0 -/K K0.
Qed.

Lemma irreducible_norm1 d (A : gT -> 'M[C]_d) : projrep A -> unirep A -> irreducible H A -> cip A A = cardH.
Proof.
move=> pA uA irr; have d0 := irr.1.
have dn0 : (d%:R : C) != 0 by rewrite pnatr_eq0 -lt0n.
have E X : avg A A X = (cardH / d%:R * \tr X)%:M.
  have [a Ea] := irreducible_scalar irr (avg_intertwines X pA pA uA).
  have : \tr (avg A A X) = cardH * \tr X.
    rewrite /avg raddf_sum /= (eq_bigr (fun _ => \tr X)) => [|s sH].
      by rewrite sumr_const mulr_natl.
    by rewrite mxtrace_mulC mulmxA (unirep_l uA sH) mul1mx.
  rewrite Ea mxtrace_scalar -mulr_natr => h; congr (_%:M).
  by apply: (mulIf dn0); rewrite h mulrAC mulfVK.
rewrite cipE.
under eq_bigr => i _ do under eq_bigr => k _ do rewrite E mxE.
rewrite (eq_bigr (fun _ => cardH / d%:R)) => [|i _].
  rewrite sumr_const card_ord -mulr_natr mulfVK //.
  by rewrite rmorph_nat.
rewrite (bigD1 i) //= eqxx mulr1n big1 => [|k ki]; last by rewrite eq_sym (negbTE ki) mulr0n.
rewrite addr0 /mxtrace (bigD1 i) //= big1 => [|k ki]; last by rewrite mxE (negbTE ki).
by rewrite mxE !eqxx addr0 mulr1.
Qed.

Lemma schur_iso d1 d2 (A : gT -> 'M[C]_d1) (B : gT -> 'M[C]_d2) T :
  irreducible H A -> irreducible H B -> (forall x, x \in H -> A x *m T = T *m B x) -> T != 0 ->
  equivalent H A B.
Proof.
move=> iA iB hT T0.
have [E|[V TV]] := iA.2 _ T (fun x xH => ex_intro _ (B x) (hT x xH)); first by rewrite E eqxx in T0.
set K := (kermx T^T)^T.
have invK : invariant H B K.
  by move=> x xH; apply: kernel_cols; rewrite mulmxA -hT // -mulmxA kernel_cols0 mulmx0.
case: (iB.2 _ K invK) => [K0|[W KW]]; last first.
  by move: T0; rewrite -[T]mulmx1 -KW mulmxA kernel_cols0 mul0mx eqxx.
exists T, V; split=> //; apply/eqP; rewrite -subr_eq0; apply/eqP.
have : T *m (V *m T - 1%:M) = 0 by rewrite mulmxBr mulmxA TV mul1mx mulmx1 subrr.
by case/kernel_cols=> Y ->; rewrite -/K K0 mul0mx.
Qed.

(** Inverse matrices of a projective representation. *)
Definition prinv d (B : gT -> 'M[C]_d) s := (mu s s^-1%g)^-1 *: B s^-1%g.
Lemma prinvP d (B : gT -> 'M[C]_d) : projrep B -> forall s, s \in H -> B s *m prinv B s = 1%:M.
Proof.
move=> pB s sH; rewrite /prinv -scalemxAr (pr_mul pB) ?groupV // mulgV (pr_one pB).
by rewrite scalerA mulVf ?mu_neq0 // scale1r.
Qed.
Lemma prinvM d (B : gT -> 'M[C]_d) : projrep B -> forall t s, t \in H -> s \in H ->
  prinv B (t * s)%g = mu t s *: (prinv B s *m prinv B t).
Proof.
move=> pB t s tH sH.
have h : B (t * s)%g *m (mu t s *: (prinv B s *m prinv B t)) = 1%:M.
  rewrite -scalemxAr scalemxAl -(pr_mul pB) // mulmxA -[B t *m B s *m _]mulmxA prinvP // mulmx1.
  exact: prinvP.
rewrite -[RHS]mul1mx -(mulmx1C (prinvP pB (groupM tH sH))) -mulmxA h mulmx1 //.
Qed.

Lemma cip_neq0_equivalent d1 d2 (A : gT -> 'M[C]_d1) (B : gT -> 'M[C]_d2) :
  projrep A -> unirep A -> irreducible H A -> projrep B -> irreducible H B ->
  cip A B != 0 -> equivalent H A B.
Proof.
move=> pA uA iA pB iB nz.
pose T X := \sum_(s in H) A s *m X *m prinv B s.
have hT X t : t \in H -> A t *m T X = T X *m B t.
  move=> tH.
  have h : A t *m T X *m prinv B t = T X.
    rewrite /T mulmx_sumr mulmx_suml [RHS](reindex_inj (mulgI t)) /=.
    apply: eq_big => [s|s sH]; first by rewrite groupMl.
    rewrite prinvM //; move: (prinv B s) (prinv B t) => P Q.
    by rewrite !mulmxA (pr_mul pA) // -!scalemxAl -scalemxAr !mulmxA.
  by rewrite -[in RHS]h -mulmxA (mulmx1C (prinvP pB tH)) mulmx1.
case: (boolP [forall j, forall l, T (delta_mx j l) == 0]); last first.
  rewrite negb_forall => /existsP [j]; rewrite negb_forall => /existsP [l n0].
  exact: (schur_iso iA iB (hT (delta_mx j l)) n0).
move=> /forallP h0; move/negP: nz; case.
have z : \sum_(s in H) \tr (A s) * \tr (prinv B s) = 0.
  have Tz i k : \sum_(s in H) A s i i * prinv B s k k = 0.
    transitivity (T (delta_mx i k) i k); last by have /forallP/(_ k)/eqP -> := h0 i; rewrite mxE.
    rewrite summxE; apply: eq_bigr => s _; move: (prinv B s) => Q.
    rewrite [RHS]mxE (bigD1 k) //= big1 => [|x xl]; last first.
      by rewrite mxE big1 ?mul0r // => y _; rewrite mxE (negbTE xl) andbF mulr0.
    rewrite addr0 mxE (bigD1 i) //= big1 => [|x xl]; last by rewrite mxE (negbTE xl) mulr0.
    by rewrite addr0 [delta_mx _ _ _ _]mxE !eqxx mulr1.
  under eq_bigr => s _ do rewrite /mxtrace mulr_suml.
  rewrite exchange_big big1 // => i _.
  under eq_bigr => s _ do rewrite mulr_sumr.
  by rewrite exchange_big big1 // => k _; exact: Tz.
apply/eqP; rewrite -[RHS]z /RepSpec.cip [LHS](reindex_inj invg_inj) /=.
apply: eq_big => [s|s]; first by rewrite groupV.
rewrite groupV => sH.
have -> : \tr (A s^-1%g) = mu s s^-1%g * (\tr (A s))^*.
  by rewrite -mxtrace_adj -mxtraceZ adj_inv // scalerA divff ?mu_neq0 // scale1r.
have -> : \tr (B s^-1%g) = mu s s^-1%g * \tr (prinv B s).
  by rewrite -mxtraceZ scalerA divff ?mu_neq0 // scale1r.
by rewrite rmorphM /= conjCK mulrACA [_^* * _]mulrC norm1_mul_conj ?mul1r.
Qed.
End Theory.
