(** Second orthogonality relation and the number of irreducible representations with a
    given factor system. *)
From mathcomp Require Import all_ssreflect all_algebra all_fingroup.
From Verif Require Import GroupSpec RepSpec RepTheory IsoTheory MultTheory IndexRepSpec IndexGroup ClassSpec.
Import Order.TTheory GRing.Theory Num.Theory.
Set Implicit Arguments.
Unset Strict Implicit.
Unset Printing Implicit Defensive.
Local Open Scope ring_scope.

Section Columns.
Variables (C : numClosedFieldType) (gT : finGroupType) (mu : gT -> gT -> C).
Hypothesis mufs : factor_system mu.
Let G := [set: gT]%G.
Variables (I : finType) (dim : I -> nat) (D : forall i, gT -> 'M[C]_(dim i)).
Hypothesis pD : forall i, projrep mu G (D i).
Hypothesis uD : forall i, unirep G (D i).
Hypothesis nD : forall i, cip G (D i) (D i) = #|G|%:R.
Hypothesis oD : forall i j, i != j -> cip G (D i) (D j) = 0.
Hypothesis sq : (\sum_i dim i ^ 2 = #|gT|)%N.

Let n0 : (#|G|%:R : C) != 0 := cardH_neq0 C G.

Lemma mu_neq0 x y : mu x y != 0.
Proof. by rewrite -normr_eq0 (fs_norm mufs) oner_eq0. Qed.
Lemma mu_cinv x y : (mu x y)^* = (mu x y)^-1.
Proof. by rewrite -[RHS]mul1r -[1](expr1n _ 2) -(fs_norm mufs x y) normCK mulrAC mulfV ?mul1r // mu_neq0. Qed.

Lemma pair_trace a b : \sum_i (dim i)%:R / #|G|%:R * \tr (D i a *m adj (D i b)) = (a == b)%:R.
Proof.
pose c := mu a b^-1%g / mu b b^-1%g.
transitivity (c * (coef D (a * b^-1)%g)^*).
  rewrite /coef rmorph_sum mulr_sumr; apply: eq_bigr => i _.
  rewrite (adj_inv mufs (pD i) (uD i)) ?inE // -scalemxAr (pr_mul (pD i)) ?inE // scalerA mxtraceZ.
  rewrite rmorphM /= conjCK fmorph_div /= !conjC_nat /c mulrCA; congr (_ * _).
  by rewrite mulrC.
rewrite (coefE mufs pD uD nD oD sq) -eq_mulgV1 /c; have [->|_] := eqVneq a b.
  by rewrite conjC1 mulr1 mulfV // mu_neq0.
by rewrite conjC0 mulr0.
Qed.

Definition column (g h : gT) : C := \sum_i \tr (D i g) * (\tr (D i h))^*.

Lemma column_sum g h : column g h = \sum_(x | (x * g == h * x)%g) mu x g * (mu h x)^*.
Proof.
have step i : \tr (D i g) * (\tr (D i h))^* =
    \sum_x mu x g * (mu h x)^* * ((dim i)%:R / #|G|%:R * \tr (D i (x * g)%g *m adj (D i (h * x)%g))).
  have d0 : ((dim i)%:R : C) != 0.
    by rewrite pnatr_eq0 -lt0n; exact: (norm1_dim (H := G) (nD i)).
  have := avg_self mufs (pD i) (uD i) (nD i) (D i g).
  move/(congr1 (fun M => \tr (M *m adj (D i h)))).
  rewrite mul_scalar_mx mxtraceZ /avg mulmx_suml raddf_sum /= => e.
  have tadj : \tr (adj (D i h)) = (\tr (D i h))^*.
    by rewrite /adj mxtrace_tr raddf_sum /=; apply: eq_bigr => k _; rewrite mxE.
  transitivity ((dim i)%:R / #|G|%:R * (#|G|%:R / (dim i)%:R * \tr (D i g) * \tr (adj (D i h)))).
    by rewrite tadj !mulrA mulfVK // mulfV // mul1r.
  rewrite -e mulr_sumr; apply: eq_big => [x|x _]; first by rewrite inE.
  rewrite -!mulmxA -adjM mulmxA !(pr_mul (pD i)) ?inE // adjZ -scalemxAl -scalemxAr scalerA mxtraceZ.
  by rewrite mulrCA.
rewrite /column; under eq_bigr => i _ do rewrite step.
rewrite exchange_big /= [RHS]big_mkcond /=; apply: eq_bigr => x _.
rewrite -mulr_sumr pair_trace; case: ifP => _; by rewrite ?mulr1 ?mulr0.
Qed.

(** g is regular when mu is symmetric between g and each element commuting with it. *)
Definition regular (g : gT) := [forall x, (x * g == g * x)%g ==> (mu x g == mu g x)].

Lemma regular_col g : regular g -> column g g = #|'C[g]%g|%:R.
Proof.
move=> /forallP r; rewrite column_sum -sumr_const; apply: eq_big => [x|x /eqP e].
  by rewrite (sameP cent1P eqP) .
have /implyP := r x; rewrite e eqxx => /(_ isT) /eqP ->.
by rewrite mu_cinv mulfV // mu_neq0.
Qed.
Lemma char_regular i g : \tr (D i g) != 0 -> regular g.
Proof.
move=> t0; apply/forallP => x; apply/implyP => /eqP e.
have e1 := pr_mul (pD i) (in_setT x) (in_setT g).
have e2 := pr_mul (pD i) (in_setT g) (in_setT x).
have u : adj (D i x) *m D i x = 1%:M by apply: mulmx1C; apply: uD; rewrite inE.
have : \tr (D i x *m D i g *m adj (D i x)) = \tr (D i g) by rewrite mxtrace_mulC mulmxA u mul1mx.
have -> : D i x *m D i g = (mu x g / mu g x) *: (D i g *m D i x).
  by rewrite e1 e2 e scalerA mulfVK // mu_neq0.
rewrite -scalemxAl -mulmxA uD ?inE // mulmx1 mxtraceZ -[RHS]mul1r => /(mulIf t0) h.
by rewrite -[mu g x]mul1r -h mulfVK // mu_neq0.
Qed.
Lemma irregular_col g : ~~ regular g -> column g g = 0.
Proof.
move=> r; rewrite /column big1 // => i _; have [->|t0] := eqVneq (\tr (D i g)) 0; first by rewrite mul0r.
by rewrite (char_regular t0) in r.
Qed.
Lemma regularP g : regular g <-> exists i, \tr (D i g) != 0.
Proof.
split=> [r|[i /char_regular //]].
have [/existsP //|] := boolP [exists i, \tr (D i g) != 0]; rewrite negb_exists => /forallP h; exfalso.
have := regular_col r; rewrite /column big1 => [|i _]; last by have := h i; rewrite negbK => /eqP ->; rewrite mul0r.
by move/eqP; rewrite eq_sym pnatr_eq0 -leqn0 leqNgt; case/negP; apply/card_gt0P; exists 1%g; rewrite group1.
Qed.
Lemma regularJ g y : regular (g ^ y)%g = regular g.
Proof.
have imp h z : regular h -> regular (h ^ z)%g.
  move/regularP => [i t0]; apply/regularP; exists i.
  have e : D i z *m D i (h ^ z)%g = mu z (h ^ z)%g *: D i (h * z)%g.
    by rewrite (pr_mul (pD i)) ?inE // -conjgC.
  have e2 : D i h *m D i z = mu h z *: D i (h * z)%g by rewrite (pr_mul (pD i)) ?inE.
  have e3 : D i z *m D i (h ^ z)%g = (mu z (h ^ z)%g / mu h z) *: (D i h *m D i z).
    by rewrite e e2 scalerA mulfVK // mu_neq0.
  have u : adj (D i z) *m D i z = 1%:M by apply: mulmx1C; apply: uD; rewrite inE.
  have : \tr (D i (h ^ z)%g) = (mu z (h ^ z)%g / mu h z) * \tr (D i h).
    rewrite -[D i (h ^ z)%g]mul1mx -u -mulmxA e3 -scalemxAr mxtraceZ mxtrace_mulC -mulmxA uD ?inE //.
    by rewrite mulmx1.
  by move=> ->; rewrite !mulf_neq0 ?invr_eq0 ?mu_neq0.
by apply/idP/idP => [/(imp _ y^-1%g)|/imp //]; rewrite conjgK.
Qed.

Definition regular_set := [set g | regular g].

Lemma count_pairs : (#|I| * #|gT| = \sum_(g in regular_set) #|'C[g]%g|)%N.
Proof.
have -> : #|gT| = #|G| by rewrite cardsT.
apply/eqP; rewrite -(eqr_nat C) natrM natr_sum; apply/eqP.
transitivity (\sum_i cip G (D i) (D i)).
  by under eq_bigr do rewrite nD; rewrite sumr_const -[RHS]mulr_natl.
rewrite /cip exchange_big /= [RHS]big_mkcond /=; apply: eq_big => [x|x _]; first by rewrite inE.
transitivity (column x x); first by rewrite /column; apply: eq_bigr => i _; rewrite mulrC.
by rewrite inE; case: ifPn => r; [exact: regular_col | exact: irregular_col].
Qed.

Lemma count_classes : #|I| = #|[set (g ^: G)%g | g in regular_set]|.
Proof.
have gt0 : (0 < #|gT|)%N by apply/card_gt0P; exists 1%g.
apply/eqP; rewrite -(eqn_pmul2r gt0) count_pairs -[X in (_ * X)%N]cardsT; apply/eqP.
have act : [acts G, on regular_set | 'J].
  apply/actsP => a _ x; rewrite /= !inE; exact: regularJ.
have := Frobenius_Cauchy act.
have -> : [set orbit 'J G x | x in regular_set] = [set (g ^: G)%g | g in regular_set].
  by apply: eq_imset => x; rewrite orbitJ.
move=> <-; transitivity (\sum_(a in G) \sum_(g in regular_set) (a \in 'C[g]%g : nat))%N.
  rewrite exchange_big /=; apply: eq_bigr => g _.
  by rewrite -sum1_card [LHS]big_mkcond /=; apply: eq_big => [a|a _]; [rewrite inE | case: ifP].
apply: eq_bigr => a _; rewrite -sum1_card [RHS]big_mkcond [LHS]big_mkcond /=; apply: eq_bigr => g _.
rewrite in_setI; case: (g \in regular_set) => //=.
case: afix1P => [/= /conjg_fixP /commgP /commute_sym /cent1P -> //|f].
by case: cent1P => // /commute_sym /commgP /conjg_fixP.
Qed.
End Columns.

Section Index.
Variables (n : nat) (mul : nat -> nat -> nat) (e : nat).
Hypothesis G : group_law n mul e.
Variables (C : numClosedFieldType) (mu : nat -> nat -> C).
Hypothesis imufs : ifactor_system n mul e mu.
Variables (N : nat) (dim : nat -> nat) (D : forall k, nat -> 'M[C]_(dim k)).
Hypothesis cD : complete_irreps n mul e mu N D.

Let mufs := ifs_fs G imufs.
Let gD (k : 'I_N) (g : igT G) := D k (ival g).
Let pg (k : 'I_N) : projrep (@imu _ _ _ G C mu) [set: igT G]%G (gD k).
Proof. exact/(iprojrepE G)/(ci_rep cD). Qed.
Let ug (k : 'I_N) : unirep [set: igT G]%G (gD k).
Proof. exact/(iunitaryE G)/(ci_unitary cD). Qed.
Let cT : #|[set: igT G]| = n. Proof. by rewrite cardsT ival_card. Qed.
Let ng (k : 'I_N) : cip [set: igT G]%G (gD k) (gD k) = #|[set: igT G]|%:R.
Proof. by rewrite cT -icipE (ci_orthogonal cD) // eqxx. Qed.
Let og (k l : 'I_N) : k != l -> cip [set: igT G]%G (gD k) (gD l) = 0.
Proof. by move=> kl; rewrite -icipE (ci_orthogonal cD) // -[(_ == _ :> nat)]/(k == l) (negbTE kl). Qed.
Let sg : (\sum_(k < N) dim k ^ 2 = #|igT G|)%N.
Proof. by rewrite ival_card (ci_squares cD). Qed.

Lemma icolumn i j : (i < n)%N -> (j < n)%N ->
  \sum_(k < N) \tr (D k i) * (\tr (D k j))^* = \sum_(x < n | mul x i == mul j x) mu x i * (mu j x)^*.
Proof.
move=> /(ival_surj G) [g <-] /(ival_surj G) [h <-].
rewrite -[LHS]/(column gD g h) (column_sum mufs pg ug ng og sg).
by apply: eq_bigl => x; rewrite -(inj_eq (@ival_inj _ _ _ G)) !ivalM.
Qed.

Lemma regular_ival (g : igT G) : reflect (mu_regular n mul mu (ival g)) (regular (@imu _ _ _ G C mu) g).
Proof.
apply: (iffP forallP) => [h x /(ival_surj G) [y <-] e1|h y].
  have /implyP := h y; rewrite -(inj_eq (@ival_inj _ _ _ G)) !ivalM e1 eqxx => /(_ isT) /eqP; exact.
apply/implyP => /eqP e1; apply/eqP; apply: h; first exact: ival_lt.
by rewrite -!ivalM e1.
Qed.

Lemma iregularP i : (i < n)%N -> mu_regular n mul mu i <-> exists2 k, (k < N)%N & \tr (D k i) != 0.
Proof.
move=> /(ival_surj G) [g <-]; split=> [/regular_ival /(regularP mufs pg ug ng og sg) [k h]|[k kN h]]; first by exists k.
by apply/regular_ival/(regularP mufs pg ug ng og sg); exists (Ordinal kN).
Qed.

Lemma centraliser_ival (g : igT G) : centraliser_order n mul (ival g) = #|'C[g]%g|.
Proof.
rewrite /centraliser_order -sum1_count -sum1_card -[X in iota 0 X]subn0 -/(index_iota 0 n) big_mkord; apply: eq_bigl => x.
rewrite (sameP cent1P eqP) -(inj_eq (@ival_inj _ _ _ G)) !ivalM //.
Qed.

Lemma iregular_col i : (i < n)%N -> mu_regular n mul mu i ->
  \sum_(k < N) `|\tr (D k i)| ^+ 2 = (centraliser_order n mul i)%:R.
Proof.
move=> /(ival_surj G) [g <-] /regular_ival r; rewrite centraliser_ival -(regular_col mufs pg ug ng og sg r).
by apply: eq_bigr => k _; rewrite normCK.
Qed.

Lemma conjugates_ival (g h : igT G) : conjugates n mul (ival g) (ival h) <-> (g ^: [set: igT G] = h ^: [set: igT G])%g.
Proof.
split=> [[i /(ival_surj G) [x <-]]|].
  rewrite -!ivalM => /ival_inj e1; apply/class_eqP; apply/imsetP; exists x; first by rewrite inE.
  by rewrite conjgE -e1 mulKg.
move/class_eqP/imsetP => [x _ ->]; exists (ival x); first exact: ival_lt.
by rewrite -!ivalM -conjgC.
Qed.

Lemma iclasses reps : class_representatives n mul (mu_regular n mul mu) reps -> size reps = N.
Proof.
case=> h1 h2 h3; have := count_classes mufs pg ug ng og sg; rewrite card_ord => ->.
pose c i : {set igT G} := if insub i : option 'I_n is Some x then ((x : igT G) ^: [set: igT G])%g else set0.
have cE g : c (ival g) = (g ^: [set: igT G])%g by rewrite /c /ival valK.
have u : uniq (map c reps).
  apply/(uniqP set0) => a b; rewrite !inE size_map => ha hb; rewrite !(nth_map 0%N) //.
  have [/(ival_surj G) [g eg] _] := h1 _ (mem_nth 0%N ha).
  have [/(ival_surj G) [h eh] _] := h1 _ (mem_nth 0%N hb).
  rewrite -eg -eh !cE => /conjugates_ival; rewrite eg eh; exact: h2.
rewrite -(size_map c) -(card_uniqP u); apply: eq_card => S; apply/mapP/imsetP => [[i /h1 [/(ival_surj G) [g <-] r] ->]|[g]].
  by exists g; rewrite ?inE ?cE //; apply/regular_ival.
rewrite inE => /regular_ival r ->; have [j jr] := h3 _ (ival_lt g) r.
have [/(ival_surj G) [h eh] _] := h1 _ jr.
rewrite -eh => /conjugates_ival e1; exists (ival h); first by rewrite eh.
by rewrite cE.
Qed.

(** Linear representations: characters separate the conjugacy classes. *)
Lemma linear_separate i j : (forall x y, (x < n)%N -> (y < n)%N -> mu x y = 1) -> (i < n)%N -> (j < n)%N ->
  conjugates n mul i j <-> forall k, (k < N)%N -> \tr (D k i) = \tr (D k j).
Proof.
move=> m1 hi hj; split=> [[x hx e1] k kN|h].
  have [_ mm] := ci_rep cD kN; have u := ci_unitary cD kN hx.
  have u' : adj (D k x) *m D k x = 1%:M by apply: mulmx1C.
  have := mm x i hx hi; rewrite m1 // scale1r e1 -[D k (mul j x)]scale1r -(m1 j x) // -mm // => e2.
  by rewrite -[D k i]mul1mx -u' -mulmxA e2 mulmxA mxtrace_mulC mulmxA u mul1mx.
have eq : \sum_(k < N) \tr (D k i) * (\tr (D k j))^* = \sum_(k < N) `|\tr (D k j)| ^+ 2.
  by apply: eq_bigr => k _; rewrite h // normCK.
have r : mu_regular n mul mu j by move=> x hx _; rewrite !m1.
move: eq; rewrite iregular_col // icolumn //.
have [/existsP [x /eqP e1]|] := boolP [exists x : 'I_n, mul x i == mul j x]; first by exists x.
rewrite negb_exists => /forallP ne; rewrite big1 => [|x xe]; last by have := ne x; rewrite xe.
move/eqP; rewrite eq_sym pnatr_eq0 => /eqP c0.
have [g eg] := ival_surj G hj; have := centraliser_ival g; rewrite eg c0.
by move/eqP; rewrite eq_sym -leqn0 leqNgt; case/negP; apply/card_gt0P; exists 1%g; rewrite group1.
Qed.
Lemma linear_column i j : (forall x y, (x < n)%N -> (y < n)%N -> mu x y = 1) -> (i < n)%N -> (j < n)%N ->
  ~ conjugates n mul i j -> \sum_(k < N) \tr (D k i) * (\tr (D k j))^* = 0.
Proof.
by move=> m1 hi hj nc; rewrite icolumn // big1 // => x /eqP xe; case: nc; exists x.
Qed.
End Index.
