(** Counting with Frobenius-Schur indicators: the sum of the indicators times the dimensions
    counts square roots of the identity, and the self-conjugate irreps of a linear list are
    as many as the classes closed under inversion. *)
From Coq Require Import QArith ZArith List.
From mathcomp Require Import all_ssreflect all_algebra all_fingroup.
From Verif Require Import Mat3 GroupSpec RepSpec RepTheory IndexRepSpec IndexGroup RepModel RepProofs RealTheory RealOutcome SmallSpec ClassSpec ClassTheory IndicatorSpec.
Import Order.TTheory GRing.Theory Num.Theory.
Set Implicit Arguments.
Unset Strict Implicit.
Unset Printing Implicit Defensive.
Local Open Scope ring_scope.

(** The meaning of an indicator determines it. *)
Lemma fs_unique (C : numClosedFieldType) n d (D : nat -> 'M[C]_d) v w : iirreducible n D -> iunitary n D ->
  fs_meaning n D v -> fs_meaning n D w -> v = w.
Proof.
move=> irr u.
have one : (1%:M : 'M[C]_d) <> 0.
  move=> h; have d0 := irr.1; have := congr1 (fun M : 'M[C]_d => M (Ordinal d0) (Ordinal d0)) h.
  by rewrite !mxE eqxx => /eqP; rewrite oner_eq0.
have nz (U : 'M[C]_d) : U *m adj U = 1%:M -> U <> 0 by move=> h U0; apply: one; rewrite -h U0 mul0mx.
have opp (U V : 'M[C]_d) : (forall g, (g < n)%N -> D g *m U = U *m map_mx conjC (D g)) -> U *m adj U = 1%:M -> U^T = U ->
    (forall g, (g < n)%N -> D g *m V = V *m map_mx conjC (D g)) -> V *m adj V = 1%:M -> V^T = - V -> False.
  move=> iU uU sU iV uV sV.
  have vV : adj V *m V = 1%:M by apply: mulmx1C.
  have iVa g : (g < n)%N -> adj V *m D g = map_mx conjC (D g) *m adj V.
    move=> hg; rewrite -[LHS]mulmx1 -uV mulmxA -[_ *m D g *m V]mulmxA iV // mulmxA vV mul1mx //.
  have [g hg|c hc] := ischur irr (X := U *m adj V).
    by rewrite mulmxA iU // -!mulmxA iVa.
  have UV : U = c *: V by rewrite -[LHS]mulmx1 -vV mulmxA hc mul_scalar_mx.
  apply: (nz U uU); have : U = - U by rewrite -{1}sU UV linearZ /= sV scalerN.
  by move/eqP; rewrite -addr_eq0 -mulr2n -scaler_nat scaler_eq0 pnatr_eq0 /= => /eqP.
case=> [[-> [U [iU uU sU]]]|[-> [U [iU uU sU]]]|[-> z]]; case=> [[-> [V [iV uV sV]]]|[-> [V [iV uV sV]]]|[-> z']] //.
- by case: (opp U V).
- by case: (nz U uU (z' U iU)).
- by case: (opp V U).
- by case: (nz U uU (z' U iU)).
- by case: (nz V uV (z V iV)).
- by case: (nz V uV (z V iV)).
Qed.

Section Index.
Variables (n : nat) (mul : nat -> nat -> nat) (e : nat).
Hypothesis G : group_law n mul e.
Variables (C : numClosedFieldType) (mu : nat -> nat -> C).
Hypothesis imufs : ifactor_system n mul e mu.
Hypothesis mur : forall i j, (i < n)%N -> (j < n)%N -> mu i j \is Num.real.
Variables (N : nat) (dim : nat -> nat) (D : forall k, nat -> 'M[C]_(dim k)).
Hypothesis cD : complete_irreps n mul e mu N D.

Let n0 : n%:R != 0 :> C.
Proof. by have /ssrnat.ltP := gl_e _ _ _ G; case: (n) => // m _; rewrite pnatr_eq0. Qed.

(** The sum of squares is the indicator. *)
Lemma indicator_sum k v : (k < N)%N -> fs_meaning n (D k) v -> \sum_(i < n) \tr (D k i *m D k i) = v%:~R * n%:R.
Proof.
move=> kN mv; have [p u irr] := And3 (ci_rep cD kN) (ci_unitary cD kN) (ci_irreducible cD kN).
have -> : \sum_(i < n) \tr (D k i *m D k i) = fs_sum n (D k).
  by apply: eq_bigr => i _; rewrite /mxtrace; apply: eq_bigr => a _; rewrite mxE.
case: (fs_cases G imufs mur p u irr) => [[-> h]|[U [h1 h2 [[h3 ->]|[h3 ->]]]]].
- by rewrite (fs_unique irr u mv (w := 0)) ?mul0r //; apply: Or33.
- by rewrite (fs_unique irr u mv (w := 1)) ?mul1r //; apply: Or31; split=> //; exists U.
- by rewrite (fs_unique irr u mv (w := -1)) ?mulN1r //; apply: Or32; split=> //; exists U.
Qed.

(** Sum of the dimensions times the characters. *)
Lemma regular_character i : (i < n)%N -> \sum_(k < N) (dim k)%:R * \tr (D k i) = if i == e then n%:R else 0.
Proof.
move=> hi; have he : (e < n)%N by apply/ssrnat.ltP; exact: gl_e G.
have := icolumn G imufs cD hi he.
have -> : \sum_(k < N) \tr (D k i) * (\tr (D k e))^* = \sum_(k < N) (dim k)%:R * \tr (D k i).
  by apply: eq_bigr => k _; have [-> _] := ci_rep cD (ltn_ord k); rewrite mxtrace1 conjC_nat mulrC.
have [ie _|ne ->] := eqVneq i e.
  rewrite ie -[X in _ = X%:R](ci_squares cD) natr_sum; apply: eq_bigr => k _.
  by have [-> _] := ci_rep cD (ltn_ord k); rewrite mxtrace1 -natrM -mulnn.
rewrite big1 // => x /eqP; have hx : (x < n)%coq_nat by apply/ssrnat.ltP.
rewrite (gl_1l _ _ _ G) // => h; case/eqP: ne; have [y [hy [_ yx]]] := gl_inv _ _ _ G _ hx.
have hi' : (i < n)%coq_nat by apply/ssrnat.ltP.
by rewrite -[LHS](gl_1l _ _ _ G) // -yx -(gl_assoc _ _ _ G) // h.
Qed.

Lemma indicator_rule (v : nat -> int) : (forall k, (k < N)%N -> fs_meaning n (D k) (v k)) ->
  \sum_(k < N) (v k)%:~R * (dim k)%:R = \sum_(i < n | mul i i == e) mu i i.
Proof.
move=> mv; apply: (mulIf n0); rewrite mulr_suml.
transitivity (\sum_(k < N) (dim k)%:R * \sum_(i < n) \tr (D k i *m D k i)).
  by apply: eq_bigr => k _; rewrite (indicator_sum (ltn_ord k) (mv _ (ltn_ord k))) mulrAC mulrC.
under eq_bigr do rewrite mulr_sumr; rewrite exchange_big /= mulr_suml [RHS]big_mkcond /=; apply: eq_bigr => i _.
transitivity (mu i i * \sum_(k < N) (dim k)%:R * \tr (D k (mul i i))).
  rewrite mulr_sumr; apply: eq_bigr => k _; have [_ ->] := ci_rep cD (ltn_ord k) => //.
  by rewrite mxtraceZ mulrCA.
rewrite regular_character //; first by case: eqP => _; rewrite ?mulr0.
by apply/ssrnat.ltP; apply: (gl_closed _ _ _ G); apply/ssrnat.ltP.
Qed.

(** The square of a character sums up to n for an irrep equivalent to its conjugate. *)
Lemma conj_dich k : (k < N)%N ->
  (\sum_(i < n) \tr (D k i) ^+ 2 = n%:R /\ iequivalent n (fun i => map_mx conjC (D k i)) (D k)) \/
  (\sum_(i < n) \tr (D k i) ^+ 2 = 0 /\ ~ iequivalent n (fun i => map_mx conjC (D k i)) (D k)).
Proof.
move=> kN; have p := conj_iprojrep mur (ci_rep cD kN); have ir := conj_iirreducible (ci_irreducible cD kN).
have [l [lN el ul]] := ci_complete cD p ir.
have -> : \sum_(i < n) \tr (D k i) ^+ 2 = icip n (D l) (D k).
  apply: eq_bigr => i _; rewrite (iequivalent_tr el) //.
  have -> : \tr (map_mx conjC (D k i)) = (\tr (D k i))^* by rewrite /mxtrace rmorph_sum; apply: eq_bigr => a _; rewrite mxE.
  by rewrite conjCK expr2.
rewrite (ci_orthogonal cD lN kN); case: eqP => [lk|lk]; [left|right]; split=> //.
  by subst l; exact: iequivalent_sym.
by move/iequivalent_sym/(ul k kN)/esym.
Qed.
Lemma conj_indicator k v : (k < N)%N -> fs_meaning n (D k) v -> iequivalent n (fun i => map_mx conjC (D k i)) (D k) <-> v != 0.
Proof.
move=> kN; have [d0 _] := ci_irreducible cD kN; case=> [[-> [U [iU uU sU]]]|[-> [U [iU uU sU]]]|[-> z]]; split=> //.
1,2: move=> _; exists (adj U), U; split=> //; first exact: mulmx1C.
1,2: move=> i hi; have uU' : adj U *m U = 1%:M by exact: mulmx1C.
1,2: by rewrite -[LHS]mul1mx -uU' -!mulmxA [U *m (_ *m _)]mulmxA -iU // -mulmxA uU mulmx1.
move=> [T [T' [h1 h2 h3]]]; have T0 : T' = 0.
  apply: z => i hi; by rewrite -[LHS]mul1mx -h2 -mulmxA [T *m _]mulmxA -h3 // -!mulmxA h1 mulmx1.
have := congr1 (fun M : 'M[C]_(dim k) => M (Ordinal d0) (Ordinal d0)) h1.
by rewrite T0 mulmx0 !mxE eqxx => /eqP; rewrite eq_sym oner_eq0.
Qed.
End Index.

Lemma class_sum (gT : finGroupType) (A : {set gT}) : (forall g y, (g ^ y \in A)%g = (g \in A)) ->
  (\sum_(g in A) #|'C[g]%g| = #|[set (g ^: [set: gT])%g | g in A]| * #|gT|)%N.
Proof.
move=> cl; have act : [acts [set: gT]%G, on A | 'J] by apply/actsP => a _ x; exact: cl.
have := Frobenius_Cauchy act; rewrite cardsT.
have -> : [set orbit 'J [set: gT]%G x | x in A] = [set (g ^: [set: gT])%g | g in A].
  by apply: eq_imset => x; rewrite orbitJ.
move=> <-; transitivity (\sum_(a in [set: gT]) \sum_(g in A) (a \in 'C[g]%g : nat))%N.
  rewrite exchange_big /=; apply: eq_bigr => g _.
  by rewrite -sum1_card [LHS]big_mkcond /=; apply: eq_big => [a|a _]; [rewrite inE | case: ifP].
apply: eq_bigr => a _; rewrite -sum1_card [RHS]big_mkcond [LHS]big_mkcond /=; apply: eq_bigr => g _.
rewrite in_setI; case: (g \in A) => //=.
case: afix1P => [/= /conjg_fixP /commgP /commute_sym /cent1P -> //|f].
by case: cent1P => // /commute_sym /commgP /conjg_fixP.
Qed.

Section Linear.
Variables (n : nat) (mul : nat -> nat -> nat) (e : nat).
Hypothesis G : group_law n mul e.
Local Notation gT := (igT G).

Lemma reps_card (P : nat -> Prop) (A : {set gT}) reps : (forall g : gT, reflect (P (ival g)) (g \in A)) ->
  class_representatives n mul P reps -> size reps = #|[set (g ^: [set: gT])%g | g in A]|.
Proof.
move=> PA [h1 h2 h3].
pose c i : {set gT} := if insub i : option 'I_n is Some x then ((x : gT) ^: [set: gT])%g else set0.
have cE g : c (ival g) = (g ^: [set: gT])%g by rewrite /c /ival valK.
have u : uniq (map c reps).
  apply/(uniqP set0) => a b; rewrite !inE size_map => ha hb; rewrite !(nth_map 0%N) //.
  have [/(ival_surj G) [g eg] _] := h1 _ (mem_nth 0%N ha).
  have [/(ival_surj G) [h eh] _] := h1 _ (mem_nth 0%N hb).
  rewrite -eg -eh !cE => /conjugates_ival; rewrite eg eh; exact: h2.
rewrite -(size_map c) -(card_uniqP u); apply: eq_card => S; apply/mapP/imsetP => [[i /h1 [/(ival_surj G) [g <-] r] ->]|[g]].
  by exists g; rewrite ?cE //; apply/PA.
move=> /PA r ->; have [j jr] := h3 _ (ival_lt g) r.
have [/(ival_surj G) [h eh] _] := h1 _ jr.
rewrite -eh => /conjugates_ival e1; exists (ival h); first by rewrite eh.
by rewrite cE.
Qed.

Lemma ambivalentP (g : gT) : reflect (ambivalent n mul e (ival g)) (g^-1 \in (g ^: [set: gT]))%g.
Proof.
apply: (iffP idP) => [h|[j /(ival_surj G) [x <-] [h1 /conjugates_ival h2]]].
  exists (ival g^-1%g); first exact: ival_lt.
  split; first by rewrite -ivalM mulgV ival1.
  by apply/conjugates_ival; apply/class_eqP; rewrite class_sym.
have gx : (g * x)%g = 1%g by apply: (@ival_inj _ _ _ G); rewrite ivalM ival1.
have -> : (g^-1)%g = x by rewrite -[LHS]mulg1 -gx mulKg.
by rewrite h2; exact: class_refl.
Qed.

Variables (C : numClosedFieldType) (N : nat) (dim : nat -> nat) (D : forall k, nat -> 'M[C]_(dim k)).
Hypothesis cD : complete_irreps n mul e (fun _ _ => 1) N D.

Lemma self_conjugate_count (b : nat -> bool) reps : (forall k, (k < N)%N -> b k <-> iequivalent n (fun i => map_mx conjC (D k i)) (D k)) ->
  class_representatives n mul (ambivalent n mul e) reps -> (\sum_(k < N) b k)%N = size reps.
Proof.
move=> bP cr.
have fs : ifactor_system n mul e (fun _ _ => 1 : C) by split=> *; rewrite ?mulr1 ?normr1.
pose A := [set g : gT | (g^-1 \in (g ^: [set: gT]))%g].
have PA g : reflect (ambivalent n mul e (ival g)) (g \in A) by rewrite inE; exact: ambivalentP.
rewrite (reps_card PA cr).
have n0 : (0 < n)%N by apply: leq_ltn_trans (leq0n e) _; apply/ssrnat.ltP; exact: gl_e G.
have clo (g y : gT) : (g ^ y \in A)%g = (g \in A).
  rewrite !inE -conjVg; have gy : ((g ^ y) ^: [set: gT] = g ^: [set: gT])%g by apply: classGidl; rewrite inE.
  have gy' : ((g^-1 ^ y) ^: [set: gT] = g^-1 ^: [set: gT])%g by apply: classGidl; rewrite inE.
  apply/idP/idP => /class_eqP h; apply/class_eqP; first by rewrite -gy' h gy.
  by rewrite gy' h gy.
have cs := class_sum clo; rewrite [#|gT|]ival_card in cs.
apply/eqP; rewrite -(eqn_pmul2r n0) -cs.
rewrite -(eqr_nat C) natrM [X in X * _]natr_sum mulr_suml [X in _ == X]natr_sum; apply/eqP.
transitivity (\sum_(k < N) \sum_(i < n) \tr (D k i) ^+ 2).
  apply: eq_bigr => k _; case: (conj_dich _ cD (ltn_ord k)) => [i j _ _||]; first exact: rpred1.
    by move=> [-> h]; rewrite (iffRL (bP _ _)) // mul1r.
  by move=> [-> h]; case hb : (b k); [case: h; apply/bP|rewrite mul0r].
rewrite exchange_big /= [RHS]big_mkcond /=.
apply: (@eq_bigr _ _ _ gT (index_enum gT) predT) => g _.
have m1 : forall x y, (x < n)%N -> (y < n)%N -> 1 = 1 :> C by [].
have inv : \sum_(k < N) \tr (D k (ival g)) ^+ 2 = \sum_(k < N) \tr (D k (ival g)) * (\tr (D k (ival g^-1%g)))^*.
  apply: eq_bigr => k _; rewrite expr2; congr (_ * _).
  have [k1 km] := ci_rep cD (ltn_ord k); have u := ci_unitary cD (ltn_ord k) (ival_lt g).
  have := km _ _ (ival_lt g) (ival_lt g^-1%g); rewrite -ivalM mulgV ival1 k1 scale1r => gi.
  have u' : adj (D k (ival g)) *m D k (ival g) = 1%:M by exact: mulmx1C.
  have -> : D k (ival g^-1%g) = adj (D k (ival g)) by rewrite -[LHS]mul1mx -u' -mulmxA gi mulmx1.
  rewrite /adj /mxtrace rmorph_sum; apply: eq_bigr => a _; by rewrite !mxE conjCK.
rewrite -[LHS]/(\sum_(k < N) \tr (D k (ival g)) ^+ 2) inv; case: ifPn => gA.
  rewrite -(centraliser_ival g) -(iregular_col G fs cD (ival_lt g)) => [|//].
  apply: eq_bigr => k _; rewrite normCK; congr (_ * _^*).
  have cj : conjugates n mul (ival g) (ival g^-1%g).
    by apply/conjugates_ival; move: gA; rewrite inE => /class_eqP.
  by rewrite -(iffLR (linear_separate G fs cD m1 (ival_lt g) (ival_lt _)) cj).
apply: (linear_column G fs cD m1 (ival_lt g) (ival_lt _)) => /conjugates_ival h.
by move: gA; rewrite inE => /class_eqP; case.
Qed.
End Linear.
