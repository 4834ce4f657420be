(** The indicator decides between the three kinds of irreducible representations of the linear
    subgroup. *)
From mathcomp Require Import all_ssreflect all_algebra all_fingroup.
From Verif Require Import RepSpec RepModel RepTheory CorepModel CorepSpec CorepTheory.
Import Order.TTheory GRing.Theory Num.Theory GroupScope.
Set Implicit Arguments.
Unset Strict Implicit.
Unset Printing Implicit Defensive.
Local Open Scope ring_scope.

Section Kinds.
Variables (C : numClosedFieldType) (gT : finGroupType) (H : {group gT}) (w : gT -> gT -> bool).
Hypothesis wc : forall x y z, w x (y * z)%g (+) w y z = w (x * y)%g z (+) w x y.
Hypothesis w1 : w 1%g 1%g = false.
Hypothesis half : forall x y, ((x * y)%g \in H) = ((x \in H) == (y \in H)).
Let mu x y : C := (-1) ^+ w x y.
Variable a : gT.
Hypothesis aH : a \notin H.
Let s := (a * a)%g.
Variables (d : nat) (D : gT -> 'M[C]_d).
Hypotheses (pD : projrep mu H D) (uD : unirep H D) (iD : irreducible H D).
Local Notation Db := (conjrep w a D).
Local Notation f := (f w a).
Let fs : factor_system mu := sign_fs C wc w1.
Let N := irreducible_norm1 fs pD uD iD.

Lemma conj_norm : cip H Db Db = #|H|%:R.
Proof.
rewrite -N /cip.
have -> : \sum_(x in H) (\tr (D x))^* * \tr (D x) = \sum_(x in H) (\tr (D (x ^ a)%g))^* * \tr (D (x ^ a)%g).
  rewrite (reindex_inj (conjg_inj a)) /=; apply: eq_bigl => x.
  by rewrite conjgE !half groupV; case: (a \in H); case: (x \in H).
apply: eq_bigr => x hx; rewrite /conjrep mxtraceZ rmorphM /= sgC_conj mulrACA sgC_sq mul1r mulrC.
have -> : \tr (conj_mx (D (x ^ a)%g)) = (\tr (D (x ^ a)%g))^* by rewrite /mxtrace rmorph_sum; apply: eq_bigr => i _; rewrite mxE.
by rewrite conjCK.
Qed.
Definition intertwines (X : 'M[C]_d) := forall u, u \in H -> D u *m X = X *m Db u.
Definition total : C := \sum_(u in H) mu (a * u)%g (a * u)%g * \tr (D (a * u * (a * u))%g).

Lemma total_inequivalent : (forall X, intertwines X -> X = 0) -> total = 0.
Proof.
move=> no; have hs : s \in H := sH half aH.
have pB := conjrep_rep wc w1 half aH pD; have uB := conjrep_uni w half aH uD.
have orth i j k l : \sum_(u in H) D u i j * (Db u k l)^* = 0.
  have z : avg H D Db (delta_mx j l) = 0 by apply: no => u hu; apply: (avg_intertwines fs) hu.
  by rewrite -(avgE H D Db) z mxE.
have term u : u \in H -> mu (a * u)%g (a * u)%g * \tr (D (a * u * (a * u))%g) =
    mu a a * \tr (D s *m conj_mx (Db u) *m D u).
  move=> hu; have hc := cuH half aH hu.
  have -> : (a * u * (a * u) = s * u ^ a * u)%g by rewrite /s -[(a * a * _)%g]mulgA cuE !mulgA.
  have -> : D (s * u ^ a * u)%g = (mu (s * u ^ a)%g u * mu s (u ^ a)%g) *: (D s *m D (u ^ a)%g *m D u).
    rewrite (lin_law pD hs hc) -scalemxAl (lin_law pD (groupM hs hc) hu) !scalerA.
    by rewrite -[mu _ u * _ * _]mulrA -/(mu _ _) sgC_sq mulr1 sgC_sq scale1r.
  rewrite /conjrep conj_mxZ sgC_conj conj_mxK -!(scalemxAl, scalemxAr) !mxtraceZ !mulrA; congr (_ * _).
  rewrite /mu !sgC_add (w_sq wc); congr (_ ^+ (nat_of_bool _)); rewrite -/s.
  by move: (w a a) (f u) (w s (u ^ a)%g) (w (s * u ^ a)%g u) => [] [] [] [].
rewrite /total (eq_bigr _ term) -mulr_sumr.
suff -> : \sum_(u in H) \tr (D s *m conj_mx (Db u) *m D u) = 0 by rewrite mulr0.
under eq_bigr => u hu.
  rewrite /mxtrace; under eq_bigr => i _.
    rewrite mxE; under eq_bigr => k _.
      rewrite mxE mulr_suml; under eq_bigr => j _.
        rewrite [conj_mx _ _ _]mxE -mulrA [_ * D u k i]mulrC; over.
      over.
    over.
  over.
rewrite exchange_big big1 //= => i _; rewrite exchange_big big1 //= => k _; rewrite exchange_big big1 //= => j _.
by rewrite -mulr_sumr orth mulr0.
Qed.
Lemma unitary_intertwiner X : intertwines X -> X != 0 -> exists2 U, intertwines U & U *m adj U = 1%:M.
Proof.
move=> hX X0; have pB := conjrep_rep wc w1 half aH pD; have uB := conjrep_uni w half aH uD.
case: (intertwiner_scalar fs pD uD N pB uB conj_norm hX) => [E|[b [b0 h1 _]]]; first by rewrite E eqxx in X0.
have q0 : sqrtC b != 0 by rewrite sqrtC_eq0 gt_eqF.
exists ((sqrtC b)^-1 *: X) => [u hu|]; first by rewrite -scalemxAr hX // -scalemxAl.
rewrite adjZ -scalemxAl -scalemxAr h1 scalerA rmorphV ?unitfE // (_ : (sqrtC b)^* = sqrtC b); last first.
  by apply: conj_Creal; rewrite ger0_real // sqrtC_ge0 ltW.
by rewrite -invfM -expr2 sqrtCK -scalemx1 scalerA mulVf ?scale1r // gt_eqF.
Qed.
(** The three kinds. *)
Lemma trichotomy :
  [\/ total = #|H|%:R /\ exists U, [/\ intertwines U, U *m adj U = 1%:M & U *m conj_mx U = mu a a *: D s],
      total = - #|H|%:R /\ exists U, [/\ intertwines U, U *m adj U = 1%:M & U *m conj_mx U = - (mu a a *: D s)] |
      total = 0 /\ forall X, intertwines X -> X = 0].
Proof.
have pB := conjrep_rep wc w1 half aH pD; have uB := conjrep_uni w half aH uD.
case: (boolP [forall j, forall l, avg H D Db (delta_mx j l) == 0]) => [/forallP h|].
  have no X : intertwines X -> X = 0.
    move=> hX; apply/eqP; apply: contraT => X0; have [U hU UU] := unitary_intertwiner hX X0.
    have : avg H D Db U = #|H|%:R *: U.
      rewrite /avg (eq_bigr (fun _ => U)) => [|u hu]; last by rewrite hU // -mulmxA uB // mulmx1.
      by rewrite sumr_const scaler_nat.
    rewrite {1}[U]matrix_sum_delta /avg.
    under eq_bigr => u _.
      rewrite mulmx_sumr mulmx_suml; under eq_bigr => i _.
        rewrite mulmx_sumr mulmx_suml; under eq_bigr => j _ do rewrite -scalemxAr -scalemxAl.
        over.
      over.
    rewrite exchange_big big1 /= => [z|i _]; last first.
      rewrite exchange_big big1 //= => j _; rewrite -scaler_sumr.
      by move: (h i) => /forallP /(_ j) /eqP; rewrite /avg => ->; rewrite scaler0.
    move: (congr1 mxtrace UU); have -> : U = 0.
      by apply: (scalerI (cardH_neq0 C H)); rewrite -z scaler0.
    by rewrite mul0mx mxtrace0 mxtrace1 => /esym /eqP; rewrite pnatr_eq0 eqn0Ngt (iD.1).
  by apply: Or33; split=> //; apply: total_inequivalent.
rewrite negb_forall => /existsP [j]; rewrite negb_forall => /existsP [l nz].
have [|U hU UU] := unitary_intertwiner _ nz; first by move=> u hu; apply: (avg_intertwines fs) hu.
have [k hk] := X_sign wc w1 half aH pD uD iD UU hU.
have := indicator_sum wc w1 half aH pD uD iD UU hU hk; rewrite -/s in hk.
case: k hk => hk; rewrite ?expr0 ?expr1 ?mul1r ?mulN1r => T.
  by apply: Or32; split=> //; exists U; split=> //; rewrite hk /= expr1 mulN1r scaleNr.
by apply: Or31; split=> //; exists U; split=> //; rewrite hk /= expr0 mul1r.
Qed.

(** A matrix family whose values on the coset a H are K F(u), without complex conjugation. *)
Section Unconjugated.
Variables (m : nat) (F : gT -> 'M[C]_m) (K : 'M[C]_m).
Hypothesis F1 : F 1%g = 1%:M.
Hypothesis Fa : forall u, u \in H -> F (a * u)%g = mu a u *: (K *m F u).
Lemma F_at_a : F a = K.
Proof. by have := Fa (group1 H); rewrite mulg1 /mu (wx1 C wc w1) expr0 scale1r F1 mulmx1. Qed.
Lemma law_iff u : u \in H -> law_at H w F a u <-> K *m conj_mx (F u) = K *m F u.
Proof.
move=> hu; rewrite /law_at F_at_a Fa // scalerA sgC_sq scale1r /cj aH; split=> //.
Qed.
Hypothesis KU : K \in unitmx.
Lemma law_real : (forall x y, law_at H w F x y) -> forall u, u \in H -> conj_mx (F u) = F u.
Proof. by move=> h u hu; have /(law_iff hu) E := h a u; rewrite -[LHS](mulKmx KU) E mulKmx. Qed.
Hypothesis F_lin : forall u v, u \in H -> v \in H -> F u *m F v = mu u v *: F (u * v)%g.
Hypothesis F_ua : forall u, u \in H -> F u *m K = (-1) ^+ f u *: (K *m conj_mx (F (u ^ a)%g)).
Hypothesis F_aa : K *m conj_mx K = mu a a *: F s.
Lemma real_law : (forall u, u \in H -> conj_mx (F u) = F u) -> forall x y, law_at H w F x y.
Proof.
move=> r x y; apply: (extend_law wc w1 half aH F1 F_lin _ F_ua F_aa) => u hu.
by rewrite r // Fa.
Qed.
End Unconjugated.

(** The three kinds built that way. *)
Section Built.
Variable U : 'M[C]_d.
Hypotheses (UU : U *m adj U = 1%:M) (hU : intertwines U).
Lemma unit_U : U \in unitmx. Proof. by have [] := mulmx1_unit UU. Qed.
Lemma built_plus (F : gT -> 'M[C]_d) : total = #|H|%:R -> (forall u, u \in H -> F u = D u) ->
  (forall u, u \in H -> F (a * u)%g = mu a u *: (U *m F u)) ->
  (forall x y, law_at H w F x y) <-> (forall u, u \in H -> conj_mx (F u) = F u).
Proof.
move=> T FD Fa; have F1 : F 1%g = 1%:M by rewrite FD ?group1 // (pr_one pD).
split; first exact: law_real F1 Fa unit_U.
have [k hk] := X_sign wc w1 half aH pD uD iD UU hU.
have := indicator_sum wc w1 half aH pD uD iD UU hU hk; rewrite -/total T.
case: k hk => hk.
  rewrite expr1 mulN1r => /eqP; rewrite -addr_eq0 -mulr2n mulrn_eq0 /= => z.
  by have := cardH_neq0 C H; rewrite z.
move=> _; apply: (real_law F1 Fa) => [u z hu hz|u hu|].
- by rewrite !FD ?groupM // (lin_law pD).
- by rewrite !FD ?(cuH half aH) // (U_ua hU).
by rewrite hk expr0 mul1r FD // (sH half aH).
Qed.
Lemma built_minus (F : gT -> 'M[C]_(d + d)) : total = - #|H|%:R -> (forall u, u \in H -> F u = doubled w a D u) ->
  (forall u, u \in H -> F (a * u)%g = mu a u *: (offm U *m F u)) ->
  (forall x y, law_at H w F x y) <->
  (forall u, u \in H -> conj_mx (F u) = F u /\ exists X, F u = block_mx X 0 0 X).
Proof.
move=> T FD Fa; have F1 : F 1%g = 1%:M by rewrite FD ?group1 // (doubled1 wc w1 half aH pD).
have KU : offm U \in unitmx.
  have : offm U *m block_mx 0 (adj U) (- adj U) 0 = 1%:M.
    by rewrite /offm blockM !(mul0mx, mulmx0, add0r, addr0) !mulNmx !mulmxN opprK UU -scalar_mx_block.
  by move/mulmx1_unit => [].
split=> [h u hu|h].
  split; first exact: (law_real F1 Fa KU h).
  have hc x : x \in H -> (x ^ a)%g \in H by exact: (cuH half aH).
  have [x hx ->] : exists2 x, x \in H & u = (x ^ a)%g.
    exists (u ^ a^-1)%g; last by rewrite conjgKV.
    by have := half a^-1 u; rewrite conjgE invgK !half groupV hu (negPf aH).
  have := h x a; rewrite /law_at /cj hx /= (F_at_a F1 Fa) -cuE Fa ?hc // scalerA -/(mu _ _) sgC_add -/(f x).
  rewrite !FD ?hc // /offm /doubled !blockM !(mul0mx, mulmx0, add0r, addr0) !(mulNmx, mulmxN) scale_block_mx !scaler0.
  move=> /eq_block_mx [_ e1 _ _]; exists (D (x ^ a)%g); congr block_mx.
  have r := law_real F1 Fa KU h (hc _ hx); rewrite FD ?hc // /doubled conj_block in r; have [r1 _ _ _] := eq_block_mx r.
  rewrite -[RHS]r1 -[LHS](mulKmx unit_U) -[RHS](mulKmx unit_U); congr (_ *m _).
  apply: (scalerI (sgC_neq0 C (f x))); apply: oppr_inj; rewrite -scalerN -e1 hU // /conjrep.
  by rewrite -scalemxAr.
have tw u : u \in H -> F u = twice D u.
  move=> hu; have [_ [X]] := h u hu; rewrite FD // /doubled => /eq_block_mx [e1 _ _ e2].
  by rewrite /twice e2 -e1.
have [k hk] := X_sign wc w1 half aH pD uD iD UU hU.
have := indicator_sum wc w1 half aH pD uD iD UU hU hk; rewrite -/total T.
case: k hk => hk; last first.
  rewrite expr0 mul1r => /eqP; rewrite eq_sym -addr_eq0 -mulr2n mulrn_eq0 /= => z.
  by have := cardH_neq0 C H; rewrite z.
move=> _; apply: (real_law F1 Fa) => [u z hu hz|u hu||u hu]; last by have [] := h u hu.
- by rewrite !tw ?groupM // (twice_lin pD).
- by rewrite !tw ?(cuH half aH) // (offm_ua hU).
rewrite tw ?(sH half aH) //; apply: offm_aa; by rewrite hk expr1 mulN1r scaleNr.
Qed.
End Built.
Lemma built_zero (F : gT -> 'M[C]_(d + d)) : (forall u, u \in H -> F u = doubled w a D u) ->
  (forall u, u \in H -> F (a * u)%g = mu a u *: (off0 w a D *m F u)) ->
  (forall x y, law_at H w F x y) <-> (forall u, u \in H -> conj_mx (F u) = F u).
Proof.
move=> FD Fa; have F1 : F 1%g = 1%:M by rewrite FD ?group1 // (doubled1 wc w1 half aH pD).
have KU : off0 w a D \in unitmx.
  have : off0 w a D *m block_mx 0 1%:M (mu a a *: adj (D s)) 0 = 1%:M.
    rewrite /off0 blockM !(mul0mx, mulmx0, add0r, addr0) -scalemxAl -scalemxAr scalerA sgC_sq scale1r mul1mx.
    by rewrite uD ?(sH half aH) // -scalar_mx_block.
  by move/mulmx1_unit => [].
split; first exact: law_real F1 Fa KU.
apply: (real_law F1 Fa) => [u z hu hz|u hu|].
- by rewrite !FD ?groupM // (doubled_lin wc w1 half aH pD).
- by rewrite !FD ?(cuH half aH) // (off0_ua wc half aH pD).
by rewrite FD ?(sH half aH) // (off0_aa wc).
Qed.
End Kinds.
