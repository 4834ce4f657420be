(** The search for a tolerance, and the result of project_to_irrep. *)
From Coq Require Import String.
From mathcomp Require Import all_ssreflect all_algebra all_fingroup.
From mathcomp Require Import zify.
From Verif Require Import Py GroupSpec GroupModel RepSpec IndexRepSpec RepModel RepTheory IndexGroup RepProofs ChainModel.
From Verif Require Import ProjModel ProjSpec GrassTheory LinAlgExists ProjTheory ProjProofs.
Import Order.TTheory GRing.Theory Num.Theory.
Set Implicit Arguments.
Unset Strict Implicit.
Unset Printing Implicit Defensive.
Local Open Scope ring_scope.

Section Search.
Variable C : numClosedFieldType.
Local Notation lb := (atol_lb C).
Local Notation ub := (atol_ub C).
Lemma lb_gt0 : 0 < lb.
Proof. by rewrite invr_gt0 exprn_gt0 ?ltr0n. Qed.
Lemma lb_le_ub : lb <= ub.
Proof.
by rewrite ler_pinv ?inE ?unitfE ?exprn_gt0 ?expf_neq0 ?ltr0n ?pnatr_eq0 // ler_eexpn2l ?ltr1n.
Qed.
Definition in_bracket (x : C) : bool := lb <= x <= ub.
Lemma clip_bracket x : x \is Num.real -> in_bracket (np_clip (Some lb) (Some ub) x).
Proof.
move=> xr; rewrite /np_clip /in_bracket.
have lr : lb \is Num.real by rewrite gtr0_real ?lb_gt0.
have ur : ub \is Num.real by rewrite gtr0_real ?(lt_le_trans lb_gt0) ?lb_le_ub.
case: (real_ltP xr lr) => h1.
  by rewrite (le_gtF lb_le_ub) lexx lb_le_ub.
by case: (real_ltP ur xr) => h2; rewrite ?lexx ?lb_le_ub ?h1.
Qed.
Lemma clipE x : x \is Num.real -> np_clip (Some lb) (Some ub) x = if x < lb then lb else if ub < x then ub else x.
Proof.
by rewrite /np_clip => xr; case: (x < lb) => //; rewrite (le_gtF lb_le_ub).
Qed.
Lemma mean_bracket (y x : C) : y = lb \/ y = ub -> in_bracket x -> in_bracket (sqrtC (y * x)).
Proof.
move=> hy /andP [x1 x2].
have l0 := lb_gt0; have lu := lb_le_ub; have l0' := ltW l0.
have x0 : 0 <= x by apply: le_trans x1.
have yb : lb <= y <= ub by case: hy => ->; rewrite ?lexx ?lu.
have /andP [y1 y2] := yb; have y0 : 0 <= y by apply: le_trans y1.
have sq (z : C) : 0 <= z -> sqrtC (z * z) = z by move=> z0; rewrite -expr2 sqrCK.
rewrite /in_bracket -[X in X <= _ <= _](sq lb) // -[X in _ <= _ <= X](sq ub) ?(le_trans l0') //.
rewrite !ler_sqrtC ?nnegrE ?mulr_ge0 ?(le_trans l0' lu) //.
by rewrite !ler_pmul.
Qed.

Variables (A : Type) (trial : C -> cres (seq A)) (out : C -> seq A) (num : int).
Hypothesis trialE : forall t, in_bracket t -> trial t = COk (out t).

Lemma search_run fuel a0 last0 : in_bracket a0 -> (0 < fuel)%N -> exists ts res,
  [/\ search_tolerance trial num fuel a0 last0 = COk (Some res), all in_bracket ts &
      tolerance_trials out num a0 lb ub fuel ts res].
Proof.
elim: fuel a0 last0 => // fuel IH a0 last0 ha _; rewrite /= (trialE ha) /=.
case: eqP => [E|ne].
  exists [:: a0], (out a0); split=> //; first by rewrite /= ha.
  by split=> //; left.
pose y := if (size (out a0))%:Z < num then lb else ub.
have -> : (if (size (out a0))%:Z < num then search_tolerance trial num fuel (sqrtC (lb * a0)) (Some (out a0))
   else search_tolerance trial num fuel (sqrtC (ub * a0)) (Some (out a0))) =
   search_tolerance trial num fuel (sqrtC (y * a0)) (Some (out a0)) by rewrite /y; case: ifP.
have hy : y = lb \/ y = ub by rewrite /y; case: ifP; [left|right].
case: (posnP fuel) => [f0|f0].
  exists [:: a0], (out a0); split=> //; [by rewrite f0|by rewrite /= ha|].
  by split=> //; right; rewrite f0.
have [ts [res [E hts [h1 h2 h3 h4 h5]]]] := IH _ (Some (out a0)) (mean_bracket hy ha) f0.
exists (a0 :: ts), res; split=> //; first by rewrite /= ha.
case: ts hts h1 h2 h3 h4 h5 {E} => // t1 ts hts h1 /= h2 h3 h4 h5; split=> //=.
  move=> [|i] hi; last exact: h3.
  rewrite /= h2; split=> //; last by rewrite sqrtCK.
  have /andP [l _] := mean_bracket hy ha; apply: le_trans l; exact: ltW lb_gt0.
by case: h5 => [?|h5]; [left|right; rewrite h5].
Qed.

Lemma adjust_run atol max : atol \is Num.real -> (0 < max)%N -> exists ts res,
  [/\ adjust_tolerance trial num atol max = COk res, all in_bracket ts &
      tolerance_trials out num (np_clip (Some lb) (Some ub) atol) lb ub max ts res].
Proof.
move=> ar m0; have [ts [res [E h1 h2]]] := search_run None (clip_bracket ar) m0.
by exists ts, res; rewrite /adjust_tolerance E.
Qed.
End Search.

Section Project.
Variables (C : numClosedFieldType) (n : nat) (mul : nat -> nat -> nat) (e : nat).
Hypothesis G : group_law n mul e.
Variable mu : nat -> nat -> C.
Hypothesis imufs : ifactor_system n mul e mu.
Variables rep irrep : arr C.
Hypotheses (szR : aorder rep = n) (szD : aorder irrep = n).
Local Notation N := (adim rep).
Local Notation d := (adim irrep).
Hypotheses (iR : iprojrep n mul e mu (aget rep)) (vR : iunitary n (aget rep)).
Hypotheses (iD : iprojrep n mul e mu (aget irrep)) (vD : iunitary n (aget irrep)).
Hypothesis irr : iirreducible n (aget irrep).
Variable L : linalg C.
Hypothesis ok : linalg_ok L.
Variables (around : C -> C) (rnd_int : C -> int).
Hypothesis roundP : forall k : nat, around k%:R = k%:R.
Hypothesis intP : forall k : nat, rnd_int k%:R = k.

Lemma char_sumE : char_sum (get_character irrep) (get_character rep) = icip n (aget irrep) (aget rep).
Proof.
rewrite /char_sum /get_character /get_character_mats.
rewrite (big_nth (0, 0)) size_zip !size_map.
have -> : size (amats irrep) = n by exact: szD.
have -> : size (amats rep) = n by exact: szR.
rewrite minnn big_mkord; apply: eq_bigr => i _.
rewrite nth_zip ?size_map ?(szD : size (amats irrep) = n) ?(szR : size (amats rep) = n) //=.
by rewrite !(nth_map 0) ?(szD : size (amats irrep) = n) ?(szR : size (amats rep) = n).
Qed.

Lemma project_result atol max : atol \is Num.real -> (0 < max)%N ->
  exists m bs, [/\ icip n (aget irrep) (aget rep) = n%:R * m%:R,
    project_to_irrep L around rnd_int rep irrep atol max = COk bs,
    forall b, b \in bs -> [/\ transforms n (aget rep) (aget irrep) b, orthonormal b &
       exists c k j, 0 < c /\ b = c *: projected k j],
    independent bs /\ (size bs <= m)%N &
    let a := np_clip (Some (atol_lb C)) (Some (atol_ub C)) atol in
    ((forall k j, allclose0 a (projected (rep := rep) (irrep := irrep) k j) -> projected k j = 0) ->
      (0 < m)%N -> (4 * (m - size bs) < m)%N) /\
    (4%:R * (N%:R * a) ^+ 2 < 1 -> (4 * (m - size bs) <= m)%N)].
Proof.
move=> ar mx.
have [m mE] := multiplicity_nat G imufs iR vR iD vD irr; exists m.
have n0 : n%:R != 0 :> C by have := gl_e _ _ _ G; rewrite pnatr_eq0; lia.
have numE : rnd_int (around (char_sum (get_character irrep) (get_character rep)) / n%:R) = m.
  by rewrite char_sumE mE -natrM roundP natrM mulrC mulKf // intP.
rewrite /project_to_irrep szR szD eqxx [~~ true]/= numE.
set a1 := np_clip _ _ _; cbv zeta.
case: (posnP m) => [m0|m0].
  exists [::]; rewrite m0; split=> //; by rewrite mE m0.
have nm : (m : int) == 0 = false by apply/eqP; lia.
rewrite nm.
have lb0 := lb_gt0 C.
have once a : in_bracket a -> exists bs, project_once L rep irrep a = COk bs /\ [/\ forall b, b \in bs -> [/\ transforms n (aget rep) (aget irrep) b, orthonormal b &
       exists c k j, 0 < c /\ b = c *: projected k j], independent bs, (size bs <= m)%N &
      ((forall k j, allclose0 a (projected (rep := rep) (irrep := irrep) k j) -> projected k j = 0) -> (4 * (m - size bs) < m)%N) /\
      (4%:R * (N%:R * a) ^+ 2 < 1 -> (4 * (m - size bs) <= m)%N)].
  move=> /andP [al _]; have a0 : 0 <= a by apply: le_trans al; apply: ltW.
  have [bs [E [h1 h2 h3 h4]]] := once_ok G imufs szD iR vR iD vD irr ok a0.
  exists bs; split=> //; split.
  - move=> b hb; have [t g] := h1 b hb; split=> //; last exact: h4.
    exact/(hom_transforms G).
  - exact: stack_independent.
  - exact: (count_le imufs szD iR vR iD vD irr mE h1 h2).
  - split=> [nt|tiny].
      exact: (count_strict imufs szD iR vR iD vD irr mE h1 h2 h3 m0 nt).
    exact: (count_tiny imufs szD iR vR iD vD irr a0 mE h1 h2 h3 tiny).
pose out a := if in_bracket a then (if project_once L rep irrep a is COk bs then bs else [::]) else [::].
have outE a : in_bracket a -> project_once L rep irrep a = COk (out a).
  by move=> ha; have [bs [E _]] := once a ha; rewrite /out ha E.
have [ts [res [E hts tt]]] := adjust_run m outE ar mx.
have in_ts i : (i < size ts)%N -> in_bracket (nth 0 ts i) by move=> hi; apply: (allP hts); apply: mem_nth.
have tsz : (0 < size ts)%N by case: tt => /andP [].
have lei i : (i < size ts)%N -> nth 0 ts i <= a1.
  elim: i => [_|i IH hi]; first by rewrite (tt_first tt).
  have [ne p0 sq] := tt_next tt hi.
  have hin := in_ts i (ltnW hi); apply: le_trans (IH (ltnW hi)).
  have [bs [E' [_ _ h3 _]]] := once _ hin.
  have lt : (size (out (nth 0 ts i)))%:Z < m.
    by have := ne; rewrite /out hin E' => ne'; rewrite ltz_nat ltn_neqAle h3 andbT; apply/eqP => q; apply: ne'; rewrite q.
  move: sq; rewrite lt => sq.
  case/andP: hin => hl _; have i0 : 0 <= nth 0 ts i by apply: le_trans hl; apply: ltW.
  by rewrite -(ler_pexpn2r (n := 2)) ?nnegrE // sq expr2 ler_wpmul2r.
have := in_ts (size ts).-1; have := lei (size ts).-1; rewrite ltn_predL => /(_ tsz) lela /(_ tsz) hl.
have [bs [E' [h1 h2 h3 [h4 h5]]]] := once _ hl.
have resE : res = bs by rewrite (tt_result tt) -nth_last /out hl E'.
exists res; split=> //; rewrite resE //.
have l0 : 0 <= nth 0 ts (size ts).-1 by case/andP: hl => q _; apply: le_trans q; apply: ltW.
split=> [nt _|tiny].
  apply: h4 => k j ac; apply: nt; apply/forallP => x; apply/forallP => y.
  by move/forallP: ac => /(_ x) /forallP /(_ y) q; apply: le_trans q lela.
apply: h5; apply: le_lt_trans tiny; rewrite ler_pmul2l ?ltr0n // ler_pexpn2r // ?nnegrE ?mulr_ge0 ?ler0n //.
  by rewrite ler_wpmul2l ?ler0n.
exact: le_trans l0 lela.
Qed.
End Project.
