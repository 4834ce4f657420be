(** Multi-indices: the action on all indices entrywise, permutations of the indices, and the
    loop of apply_intrinsic_symmetry. *)
From Coq Require Import String.
From mathcomp Require Import all_ssreflect all_algebra all_fingroup.
From mathcomp.real_closed Require Import mxtens.
From mathcomp Require Import zify.
From Verif Require Import RepSpec RepModel RepTheory RepProofs ChainModel ProjModel ProjSpec GrassTheory ProjProofs
  TensorModel TensorSpec TensorTheory TensorProofs.
Import Order.TTheory GRing.Theory Num.Theory.
Set Implicit Arguments.
Unset Strict Implicit.
Unset Printing Implicit Defensive.
Local Open Scope ring_scope.

Lemma unflatS m p k : @unflat m p.+1 k =
  [ffun j => if unlift ord_max j is Some j' then unflat (mxtens_unindex k).1 j' else (mxtens_unindex k).2].
Proof. by []. Qed.
Lemma flatS m p x : @flat m p.+1 x = mxtens_index (flat [ffun j => x (lift ord_max j)], x ord_max).
Proof. by []. Qed.
Lemma flatK m p : cancel (@flat m p) (@unflat m p).
Proof.
elim: p => [|p IH] x; first by apply/ffunP => j; rewrite ffunE (ord1 j).
rewrite flatS unflatS mxtens_indexK IH; apply/ffunP => j; rewrite ffunE.
by case: unliftP => [j' ->|->] //; rewrite ffunE.
Qed.
Lemma unflatK m p : cancel (@unflat m p) (@flat m p).
Proof.
elim: p => [|p IH] k; first by rewrite /= ffunE.
rewrite flatS unflatS ffunE unlift_none -[RHS]mxtens_unindexK; case: (mxtens_unindex k) => a b /=.
by congr (mxtens_index (_, _)); rewrite -[RHS]IH; congr flat; apply/ffunP => j; rewrite !ffunE liftK.
Qed.

Section Index.
Variable C : numClosedFieldType.
Variables (m p : nat).
Implicit Types (T : 'rV[C]_(tdim m p)) (x y : {ffun 'I_p.+1 -> 'I_m}) (s : {perm 'I_p.+1}).

Lemma entryP T T' : entry T =1 entry T' -> T = T'.
Proof. by move=> h; apply/rowP => k; have := h (unflat k); rewrite /entry unflatK. Qed.
Lemma entryZ a T x : entry (a *: T) x = a * entry T x. Proof. by rewrite /entry mxE. Qed.
Lemma entry_sum (I : finType) (F : I -> 'rV[C]_(tdim m p)) x : entry (\sum_i F i) x = \sum_i entry (F i) x.
Proof. by rewrite /entry summxE. Qed.
Lemma sum_flat (f : 'I_(tdim m p) -> C) : \sum_k f k = \sum_x f (flat x).
Proof. by rewrite (reindex (@flat m p)) //; exists (@unflat m p) => z _; rewrite ?flatK ?unflatK. Qed.
Lemma entry_transpose s T x : entry (transpose s T) x = entry T [ffun j => x ((s^-1)%g j)].
Proof. by rewrite /entry mxE flatK. Qed.
End Index.

Lemma tactE (C : numClosedFieldType) m p (R : 'M[C]_m) x y :
  tact p R (flat x) (flat y) = \prod_k R (x k) (y k).
Proof.
elim: p x y => [|p IH] x y /=; first by rewrite big_ord1.
rewrite tensmxE IH [RHS]big_ord_recr /=; congr (_ * _); apply: eq_bigr => k _; rewrite !ffunE.
by have -> : lift ord_max k = widen_ord (leqnSn p.+1) k by apply: val_inj; rewrite /= /bump leqNgt ltn_ord.
Qed.
Lemma tact_entry (C : numClosedFieldType) m p (R : 'M[C]_m) (T : 'rV[C]_(tdim m p)) :
  (tact p R *m T^T = T^T) <-> (forall x : {ffun 'I_p.+1 -> 'I_m}, \sum_(y : {ffun 'I_p.+1 -> 'I_m}) (\prod_k R (x k) (y k)) * entry T y = entry T x).
Proof.
have E x : (tact p R *m T^T) (flat x) 0 = \sum_(y : {ffun 'I_p.+1 -> 'I_m}) (\prod_k R (x k) (y k)) * entry T y.
  by rewrite mxE sum_flat; apply: eq_bigr => y _; rewrite tactE mxE.
split=> [h x|h]; first by rewrite -E h mxE.
by apply/colP => k; rewrite -(unflatK k) E h mxE.
Qed.

Section Symmetric.
Variable C : numClosedFieldType.
Variables (m p : nat).
Implicit Types (T : 'rV[C]_(tdim m p)) (x y : {ffun 'I_p.+1 -> 'I_m}) (s : {perm 'I_p.+1}).
Definition symm T : 'rV[C]_(tdim m p) := \sum_(s : {perm 'I_p.+1}) transpose s T.
Lemma symmE T x : entry (symm T) x = \sum_(s : {perm 'I_p.+1}) entry T [ffun j => x (s j)].
Proof.
rewrite entry_sum (reindex_inj invg_inj) /=; apply: eq_bigr => s _.
by rewrite entry_transpose invgK.
Qed.
Lemma symmZ a T : symm (a *: T) = a *: symm T.
Proof. by apply: entryP => x; rewrite entryZ !symmE mulr_sumr; apply: eq_bigr => s _; rewrite entryZ. Qed.
Lemma symm_symmetric T : tensor_symmetric (symm T).
Proof.
move=> s x; rewrite !symmE (reindex_inj (mulIg (s^-1)%g)) /=; apply: eq_bigr => u _; congr (entry _ _).
by apply/ffunP => j; rewrite !ffunE permM permKV.
Qed.
Lemma symm_fixed T : tensor_symmetric T -> symm T = ((p.+1)`!)%:R *: T.
Proof.
move=> h; apply: entryP => x; rewrite symmE entryZ (eq_bigr (fun=> entry T x)) => [|s _]; last exact: h.
by rewrite sumr_const card_Sn mulr_natl.
Qed.
Lemma symmetricZ a T : tensor_symmetric T -> tensor_symmetric (a *: T).
Proof. by move=> h s x; rewrite !entryZ h. Qed.
Lemma invariantZ n (R : nat -> 'M[C]_m) a T : tensor_invariant n R T -> tensor_invariant n R (a *: T).
Proof.
move=> h g gn x; rewrite entryZ -(h g gn x) mulr_sumr; apply: eq_bigr => y _.
by rewrite entryZ mulrCA.
Qed.
Lemma invariant_sum n (R : nat -> 'M[C]_m) N (c : 'I_N -> C) (T : 'I_N -> 'rV[C]_(tdim m p)) :
  (forall a, tensor_invariant n R (T a)) -> tensor_invariant n R (\sum_a c a *: T a).
Proof.
move=> h g gn x; rewrite entry_sum.
under [RHS]eq_bigr => a _ do rewrite -(invariantZ (c a) (h a) gn x).
rewrite exchange_big /=; apply: eq_bigr => y _; by rewrite entry_sum mulr_sumr.
Qed.
Lemma symm_invariant n (R : nat -> 'M[C]_m) T : tensor_invariant n R T -> tensor_invariant n R (symm T).
Proof.
move=> h g gn x; rewrite symmE; under eq_bigr => y _ do rewrite symmE mulr_sumr.
rewrite exchange_big /=; apply: eq_bigr => s _; rewrite -(h g gn).
pose f (y : {ffun 'I_p.+1 -> 'I_m}) : {ffun 'I_p.+1 -> 'I_m} := [ffun j => y (s j)].
have fb : {on predT, bijective f}.
  exists (fun y => [ffun j => y ((s^-1)%g j)]) => y _; by apply/ffunP => j; rewrite !ffunE ?permK ?permKV.
rewrite [RHS](reindex f) /=; last by exact: fb.
apply: eq_bigr => y _; congr (_ * _).
rewrite (reindex_inj (@perm_inj _ s)) /=; apply: eq_bigr => k _; by rewrite !ffunE.
Qed.
End Symmetric.

(** ** The loop of apply_intrinsic_symmetry *)
Section Loop.
Variable C : numClosedFieldType.
Variables (L : linalg C) (atol : C) (m p : nat).
Hypotheses (ok : linalg_ok L) (a0 : 0 <= atol).
Local Notation vec := 'rV[C]_(tdim m p).
Local Notation step := (symmetry_step L atol (m := m) (p := p)).

Lemma vec_normE n (v : 'rV[C]_n) : vec_norm v = sqrtC (sqnorm v).
Proof. by []. Qed.
Lemma vec_norm_gt0 n (v : 'rV[C]_n) : v != 0 -> 0 < vec_norm v.
Proof.
move=> v0; rewrite vec_normE sqrtC_gt0 lt_def sqnorm_ge0 andbT.
by apply: contra v0 => /eqP /sqnorm_eq0 ->.
Qed.
Lemma vec_norm0 n (v : 'rV[C]_n) : (vec_norm v == 0) = (v == 0).
Proof.
case: (altP eqP) => [h|h]; case: (v =P 0) => // v0; first by move/eqP/vec_norm_gt0: v0; rewrite h ltxx.
by case/eqP: h; rewrite v0 vec_normE sqnorm0 sqrtC0.
Qed.
Lemma unit_norm n (v : 'rV[C]_n) : v != 0 -> sqnorm ((vec_norm v)^-1 *: v) = 1.
Proof.
move=> v0; have v1 := vec_norm_gt0 v0.
rewrite sqnormZ normfV exprVn gtr0_norm // vec_normE sqrtCK mulVf //.
by apply: contra v0 => /eqP /sqnorm_eq0 ->.
Qed.
Lemma allclose_zero n (v : 'rV[C]_n) : ~~ allclose0 atol v -> v != 0.
Proof. by apply: contra => /eqP ->; apply/forallP => i; apply/forallP => j; rewrite mxE normr0. Qed.

(** t is represented in the list: its symmetric part is small, or at an angle of less than
    30 degrees to the span of the list. *)
Definition covered (t : vec) (ss : seq vec) : Prop :=
  allclose0 atol ((vec_norm t)^-1 *: symm t) \/
  exists2 w : vec, (w <= stack ss)%MS & 4%:R * sqnorm (symm t - w) < sqnorm (symm t).
Record loop_inv (done ss : seq vec) : Prop := {
  li_unit : forall s, s \in ss -> sqnorm s = 1;
  li_from : forall s, s \in ss -> exists t c, [/\ t \in done, 0 < c & s = c *: symm t];
  li_free : row_free (stack ss);
  li_far : forall i, (i < size ss)%N -> forall w : vec, (w <= stack (take i ss))%MS -> 1 <= 4%:R * sqnorm (nth 0 ss i - w);
  li_cover : forall t, t \in done -> covered t ss }.
Lemma step_zero ss : step ss 0 = CWarn.
Proof. by rewrite /symmetry_step /symmetrised vec_norm0 eqxx. Qed.
Lemma cover_mono t ss ss' : (stack ss <= stack ss')%MS -> covered t ss -> covered t ss'.
Proof. by move=> h [h1|[w h1 h2]]; [left|right; exists w => //; exact: submx_trans h]. Qed.
Lemma step_inv done ss t : t != 0 -> loop_inv done ss -> exists ss', step ss t = COk ss' /\ loop_inv (rcons done t) ss'.
Proof.
move=> t0 [h1 h2 h3 hf h4]; rewrite /symmetry_step /symmetrised vec_norm0 (negbTE t0) [cbind (COk _) _]/= -/(symm _) symmZ.
have tn := vec_norm_gt0 t0.
have old : covered t ss -> loop_inv (rcons done t) ss.
  move=> ct; split=> //.
    by move=> s /h2 [t' [c [h5 h6 h7]]]; exists t', c; rewrite mem_rcons inE h5 orbT.
  by move=> t'; rewrite mem_rcons inE => /orP [/eqP ->|/h4].
case: ifP => [ac|/negbT/allclose_zero nz].
  by exists ss; split=> //; apply: old; left.
rewrite vec_norm0 (negbTE nz); set r := (vec_norm t)^-1 *: symm t in nz *.
have rn := vec_norm_gt0 nz; pose s := (vec_norm r)^-1 *: r; rewrite -/s.
have s1 : sqnorm s = 1 by exact: unit_norm.
have sE : s = ((vec_norm r)^-1 * (vec_norm t)^-1) *: symm t by rewrite -scalerA.
have c0 : 0 < (vec_norm r)^-1 * (vec_norm t)^-1 by rewrite mulr_gt0 ?invr_gt0.
have y0 : symm t != 0 by apply: contra nz => /eqP e; rewrite /r e scaler0.
have s0 : s != 0 by rewrite scaler_eq0 invr_eq0 negb_or nz andbT gt_eqF.
have es : (s :=: symm t)%MS by rewrite sE; apply: eqmx_scale; rewrite gt_eqF.
have yn : 0 < sqnorm (symm t) by rewrite lt_def sqnorm_ge0 andbT; apply: contra y0 => /eqP /sqnorm_eq0 ->.
have grow : (forall w : vec, (w <= stack ss)%MS -> 1 <= 4%:R * sqnorm (s - w)) -> loop_inv (rcons done t) (rcons ss s).
  move=> far; have nsub : ~~ (s <= stack ss)%MS.
    by apply/negP => /far; rewrite subrr sqnorm0 mulr0 ler10.
  split.
  - by move=> s'; rewrite mem_rcons inE => /orP [/eqP ->|/h1].
  - move=> s'; rewrite mem_rcons inE => /orP [/eqP ->|/h2 [t' [c [h5 h6 h7]]]].
      by exists t; eexists; split; last exact: sE; rewrite ?mem_rcons ?mem_head.
    by exists t', c; rewrite mem_rcons inE h5 orbT.
  - rewrite /row_free stack_rcons; apply/eqP.
    have := mxrank_sum_cap (stack ss) s.
    have -> : (stack ss :&: s = 0)%MS.
      apply/eqP; rewrite -mxrank_eq0 -leqn0 leqNgt; apply/negP => ci; case/negP: nsub.
      have le1 := rank_leq_row s; have sub := capmxSr (stack ss) s.
      have : (s <= stack ss :&: s)%MS.
        by rewrite -(geq_leqif (mxrank_leqif_sup sub)); apply: leq_trans le1 ci.
      by move=> h; apply: submx_trans h (capmxSl _ _).
    rewrite mxrank0 addn0 => ->; move/eqP: h3 => ->.
    by rewrite rank_rV s0 size_rcons !muln1 addn1.
  - move=> i; rewrite size_rcons ltnS leq_eqVlt => /orP [/eqP ->|hi] w.
      by rewrite nth_rcons ltnn eqxx -cats1 take_size_cat // => /far.
    by rewrite nth_rcons hi -cats1 takel_cat ?(ltnW hi) // => /(hf i hi).
  - move=> t'; rewrite mem_rcons inE => /orP [/eqP ->|/h4 ct].
      right; exists (symm t); first by rewrite stack_rcons -es addsmxSr.
      by rewrite subrr sqnorm0 mulr0.
    by apply: cover_mono ct; rewrite stack_rcons addsmxSl.
case: ss h1 h2 h3 hf h4 old grow => [|s2 ss] h1 h2 h3 hf h4 old grow.
  exists [:: s]; split=> //; apply: grow => w /submxP [M ->].
  by rewrite [M *m _]mulmx0 subr0 s1 mulr1 ler1n.
set ss1 := s2 :: ss in h1 h2 h3 hf h4 old grow *.
have fs : row_free s by rewrite /row_free rank_rV s0.
have [||dist [-> dist0 _ gap _]] := grassmann_gap ok (skip := false) (B1 := s) (B2 := stack ss1) isT.
- by rewrite muln1.
- by split.
rewrite [cbind (COk _) _]/=; have {}gap : largest_gap s (stack ss1) dist by apply: gap; rewrite muln1.
case: ifP => lt.
  exists ss1; split=> //; apply: old; right.
  have [|w wS le] := lg_bound gap (v := symm t); first by rewrite es.
  exists w => //; apply: le_lt_trans (_ : 4%:R * (dist ^+ 2 * sqnorm (symm t)) < _); first by rewrite ler_pmul2l ?ltr0n.
  rewrite mulrA -[X in _ < X]mul1r ltr_pmul2r //.
  have : dist ^+ 2 < 2%:R^-1 ^+ 2 by rewrite ltr_pexpn2r ?nnegrE ?invr_ge0 ?ler0n.
  by rewrite exprVn -natrX -(ltr_pmul2l (x := 4%:R)) ?ltr0n // divff ?pnatr_eq0.
exists (rcons ss1 s); split=> //; apply: grow => w wS.
have [v [v0 /submxP [M vE] hv]] := lg_attained gap.
have {}vE : v = M 0 0 *: s by rewrite vE {1}[M]mx11_scalar mul_scalar_mx.
have a0' : M 0 0 != 0 by apply: contra v0 => /eqP e; rewrite vE e scale0r.
have := hv (M 0 0 *: w) (scalemx_sub _ wS).
rewrite vE -scalerBr (sqnormZ (M 0 0) s) (sqnormZ (M 0 0) (s - w)) s1 mulr1 mulrC ler_pmul2l ?exprn_gt0 ?normr_gt0 // => h5.
have half : 2%:R^-1 <= dist by rewrite real_leNgt ?lt ?ger0_real ?invr_ge0 ?ler0n.
have := ler_pmul (_ : 0 <= 2%:R^-1) (_ : 0 <= 2%:R^-1) half half; rewrite -!expr2 => h6.
have {}h6 : 2%:R^-1 ^+ 2 <= dist ^+ 2 by apply: h6; rewrite invr_ge0 ler0n.
have := le_trans h6 h5; rewrite exprVn -natrX -(ler_pmul2l (x := 4%:R)) ?ltr0n // divff ?pnatr_eq0 //.
Qed.

Lemma loop_ok ts done ss : (forall t, t \in ts -> t != 0) -> loop_inv done ss ->
  exists ss', cfold step ts ss = COk ss' /\ loop_inv (done ++ ts) ss'.
Proof.
elim: ts done ss => [|t ts IH] done ss nz hI; first by exists ss; rewrite cats0.
have [|ss1 [e1 h1]] := step_inv (nz t _) hI; first exact: mem_head.
have [|ss2 [e2 h2]] := IH _ _ _ h1; first by move=> u hu; apply: nz; rewrite inE hu orbT.
by exists ss2; rewrite /= e1 /= e2 -cat_rcons.
Qed.
Lemma loop_zero ts done ss : loop_inv done ss -> 0 \in ts -> cfold step ts ss = CWarn.
Proof.
elim: ts done ss => [//|t ts IH] done ss hI; rewrite inE => h; rewrite /=.
have [->|/eqP t0] := t =P 0; first by rewrite step_zero.
have [ss1 [e1 h1]] := step_inv t0 hI; rewrite e1 /=.
by apply: IH h1 _; case/orP: h => // /eqP e; rewrite e eqxx in t0.
Qed.
Lemma loop_start : loop_inv [::] [::].
Proof. by split=> //; rewrite /row_free mxrank0. Qed.
End Loop.
