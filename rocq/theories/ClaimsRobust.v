(** Property C61: the decisions of is_equivalent_irrep and of the checkers survive errors. *)
From Coq Require Import QArith ZArith List String.
From mathcomp Require Import all_ssreflect all_algebra all_fingroup algC.
From Verif Require Import Py Mat3 MatQ GroupSpec GroupModel GroupProofs FieldTac RepSpec RepTheory IndexRepSpec RepModel IndexGroup CExpSpec ExpInstance
  ChainModel ClaimsChain SmallModel SmallSpec SmallTheory RandomTheory SmallExamples ClaimsSmall ClaimsRep ClassSpec ClaimsClass Mx2 RobustTheory.
Import Order.TTheory GRing.Theory Num.Theory.
Set Implicit Arguments.
Unset Strict Implicit.
Unset Printing Implicit Defensive.
Local Open Scope ring_scope.

(** The factor by which an error of eps in the entries of two unitary matrices is amplified
    in products of entries. *)
Definition amplified (C : numClosedFieldType) (eps : C) : C := 2%:R * eps + eps ^+ 2.

(** On characters computed from matrices A', B' within eps of the irreps A, B the test
    answers whether A and B are equivalent. *)
Theorem C61_equivalence_test : forall (C : numClosedFieldType) around n mul e (mu : nat -> nat -> C) eps (A B A' B' : arr C),
  rounds around -> group_law n mul e -> ifactor_system n mul e mu ->
  aorder A = n -> iprojrep n mul e mu (aget A) -> iunitary n (aget A) -> iirreducible n (aget A) ->
  aorder B = n -> iprojrep n mul e mu (aget B) -> iunitary n (aget B) -> iirreducible n (aget B) ->
  0 <= eps -> near eps A' A -> near eps B' B ->
  (n * (adim A * adim B))%:R * amplified eps < 2%:R^-1 ->
  is_equivalent_irrep around (get_character A') (get_character B') = true <-> iequivalent n (aget A) (aget B).
Proof.
move=> C around n mul e mu eps A B A' B' r G fs sA pA uA iA sB pB uB iB e0 nA nB small.
have n0 : (0 < n)%N by have /ssrnat.ltP := gl_e _ _ _ G; case: (n).
have norm d (D : nat -> 'M[C]_d) : iprojrep n mul e mu D -> iunitary n D -> iirreducible n D -> icip n D D = n%:R.
  move=> pD uD iD; rewrite (icipE G) (irreducible_norm1 (ifs_fs G fs)) ?cardsT ?ival_card //.
  + exact/(iprojrepE G).
  + exact/(iunitaryE G).
  + exact/(iirreducibleE G).
have dich := icip_dich G fs pA uA (norm _ _ pA uA iA) pB uB (norm _ _ pB uB iB).
case: nA => d1 [as' [as_ [EA' EA s1 h1]]]; case: nB => d2 [bs' [bs [EB' EB s2 h2]]]; subst A A' B B'.
rewrite /aorder /= in sA sB small.
have T k := @test_near C n d1 d2 eps as_ as' bs bs' e0 (etrans s1 sA) (etrans s2 sB) uA uB h1 h2 around k r n0 small.
case: dich => -[E h]; first by rewrite (T 0%N) ?E ?mul0n //; split.
by rewrite (T 1%N) ?E ?mul1n //; split.
Qed.
Print Assumptions C61_equivalence_test.

(** The self-test of the random method: the character of A' computed within eps of a unitary
    representation A passes exactly when A is irreducible. *)
Theorem C61_irreducibility_test : forall (C : numClosedFieldType) around n mul e (mu : nat -> nat -> C) eps (A A' : arr C),
  rounds around -> group_law n mul e -> ifactor_system n mul e mu ->
  aorder A = n -> iprojrep n mul e mu (aget A) -> iunitary n (aget A) ->
  0 <= eps -> near eps A' A -> (n * (adim A * adim A))%:R * amplified eps < 2%:R^-1 ->
  is_equivalent_irrep around (get_character A') (get_character A') = true <-> iirreducible n (aget A).
Proof.
move=> C around n mul e mu eps A A' r G fs sA pA uA e0 nA small.
have n0 : (0 < n)%N by have /ssrnat.ltP := gl_e _ _ _ G; case: (n).
have [k E] := icip_nat G fs pA pA uA.
have I : iirreducible n (aget A) <-> k = 1%N.
  split=> [iA|k1].
    apply/eqP; rewrite -(eqn_pmul2r n0) mul1n -(@eqr_nat C) -E (icipE G).
    rewrite (irreducible_norm1 (ifs_fs G fs)) ?cardsT ?ival_card //.
    + exact/(iprojrepE G).
    + exact/(iunitaryE G).
    + exact/(iirreducibleE G).
  apply/(iirreducibleE G); apply: (norm1_irreducible (ifs_fs G fs) (H := [set: igT G]%G)).
  + exact/(iprojrepE G).
  + exact/(iunitaryE G).
  + by rewrite -(icipE G) E k1 mul1n cardsT ival_card.
case: nA => d1 [as' [as_ [EA' EA s1 h1]]]; subst A A'; rewrite /aorder /= in sA small.
rewrite (@test_near C n d1 d1 eps as_ as' as_ as' e0 (etrans s1 sA) (etrans s1 sA) uA uA h1 h1 around k r n0 small E).
by rewrite I; split=> [/eqP|->].
Qed.
Print Assumptions C61_irreducibility_test.

(** is_unitary and is_representation with np.allclose: what they test, and that they accept
    whatever is close enough to a unitary representation. *)
Theorem C61_is_unitary_tolerance_iff : forall (C : numClosedFieldType) (rtol atol : C) (A : arr C),
  is_unitary (@np_close C rtol atol) A = true <->
  forall g i j, (g < aorder A)%N ->
    `|\sum_k aget A g i k * (aget A g j k)^* - (eq_op i j)%:R| <= atol + rtol * (eq_op i j)%:R.
Proof.
move=> C rtol atol A; rewrite /is_unitary.
have E g i j : (aget A g *m adj (aget A g)) i j = \sum_k aget A g i k * (aget A g j k)^*.
  by rewrite mxE; apply: eq_bigr => k _; rewrite !mxE.
split=> [/all_nthP h g i j hg|h].
  have := h 0 g hg; rewrite /np_close => /forallP /(_ i) /forallP /(_ j).
  by rewrite -/(aget A g) E !mxE normr_nat.
apply/(all_nthP 0) => g hg; apply/forallP => i; apply/forallP => j.
by rewrite -/(aget A g) E !mxE normr_nat; apply: h.
Qed.
Print Assumptions C61_is_unitary_tolerance_iff.
Theorem C61_is_representation_tolerance_iff : forall (C : numClosedFieldType) (rtol atol : C) (A : arr C) t mu,
  is_representation (@np_close C rtol atol) A t mu = true <->
  forall g h i j, (g < aorder A)%N -> (h < aorder A)%N ->
    `|\sum_k aget A g i k * aget A h k j - mu g h * aget A (tget t g h) i j|
      <= atol + rtol * `|mu g h * aget A (tget t g h) i j|.
Proof.
move=> C rtol atol A t mu; rewrite /is_representation; split=> [/allP H g h i j hg hh|H].
  have := H g; rewrite mem_iota add0n hg => /(_ isT) /allP /(_ h).
  by rewrite mem_iota add0n hh => /(_ isT) /forallP /(_ i) /forallP /(_ j); rewrite !mxE.
apply/allP => g; rewrite mem_iota add0n => hg; apply/allP => h; rewrite mem_iota add0n => hh.
by apply/forallP => i; apply/forallP => j; rewrite !mxE; apply: H.
Qed.
Print Assumptions C61_is_representation_tolerance_iff.
Theorem C61_checkers_accept : forall (C : numClosedFieldType) n e (t : table) (mu : nat -> nat -> C) eps rtol atol (A A' : arr C),
  group_law n (tget t) e -> ifactor_system n (tget t) e mu ->
  aorder A = n -> iprojrep n (tget t) e mu (aget A) -> iunitary n (aget A) ->
  0 <= eps -> 0 <= rtol -> near eps A' A -> (adim A)%:R * amplified eps + eps <= atol ->
  is_unitary (@np_close C rtol atol) A' = true /\ is_representation (@np_close C rtol atol) A' t mu = true.
Proof.
move=> C n e t mu eps rtol atol A A' G fs sA pA uA e0 r0 nA small.
case: nA => d [as' [as_ [EA' EA s1 h1]]]; subst A A'; rewrite /aorder /= in sA small.
have tol x : 0 <= rtol * `|x| by rewrite mulr_ge0.
have u g i j : (g < n)%N -> `|nth 0 as_ g i j| <= 1 by move=> /uA; apply: unitary_entry.
split.
  apply/(all_nthP 0) => g hg; apply/forallP => i; apply/forallP => j; rewrite /= in hg *.
  have gn : (g < n)%N by rewrite -sA -s1.
  apply: le_trans (_ : _ <= atol) _; last by rewrite ler_addl.
  apply: le_trans small; apply: ler_paddr => //; rewrite -[in X in _ - X](uA g gn); apply: mul_near => // a b; rewrite ?[adj _ a b]mxE ?mxE.
  - exact: u.
  - by rewrite norm_conjC; apply: u.
  - exact: h1.
  - by rewrite -rmorphB norm_conjC; apply: h1.
apply/allP => g; rewrite mem_iota add0n /aorder /= => hg; apply/allP => h; rewrite mem_iota add0n => hh.
have gn : (g < n)%N by rewrite -sA -s1.
have hn : (h < n)%N by rewrite -sA -s1.
apply/forallP => i; apply/forallP => j; rewrite /aget /=.
apply: le_trans (_ : _ <= atol) _; last by rewrite ler_addl.
apply: le_trans small.
have E := pA.2 g h gn hn; rewrite /aget /= in E.
set z := nth 0 as' (tget t g h).
have -> : (nth 0 as' g *m nth 0 as' h) i j - (mu g h *: z) i j =
  ((nth 0 as' g *m nth 0 as' h) i j - (nth 0 as_ g *m nth 0 as_ h) i j) - mu g h * (z i j - nth 0 as_ (tget t g h) i j).
  rewrite E; have sc (X : 'M[C]_d) : (mu g h *: X) i j = mu g h * X i j by rewrite mxE.
  by rewrite !sc mulrBr opprB addrA subrK.
apply: le_trans (ler_norm_sub _ _) _; apply: ler_add.
  by apply: mul_near => // a b; apply: u.
by rewrite normrM (ifs_norm fs gn hn) mul1r; apply: h1.
Qed.
Print Assumptions C61_checkers_accept.

(** The irreps which enumerate_small_representations returns, purification included, are
    judged pairwise inequivalent and each equivalent to itself, and they pass the checkers
    with the tolerance n (2 atol + atol^2) + atol. *)
Theorem C61_returned_irreps : forall (C : numClosedFieldType) (E : numpy C) rtol atol rots trans k t e method max_num L inds
    (rtol' tol : C),
  numpy_ok E rtol atol -> rounds (np_around E) -> Qle atol (Qmake 1 3) -> 0 <= qC C atol -> 0 <= rtol' ->
  lists_space_group rots trans -> (forall r, In r rots -> fixes_kpoint k r) ->
  multiplication rots (tget t) e -> veq (List.nth e trans vzero) vzero -> method_ok E rots method ->
  let n := size rots in let nu := bloch_factor (np_exp E) rots trans k (tget t) in
  (n * n)%:R * amplified (qC C atol) < 2%:R^-1 -> n%:R * amplified (qC C atol) + qC C atol <= tol ->
  enumerate_small_representations E rots trans k false method rtol atol max_num = COk (L, inds, true) ->
  (forall i j, (i < size L)%N -> (j < size L)%N ->
     is_equivalent_irrep (np_around E) (get_character (arr_nth L i)) (get_character (arr_nth L j)) = eq_op i j) /\
  (forall i, (i < size L)%N -> is_unitary (@np_close C rtol' tol) (arr_nth L i) = true /\
     is_representation (@np_close C rtol' tol) (arr_nth L i) t nu = true).
Proof.
move=> C E rtol atol rots trans k t e method max_num L inds rtol' tol NO r A3 a0 r0 SG FK M W0 mok n nu small1 small2 h.
have := C27_small_representations max_num NO A3 SG FK M W0 mok; cbv zeta; rewrite h.
case=> [[]//|[]//|[]//|[L1 [L2 [inds' [[<- _] [sz cl] [sL nr] _]]]]].
have G : group_law n (tget t) e := mult_group_law (sg_rots _ _ SG) M.
have fs : ifactor_system n (tget t) e nu := complete_fs G cl.
have amp0 : 0 <= amplified (qC C atol) by apply: addr_ge0; [apply: mulr_ge0; rewrite ?ler0n|exact: exprn_ge0].
have dim i : (i < size L2)%N -> (adim (arr_nth L2 i) ^ 2 <= n)%N.
  by move=> iL; rewrite /n -(ci_squares cl) (bigD1 (Ordinal iL)) //= leq_addr.
split=> [i j iL jL|i iL].
  have iL2 : (i < size L2)%N by rewrite -sL.
  have jL2 : (j < size L2)%N by rewrite -sL.
  have le : (adim (arr_nth L2 i) * adim (arr_nth L2 j) <= n)%N.
    rewrite -leq_sqr expnMn (leq_trans (leq_mul (dim _ iL2) (dim _ jL2))) //.
  have st : (n * (adim (arr_nth L2 i) * adim (arr_nth L2 j)))%:R * amplified (qC C atol) < 2%:R^-1.
    apply: le_lt_trans small1; apply: ler_wpmul2r => //; rewrite ler_nat leq_mul2l le orbT //.
  have T := C61_equivalence_test r G fs (sz _ iL2) (ci_rep cl iL2) (ci_unitary cl iL2) (ci_irreducible cl iL2)
    (sz _ jL2) (ci_rep cl jL2) (ci_unitary cl jL2) (ci_irreducible cl jL2) a0 (nr _ iL) (nr _ jL) st.
  case: eqP => [ij|ij]; first by apply/T; rewrite ij; exists 1%:M, 1%:M; split=> [||g _]; rewrite ?mulmx1 ?mul1mx.
  by apply/negP => /T; apply: (ci_inequivalent cl).
have iL2 : (i < size L2)%N by rewrite -sL.
apply: (C61_checkers_accept G fs (sz _ iL2) (ci_rep cl iL2) (ci_unitary cl iL2) a0 r0 (nr _ iL)).
apply: le_trans small2; rewrite ler_add2r; apply: ler_wpmul2r => //; rewrite ler_nat.
apply: leq_trans (dim _ iL2); rewrite expnS expn1; have := (ci_irreducible cl iL2).1.
by case: (adim _) => // m _; rewrite leq_pmulr.
Qed.
Print Assumptions C61_returned_irreps.

(** Cases meeting the hypotheses: a rounding function, and the quaternion irrep of 222 with an
    error of 1/100 in one entry, for which the error bound 4 * 4 * (2/100 + 1/10000) is below
    one half. *)
Definition ex_around (z : algCF) : algCF := (np_int ex_numpy z)%:~R.
Definition ex_perturbed : arr algCF :=
  @Arr algCF 2 [:: 1%:M; mx2 ('i + 100%:R^-1) 0 0 (- 'i); mx2 0 1 (-1) 0; mx2 0 'i 'i 0].
Example C61_hypotheses_met :
  [/\ rounds ex_around, near 100%:R^-1 ex_perturbed (ex_quat algCF),
      (4 * (adim (ex_quat algCF) * adim (ex_quat algCF)))%:R * amplified (100%:R^-1 : algCF) < 2%:R^-1 &
      is_equivalent_irrep ex_around (get_character ex_perturbed) (get_character ex_perturbed) = true].
Proof.
have r : rounds ex_around.
  move=> z m h _; rewrite /ex_around (no_int ex_numpy_ok (m := m%:Z)) ?pmulrn //.
have h100 : 0 <= 100%:R^-1 :> algCF by rewrite invr_ge0 ler0n.
have nr : near 100%:R^-1 ex_perturbed (ex_quat algCF).
  exists 2%N, (amats ex_perturbed), (amats (ex_quat algCF)); split=> // g i j.
  case: g => [|[|[|[|g]]]]; rewrite /= ?subrr ?normr0 ?nth_nil ?subrr ?normr0 //.
  rewrite !mxE; case: i => [[|[|//]] ?]; case: j => [[|[|//]] ?] /=; rewrite ?subrr ?normr0 //.
  by rewrite addrC addKr ger0_norm.
have sm : (4 * (adim (ex_quat algCF) * adim (ex_quat algCF)))%:R * amplified (100%:R^-1 : algCF) < 2%:R^-1.
  rewrite /amplified -(ltr_pmul2r (x := (100 ^ 2 * 2)%:R)) ?ltr0n //.
  have -> : ((100 ^ 2 * 2)%:R : algCF) = 100%:R ^+ 2 * 2%:R by rewrite natrM natrX.
  rewrite exprVn; set x := 100%:R.
  have x0 : x != 0 by rewrite pnatr_eq0.
  have -> : forall y : algCF, y * (2%:R * x^-1 + (x ^+ 2)^-1) * (x ^+ 2 * 2%:R) = y * (2%:R * x + 1) * 2%:R.
    move=> y; rewrite -[LHS]mulrA -[RHS]mulrA; congr (_ * _); rewrite [LHS]mulrA; congr (_ * _).
    by rewrite mulrDl mulVf ?expf_neq0 // -mulrA [x^-1 * _]mulrC expr2 mulfK.
  have -> : 2%:R^-1 * (x ^+ 2 * 2%:R) = x ^+ 2 by rewrite mulrC mulfK ?pnatr_eq0.
  by rewrite /x -natrM -natrX -(natrD _ _ 1) -!natrM ltr_nat.
split=> //.
have [sz P U I mr] := C21_C29_hypotheses_met algCF.
have [_ [G [fs _]]] := C22_hypotheses_met algCF.
by apply/(C61_irreducibility_test r G fs sz P U h100 nr sm).
Qed.
