(** Property theorems C73: reduction of a product of irreps (representation.py:127-234, 328-349). *)
From Coq Require List.
From mathcomp Require Import all_ssreflect all_algebra all_fingroup.
From mathcomp Require Import zify.
From Verif Require Import Py GroupSpec RepSpec IndexRepSpec RepModel RepTheory IndexGroup RepProofs ChainModel ClaimsChain.
From mathcomp Require Import algC.
From Verif Require Import ProjModel ProjSpec GrassTheory LinAlgExists ProjTheory ProjProofs ProjSearch ProjExamples ClaimsRep ClaimsProj
  SmallSpec ClaimsSmall FirstSpec TensorProofs ClaimsTensor DirectSpec DirectProofs.
Import Order.TTheory GRing.Theory Num.Theory.
Set Implicit Arguments.
Unset Strict Implicit.
Unset Printing Implicit Defensive.
Local Open Scope ring_scope.

(* ---------- C73 ---------- *)
(** A unitary representation is reduced by projecting onto every irrep of a full list: if no
    irrep occurs more than three times, the blocks are as many as the characters say, blocks
    of different irreps are orthogonal, and together they are a basis of the space. *)
Theorem C73_reduction : forall (C : numClosedFieldType) (L : linalg C) (around : C -> C) (rnd_int : C -> int)
    n mul e (mu : nat -> nat -> C) (rep : arr C) (irreps : seq (arr C)) (atol : C) max,
  linalg_ok L -> (forall k : nat, around k%:R = k%:R) -> (forall k : nat, rnd_int k%:R = k) ->
  group_law n mul e -> ifactor_system n mul e mu -> aorder rep = n ->
  iprojrep n mul e mu (aget rep) -> iunitary n (aget rep) ->
  (forall k, (k < size irreps)%N -> aorder (arr_nth irreps k) = n) ->
  complete_irreps n mul e mu (size irreps) (fun k => aget (arr_nth irreps k)) ->
  (0 < max)%N -> (10%:R ^+ 10)^-1 <= atol -> atol <= (10%:R ^+ 2)^-1 -> 4%:R * ((adim rep)%:R * atol) ^+ 2 < 1 ->
  (forall k m, (k < size irreps)%N -> icip n (aget (arr_nth irreps k)) (aget rep) = n%:R * m%:R -> (m <= 3)%N) ->
  exists bs : block_family C (adim rep) (fun k => adim (arr_nth irreps k)),
    [/\ forall k, (k < size irreps)%N -> project_to_irrep L around rnd_int rep (arr_nth irreps k) atol max = COk (bs k),
        forall k, (k < size irreps)%N -> icip n (aget (arr_nth irreps k)) (aget rep) = n%:R * (size (bs k))%:R,
        forall k b, (k < size irreps)%N -> b \in bs k -> transforms n (aget rep) (aget (arr_nth irreps k)) b /\ orthonormal b,
        blocks_orthogonal (size irreps) bs & blocks_basis (size irreps) bs].
Proof.
move=> C L around rnd_int n mul e mu rep irreps atol max ok ra ri G fs oR pR uR oI ci mx al au small few.
pose bs : block_family C (adim rep) (fun k => adim (arr_nth irreps k)) := fun k =>
  if project_to_irrep L around rnd_int rep (arr_nth irreps k) atol max is COk l then l else [::].
have ar : atol \is Num.real by rewrite ger0_real // (le_trans (ltW (lb_gt0 C))).
have H k : (k < size irreps)%N -> [/\ project_to_irrep L around rnd_int rep (arr_nth irreps k) atol max = COk (bs k),
    icip n (aget (arr_nth irreps k)) (aget rep) = n%:R * (size (bs k))%:R,
    forall b, b \in bs k -> transforms n (aget rep) (aget (arr_nth irreps k)) b /\ orthonormal b & independent (bs k)].
  move=> hk; have pk := ci_rep ci hk; have uk := ci_unitary ci hk; have ik := ci_irreducible ci hk.
  have [m [l [h1 h2 h3 [h4 _] _]]] := C38_projection ok ra ri G fs oR (oI k hk) pR uR pk uk ik ar mx.
  have [l' [h2' sz]] := C38_count ok ra ri G fs oR (oI k hk) pR uR pk uk ik mx al au h1 (few k m hk h1) small.
  have ll : l' = l by move: h2'; rewrite h2 => -[].
  have bE : bs k = l by rewrite /bs h2.
  by rewrite bE -ll sz ll; split=> //; rewrite h1 ?sz.
have full k hk := let: And4 _ h _ _ := H k hk in h.
have tr k b hk hb := (let: And4 _ _ h _ := H k hk in h) b hb.
have ind k hk := let: And4 _ _ _ h := H k hk in h.
exists bs; split=> //.
- by move=> k /H [].
- exact: (family_orthogonal G fs uR ci (fun k b hk hb => (tr k b hk hb).1)).
exact: (family_basis G fs pR uR ci full (fun k b hk hb => (tr k b hk hb).1) ind).
Qed.
Print Assumptions C73_reduction.

Lemma irreducible_self (C : numClosedFieldType) n mul e (mu : nat -> nat -> C) (A : arr C) : group_law n mul e -> ifactor_system n mul e mu ->
  iprojrep n mul e mu (aget A) -> iunitary n (aget A) -> iirreducible n (aget A) -> icip n (aget A) (aget A) = n%:R.
Proof. by move=> G fs p u i; rewrite (icipE G) (nA_ G fs p u i) cardsT ival_card. Qed.

Lemma product_fs (C : numClosedFieldType) n mul e (mu nu : nat -> nat -> C) : ifactor_system n mul e mu -> ifactor_system n mul e nu ->
  ifactor_system n mul e (fun i j => mu i j * nu i j).
Proof.
move=> f1 f2; split=> [i j k hi hj hk|i j hi hj|].
- by rewrite mulrACA (ifs_cocycle f1) // (ifs_cocycle f2) // mulrACA.
- by rewrite normrM (ifs_norm f1) // (ifs_norm f2) // mulr1.
by rewrite (ifs_one f1) (ifs_one f2) mulr1.
Qed.

(** The Clebsch-Gordan reduction of a product of two irreps, one of dimension at most three:
    get_direct_product followed by project_to_irrep finds every irrep as often as the
    characters say, and the blocks are a basis of the product space. *)
Theorem C73_direct_product : forall (C : numClosedFieldType) (L : linalg C) (around : C -> C) (rnd_int : C -> int)
    n mul e (mu nu : nat -> nat -> C) (A B : arr C) (irreps : seq (arr C)) (atol : C) max,
  linalg_ok L -> (forall k : nat, around k%:R = k%:R) -> (forall k : nat, rnd_int k%:R = k) ->
  group_law n mul e -> ifactor_system n mul e mu -> ifactor_system n mul e nu -> aorder A = n -> aorder B = n ->
  iprojrep n mul e mu (aget A) -> iunitary n (aget A) -> iirreducible n (aget A) ->
  iprojrep n mul e nu (aget B) -> iunitary n (aget B) -> iirreducible n (aget B) ->
  (adim A <= 3)%N \/ (adim B <= 3)%N ->
  (forall k, (k < size irreps)%N -> aorder (arr_nth irreps k) = n) ->
  complete_irreps n mul e (fun i j => mu i j * nu i j) (size irreps) (fun k => aget (arr_nth irreps k)) ->
  (0 < max)%N -> (10%:R ^+ 10)^-1 <= atol -> atol <= (10%:R ^+ 2)^-1 -> 4%:R * ((adim A * adim B)%:R * atol) ^+ 2 < 1 ->
  exists ms : seq 'M[C]_(adim A * adim B), get_direct_product A B = Ret (Arr ms) /\
  exists bs : block_family C (adim A * adim B) (fun k => adim (arr_nth irreps k)),
    [/\ forall k, (k < size irreps)%N -> project_to_irrep L around rnd_int (Arr ms) (arr_nth irreps k) atol max = COk (bs k),
        forall k, (k < size irreps)%N ->
          \sum_(g < n) (\tr (aget (arr_nth irreps k) g))^* * (\tr (aget A g) * \tr (aget B g)) = n%:R * (size (bs k))%:R,
        forall k b, (k < size irreps)%N -> b \in bs k -> transforms n (nth 0 ms) (aget (arr_nth irreps k)) b /\ orthonormal b,
        blocks_orthogonal (size irreps) bs & blocks_basis (size irreps) bs].
Proof.
move=> C L around rnd_int n mul e mu nu A B irreps atol max ok ra ri G f1 f2 oA oB pA uA iA pB uB iB dim3 oI ci mx al au small.
have [ms [dE [sz [_ [tE [pr un]]]]]] := C39_direct_product (etrans oA (esym oB)); exists ms; split=> //.
rewrite oA in sz tE pr un.
have G1 i j : (i < n)%N -> (j < n)%N -> (mul i j < n)%N by move=> hi hj; exact: (ig_closed G (Ordinal hi) (Ordinal hj)).
have pP := pr mul e mu nu G1 (ig_e G) pA pB; have uP := un uA uB.
have fs := product_fs f1 f2; have n0 : (0 < n)%N by exact: leq_ltn_trans (ig_e G).
have trE k : icip n (aget (arr_nth irreps k)) (aget (Arr ms)) =
    \sum_(g < n) (\tr (aget (arr_nth irreps k) g))^* * (\tr (aget A g) * \tr (aget B g)).
  by apply: eq_bigr => g _; rewrite -[aget (Arr ms) g]/(nth 0 ms g) tE.
have nA := irreducible_self G f1 pA uA iA; have nB := irreducible_self G f2 pB uB iB.
have few k m : (k < size irreps)%N -> icip n (aget (arr_nth irreps k)) (aget (Arr ms)) = n%:R * m%:R -> (m <= 3)%N.
  move=> hk; rewrite trE => h; have nk := ci_orthogonal ci hk hk; rewrite eqxx in nk.
  case: dim3; apply: leq_trans; first exact: (product_bound n0 uA nB nk h).
  apply: (product_bound n0 uB nA nk); rewrite -h; apply: eq_bigr => g _; congr (_ * _); exact: mulrC.
have [bs [h1 h2 h3 h4 h5]] := C73_reduction (rep := Arr ms) ok ra ri G fs sz pP uP oI ci mx al au small few.
by exists bs; split=> // k hk; rewrite -trE; exact: h2.
Qed.
Print Assumptions C73_direct_product.

(** The selection rule: the identity representation occurs in a product of two irreps once,
    if the second is equivalent to the complex conjugate of the first, and otherwise not. *)
Theorem C73_selection_rule : forall (C : numClosedFieldType) (L : linalg C) (around : C -> C) (rnd_int : C -> int)
    n mul e (mu nu : nat -> nat -> C) (A B : arr C) (atol : C) max,
  linalg_ok L -> (forall k : nat, around k%:R = k%:R) -> (forall k : nat, rnd_int k%:R = k) ->
  group_law n mul e -> ifactor_system n mul e mu -> ifactor_system n mul e nu -> aorder A = n -> aorder B = n ->
  (forall i j, (i < n)%N -> (j < n)%N -> mu i j * nu i j = 1) ->
  iprojrep n mul e mu (aget A) -> iunitary n (aget A) -> iirreducible n (aget A) ->
  iprojrep n mul e nu (aget B) -> iunitary n (aget B) -> iirreducible n (aget B) ->
  (0 < max)%N -> (10%:R ^+ 10)^-1 <= atol -> atol <= (10%:R ^+ 2)^-1 -> 4%:R * ((adim A * adim B)%:R * atol) ^+ 2 < 1 ->
  exists ms : seq 'M[C]_(adim A * adim B), get_direct_product A B = Ret (Arr ms) /\
  exists bs : seq 'M[C]_(1, adim A * adim B), project_to_irrep L around rnd_int (Arr ms) (unit_arr C n) atol max = COk bs /\
    ((iequivalent n (fun g => map_mx conjC (aget A g)) (aget B) /\
      exists b, [/\ bs = [:: b], orthonormal b & forall g, (g < n)%N -> nth 0 ms g *m b^T = b^T]) \/
     (~ iequivalent n (fun g => map_mx conjC (aget A g)) (aget B) /\ bs = [::])).
Proof.
move=> C L around rnd_int n mul e mu nu A B atol max ok ra ri G f1 f2 oA oB inv pA uA iA pB uB iB mx al au small.
have [ms [dE [sz [_ [tE [pr un]]]]]] := C39_direct_product (etrans oA (esym oB)); exists ms; split=> //.
rewrite oA in sz tE pr un.
have G1 i j : (i < n)%N -> (j < n)%N -> (mul i j < n)%N by move=> hi hj; exact: (ig_closed G (Ordinal hi) (Ordinal hj)).
have uP := un uA uB.
have pP : iprojrep n mul e (fun _ _ => 1) (nth 0 ms).
  have [h1 h2] := pr mul e mu nu G1 (ig_e G) pA pB; split=> // i j hi hj; rewrite h2 // inv //.
have [[sT pT uT] iT] := triv_irr C G; rewrite -/(unit_arr C n) in sT pT uT iT.
pose cA g := map_mx conjC (aget A g).
have pC : iprojrep n mul e nu cA.
  split=> [|i j hi hj]; first by rewrite /cA pA.1 map_mx1.
  rewrite /cA -map_mxM (pA.2 i j hi hj) map_mxZ; congr (_ *: _).
  have m1 := ifs_norm f1 hi hj; rewrite /= -(norm1_inv m1) -[LHS]mulr1 -(inv i j hi hj) mulKf //; exact: norm1_neq0.
have uC : iunitary n cA.
  move=> i hi; rewrite /cA; have := congr1 (map_mx conjC) (uA i hi); rewrite map_mxM map_mx1 => <-; congr (_ *m _).
  by rewrite /adj; apply/matrixP => x y; rewrite !mxE.
have nA := irreducible_self G f1 pA uA iA; have nB := irreducible_self G f2 pB uB iB.
have trC g : \tr (cA g) = (\tr (aget A g))^*.
  by rewrite /mxtrace rmorph_sum; apply: eq_bigr => i _; rewrite !mxE.
have nC : icip n cA cA = n%:R by rewrite -[RHS]nA; apply: eq_bigr => g _; rewrite trC conjCK mulrC.
have S : icip n (aget (unit_arr C n)) (aget (Arr ms)) = icip n cA (aget B).
  apply: eq_bigr => g _; rewrite -[aget (Arr ms) g]/(nth 0 ms g) tE // trC conjCK.
  by rewrite /aget /= nth_nseq ltn_ord mxtrace1 rmorph1 mul1r.
have cT : #|[set: igT G]| = n by rewrite cardsT ival_card.
have [|||||| |] := @cip_dich _ _ _ (ifs_fs G f2) [set: igT G]%G _ _ (fun g => cA (ival g)) (fun g => aget B (ival g)).
- exact/(iprojrepE G).
- exact/(iunitaryE G).
- by rewrite -(icipE G cA cA) nC cT.
- exact/(iprojrepE G).
- exact/(iunitaryE G).
- by rewrite -(icipE G (aget B) (aget B)) nB cT.
- rewrite -(icipE G cA) -S => -[z ne].
  have z0 : icip n (aget (unit_arr C n)) (aget (Arr ms)) = n%:R * 0%:R by rewrite z mulr0.
  have [bs [h1 h2]] := C38_count (rep := Arr ms) ok ra ri G (one_fs C n mul e) sz sT pP uP pT uT iT mx al au z0 isT small.
  exists bs; split=> //; right; split; last by case: bs h2 {h1}.
  by move=> /(iequivalentE G).
rewrite -(icipE G cA) -S cT => -[z eq].
have z1 : icip n (aget (unit_arr C n)) (aget (Arr ms)) = n%:R * 1%:R by rewrite z mulr1.
have [bs [h1 h2]] := C38_count (rep := Arr ms) ok ra ri G (one_fs C n mul e) sz sT pP uP pT uT iT mx al au z1 isT small.
exists bs; split=> //; left; split; first exact/(iequivalentE G).
have ar : atol \is Num.real by rewrite ger0_real // (le_trans (ltW (lb_gt0 C))).
have [m [l [_ h2' h3 _ _]]] := C38_projection (rep := Arr ms) ok ra ri G (one_fs C n mul e) sz sT pP uP pT uT iT ar mx.
move: h2'; rewrite h1 => -[ll]; subst l; case: bs h2 h3 {h1} => [|b [|]] // _ /(_ b (mem_head _ _)) [tr on].
exists b; split=> // g gn; have := tr g 0 gn; rewrite big_ord1 /aget /= nth_nseq gn mxE eqxx scale1r row_id; exact.
Qed.
Print Assumptions C73_selection_rule.

(** The hypotheses are met by the sign representation of the group of order two and its
    square, which is the identity representation. *)
Example C73_hypotheses_met : forall C : numClosedFieldType, exists L : linalg C, let A := z2_sign C in
  [/\ linalg_ok L, group_law 2 z2_mul 0, ifactor_system 2 z2_mul 0 (fun _ _ => 1 : C) /\ aorder A = 2%N,
     [/\ iprojrep 2 z2_mul 0 (fun _ _ => 1) (aget A), iunitary 2 (aget A) & iirreducible 2 (aget A)] &
     iequivalent 2 (fun g => map_mx conjC (aget A g)) (aget A)] /\
  [/\ complete_irreps 2 z2_mul 0 (fun _ _ => 1) (size (z2_irreps C)) (fun k => aget (arr_nth (z2_irreps C) k)),
     (10%:R ^+ 10)^-1 <= (10%:R ^+ 6)^-1 :> C, (10%:R ^+ 6)^-1 <= (10%:R ^+ 2)^-1 :> C &
     4%:R * ((adim A * adim A)%:R * (10%:R ^+ 6)^-1) ^+ 2 < 1 :> C].
Proof.
move=> C; have ci := z2_complete C; have p10 k : 0 < 10%:R ^+ k :> C by rewrite exprn_gt0 ?ltr0n.
exists (ex_linalg C); split; split=> //.
- exact: ex_linalg_ok.
- exact: z2_group.
- split; first exact: z2_one_fs.
  by [].
- by split; [exact: (ci_rep ci (isT : (1 < 2)%N))|exact: (ci_unitary ci (isT : (1 < 2)%N))|exact: (ci_irreducible ci (isT : (1 < 2)%N))].
- exists 1%:M, 1%:M; split; rewrite ?mulmx1 // => -[|[|i]] // _; rewrite mulmx1 mul1mx /aget /= ?map_mx1 //.
  by rewrite map_scalar_mx /= rmorphN1.
- by rewrite lef_pinv ?posrE // ler_eexpn2l ?ltr1n.
- by rewrite lef_pinv ?posrE // ler_eexpn2l ?ltr1n.
rewrite mul1r exprVn -exprM ltr_pdivr_mulr ?p10 // mul1r -[_ ^+ _]natrX ltr_nat.
by apply: (@leq_trans (10 ^ 1)%N); rewrite ?leq_exp2l.
Qed.
Print Assumptions C73_hypotheses_met.
