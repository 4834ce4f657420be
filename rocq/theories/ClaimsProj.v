(** Property theorems C38, C46 (representation.py:127-232) and C50 (utils.py:66-121). *)
From Coq Require Import String.
From mathcomp Require Import all_ssreflect all_algebra all_fingroup.
From mathcomp Require Import zify.
From Verif Require Import Py GroupSpec GroupModel RepSpec IndexRepSpec RepModel RepTheory IndexGroup RepProofs ChainModel.
From mathcomp Require Import algC.
From Verif Require Import ProjModel ProjSpec GrassTheory LinAlgExists ProjTheory ProjProofs ProjSearch ProjExamples ClaimsSmall.
Import Order.TTheory GRing.Theory Num.Theory.
Set Implicit Arguments.
Unset Strict Implicit.
Unset Printing Implicit Defensive.
Local Open Scope ring_scope.

Section Claims.
Variable C : numClosedFieldType.

(* ---------- C50 ---------- *)
(** Bases of k and l vectors, 0 < k, l, orthonormal if the orthonormalisation is skipped and
    linearly independent otherwise: the distance lies in [0, 1], and it is the largest
    distance of a unit vector of the smaller space to the larger space. *)
Theorem C50_min_distance : forall (L : linalg C) k l n (B1 : 'M[C]_(k, n)) (B2 : 'M[C]_(l, n)) skip,
  linalg_ok L -> (0 < k)%N -> (0 < l)%N ->
  (if skip then orthonormal B1 /\ orthonormal B2 else row_free B1 /\ row_free B2) ->
  exists d, [/\ grassmann_distance L B1 B2 "min" skip = COk d, 0 <= d, d <= 1,
    (k <= l)%N -> largest_gap B1 B2 d & (l <= k)%N -> largest_gap B2 B1 d].
Proof. by move=> L k l n B1 B2 skip ok k0 l0 h; exact: grassmann_gap. Qed.

(** It is 0 iff the smaller space is contained in the larger one, and 1 iff the smaller
    space contains a non-zero vector orthogonal to the larger one.  The value is symmetric
    in the two bases. *)
Theorem C50_zero_one : forall (L : linalg C) k l n (S : 'M[C]_(k, n)) (T : 'M[C]_(l, n)) skip,
  linalg_ok L -> (0 < k)%N -> (k <= l)%N ->
  (if skip then orthonormal S /\ orthonormal T else row_free S /\ row_free T) ->
  exists d, [/\ grassmann_distance L S T "min" skip = COk d,
    grassmann_distance L T S "min" skip = COk d,
    d = 0 <-> (S <= T)%MS &
    d = 1 <-> exists2 v : 'rV[C]_n, v != 0 & (v <= S)%MS /\ v *m adj T = 0].
Proof.
move=> L k l n S T skip ok k0 kl h; have l0 := leq_trans k0 kl.
have [d [E d0 d1 g _]] := grassmann_gap ok k0 l0 h.
have h' : if skip then orthonormal T /\ orthonormal S else row_free T /\ row_free S by case: skip h {E} => [[]|[]].
have [d' [E' d0' d1' _ g']] := grassmann_gap ok l0 k0 h'.
have dE : d' = d by apply: (largest_gap_unique d0' d0 (g' kl) (g kl)).
exists d; split; rewrite ?E' ?dE //.
- exact: gap0_iff d0 (g kl).
- rewrite (gap1_iff d0 d1 (g kl)); split.
    by case=> v [v0 vS vT]; exists v.
  by case=> v v0 [vS vT]; exists v.
Qed.

(** ord = projection: the root mean square of the principal angles, the arccosines of the
    lengths c_i of the projections of the principal vectors. *)
Theorem C50_projection_distance : forall (L : linalg C) k l n (B1 : 'M[C]_(k, n)) (B2 : 'M[C]_(l, n)) skip,
  linalg_ok L -> (0 < k)%N -> (0 < l)%N ->
  (if skip then orthonormal B1 /\ orthonormal B2 else row_free B1 /\ row_free B2) ->
  exists d (c : nat -> C), [/\ grassmann_distance L B1 B2 "projection" skip = COk d,
    (forall x, 0 <= x <= 1 -> la_arccos L x \is Num.real) -> 0 <= d,
    d ^+ 2 * (minn k l)%:R = \sum_(i < minn k l) la_arccos L (c i) ^+ 2,
    (k <= l)%N -> principal_pairs B1 B2 c & (l <= k)%N -> principal_pairs B2 B1 c].
Proof. by move=> L k l n B1 B2 skip ok k0 l0 h; exact: grassmann_angles. Qed.

(** Its extreme values: arccos 1 when the smaller space is contained in the larger one, and
    arccos 0 when the spaces are orthogonal.  The metric named in the docstring, the root of
    the sum of the squared sines of the principal angles, is sqrt k in the second case, so it
    is not what is computed. *)
Theorem C50_projection_extremes : forall (L : linalg C) k l n (S : 'M[C]_(k, n)) (T : 'M[C]_(l, n)) skip,
  linalg_ok L -> (0 < k)%N -> (k <= l)%N ->
  (if skip then orthonormal S /\ orthonormal T else row_free S /\ row_free T) ->
  exists d, [/\ grassmann_distance L S T "projection" skip = COk d,
    (S <= T)%MS -> d ^+ 2 = la_arccos L 1 ^+ 2 & S *m adj T = 0 -> d ^+ 2 = la_arccos L 0 ^+ 2].
Proof.
move=> L k l n S T skip ok k0 kl h; have l0 := leq_trans k0 kl.
have [d [c [E _ dE /(_ kl) [P [R [[oP eP] [oR sR] pr c01]]] _]]] := grassmann_angles ok k0 l0 h.
exists d; split=> // h1.
  have c1 (i : 'I_k) : c i = 1.
    have /submxP [x xE] : (row i P - c i *: row i R <= T)%MS.
      apply: addmx_sub; first by apply: submx_trans h1; apply: submx_trans (row_sub i P) _; rewrite eP.
      by rewrite -scaleNr scalemx_sub //; apply: submx_trans (row_sub i R) sR.
    have /eqP : row i P - c i *: row i R = 0.
      apply: sqnorm_eq0; rewrite sqnorm_tr [X in _ *m adj X]xE adjM mulmxA pr mul0mx; exact: mxtrace0.
    rewrite subr_eq0 => /eqP pE; have [c0 _] := c01 i.
    have := row_unit i oP; rewrite pE sqnormZ (row_unit i oR) mulr1 (ger0_norm c0) => /eqP.
    by rewrite sqrf_eq1 => /orP [/eqP //|/eqP cN]; move: c0; rewrite cN oppr_ge0 ler10.
  have := dE; rewrite (minn_idPl kl) (eq_bigr (fun _ => la_arccos L 1 ^+ 2)) => [|i _]; last by rewrite c1.
  by rewrite sumr_const card_ord -[RHS]mulr_natr => /(mulIf _); apply; rewrite pnatr_eq0 -lt0n.
have c1 (i : 'I_k) : c i = 0.
  have PT : row i P *m adj T = 0.
    have /submxP [x xE] : (row i P <= S)%MS by apply: submx_trans (row_sub i P) _; rewrite eP.
    by rewrite xE -mulmxA h1 mulmx0.
  have := pr i; rewrite mulmxBl PT sub0r => /eqP; rewrite oppr_eq0 => /eqP cR.
  have /submxP [x xE] : (row i R <= T)%MS by apply: submx_trans (row_sub i R) sR.
  have : (c i *: row i R) *m adj (row i R) = 0 by rewrite {2}xE adjM mulmxA cR mul0mx.
  rewrite -scalemxAl sqnormE (row_unit i oR) scale_scalar_mx mulr1 => /matrixP /(_ 0 0).
  by rewrite !mxE.
have := dE; rewrite (minn_idPl kl) (eq_bigr (fun _ => la_arccos L 0 ^+ 2)) => [|i _]; last by rewrite c1.
by rewrite sumr_const card_ord -[RHS]mulr_natr => /(mulIf _); apply; rewrite pnatr_eq0 -lt0n.
Qed.

(** An unknown order raises ValueError, and nothing else does. *)
Theorem C50_unknown_ord : forall (L : linalg C) k l n (B1 : 'M[C]_(k, n)) (B2 : 'M[C]_(l, n)) ord skip,
  grassmann_distance L B1 B2 ord skip = CExn ValueError <-> ord <> "min"%string /\ ord <> "projection"%string.
Proof.
move=> L k l n B1 B2 ord skip; rewrite /grassmann_distance /distance_of.
case: String.eqb_spec => [->|h1]; first by case: ifP => _; split=> // -[].
case: String.eqb_spec => [->|h2]; last by split.
by case: map => [|? ?]; split=> // -[].
Qed.

(** More vectors than dimensions in both bases: IndexError, unless the
    orthonormalisation is skipped. *)
Theorem C50_index_error : forall (L : linalg C) k l n (B1 : 'M[C]_(k, n)) (B2 : 'M[C]_(l, n)),
  linalg_ok L -> (n < k)%N -> (n < l)%N ->
  grassmann_distance L B1 B2 "min" false = CExn IndexError /\
  exists d, grassmann_distance L B1 B2 "min" true = COk d.
Proof.
move=> L k l n B1 B2 ok nk nl; rewrite /grassmann_distance /distance_of /=.
have [-> _ _ _] := lo_svd ok (adj (la_qr L B1^T) *m la_qr L B2^T).
have [-> _ _ _] := lo_svd ok (adj B1^T *m B2^T).
case E : (minn k l) => [|m]; first by lia.
by split; [rewrite ifF //; lia|rewrite leqnn; eexists].
Qed.

(* ---------- C46 ---------- *)
(** The search for a tolerance with any trial function: if every trial with a tolerance in
    [10^-10, 10^-2] returns a list, then so does the search, after at least one and at most
    [max] trials.  [ts] are the tolerances tried: all of them lie in the bracket, the first
    is the given tolerance clipped, the next one is the geometric mean with a bound, the
    search goes on only after a list of the wrong length, it returns the list of the last
    trial, and it gives up only after [max] trials. *)
Theorem C46_search : forall A (trial : C -> cres (seq A)) (out : C -> seq A) (num : int) (atol : C) max,
  (forall t, (10%:R ^+ 10)^-1 <= t <= (10%:R ^+ 2)^-1 -> trial t = COk (out t)) ->
  atol \is Num.real -> (0 < max)%N -> exists ts res,
  [/\ adjust_tolerance trial num atol max = COk res,
      (forall t, t \in ts -> (10%:R ^+ 10)^-1 <= t <= (10%:R ^+ 2)^-1),
      tolerance_trials out num
        (if atol < (10%:R ^+ 10)^-1 then (10%:R ^+ 10)^-1 else if (10%:R ^+ 2)^-1 < atol then (10%:R ^+ 2)^-1 else atol)
        (10%:R ^+ 10)^-1 (10%:R ^+ 2)^-1 max ts res &
      forall t, t \in ts -> (size (out t))%:Z = num -> res = out t].
Proof.
move=> A trial out num atol max h ar m0.
have [ts [res [E hts tt]]] := adjust_run num h ar m0.
exists ts, res; split=> //; first by apply/allP.
  by rewrite -(clipE ar).
move=> t tin sz; have it := tin; rewrite -index_mem in it.
have nt := nth_index 0 tin; rewrite (tt_result tt) -nth_last.
have [lt|ge] := ltnP (index t ts).+1 (size ts).
  by have [] := tt_next tt lt; rewrite nt sz.
have -> : (size ts).-1 = index t ts by apply: succn_inj; rewrite (ltn_predK it); apply/eqP; rewrite eqn_leq ge it.
by rewrite nt.
Qed.

(** An abnormal outcome of the first trial is the outcome of the search; and without a trial
    the count is read before it is bound. *)
Theorem C46_abnormal : forall A (trial : C -> cres (seq A)) (num : int) (atol : C) max,
  let a := if atol < (10%:R ^+ 10)^-1 then (10%:R ^+ 10)^-1 else if (10%:R ^+ 2)^-1 < atol then (10%:R ^+ 2)^-1 else atol in
  atol \is Num.real ->
  (forall x, trial a = CExn x -> adjust_tolerance trial num atol max.+1 = CExn x) /\
  adjust_tolerance trial num atol 0 = CExn UnboundLocalError.
Proof.
move=> A trial num atol max a ar; split=> // x E.
by rewrite /adjust_tolerance (clipE ar) /= -/a E.
Qed.

(** The search of project_to_irrep is this search: unless the expected number is 0 the
    result is that of the search with trial _project_to_irrep. *)
Theorem C46_project_to_irrep : forall (L : linalg C) (around : C -> C) (rnd_int : C -> int) rep irrep atol max,
  aorder rep = aorder irrep ->
  let num := rnd_int (around (\sum_(g < aorder irrep) (\tr (aget irrep g))^* * \tr (aget rep g)) / (aorder irrep)%:R) in
  project_to_irrep L around rnd_int rep irrep atol max =
  if num == 0 then COk [::] else adjust_tolerance (project_once L rep irrep) num atol max.
Proof.
move=> L around rnd_int rep irrep atol max E num.
by rewrite /project_to_irrep E eqxx (char_sumE E erefl).
Qed.

(* ---------- C38 ---------- *)
(** A unitary representation and a unitary irreducible representation with the same factor
    system, any real tolerance, at least one trial: the function returns a list.  The rows of
    each block are orthonormal and transform as the irrep under the representation, the
    blocks are linearly independent, and there are at most m of them, where m is the
    multiplicity (1/n) sum_g conj(chi(g)) X(g).  More precisely, let a be the tolerance
    clipped to [10^-10, 10^-2] and N the dimension of the representation.  If no projected
    block is non-zero with all entries at most a, then more than three quarters of the m
    blocks are found; if 2 N a < 1, at least three quarters. *)
Theorem C38_projection : forall (L : linalg C) (around : C -> C) (rnd_int : C -> int)
    n mul e (mu : nat -> nat -> C) (rep irrep : arr C) (atol : C) max,
  linalg_ok L -> (forall k : nat, around k%:R = k%:R) -> (forall k : nat, rnd_int k%:R = k) ->
  group_law n mul e -> ifactor_system n mul e mu -> aorder rep = n -> aorder irrep = n ->
  iprojrep n mul e mu (aget rep) -> iunitary n (aget rep) ->
  iprojrep n mul e mu (aget irrep) -> iunitary n (aget irrep) -> iirreducible n (aget irrep) ->
  atol \is Num.real -> (0 < max)%N ->
  exists m bs, [/\ \sum_(g < n) (\tr (aget irrep g))^* * \tr (aget rep g) = n%:R * m%:R,
    project_to_irrep L around rnd_int rep irrep atol max = COk bs,
    forall b, b \in bs -> transforms n (aget rep) (aget irrep) b /\ orthonormal b,
    independent bs /\ (size bs <= m)%N &
    let a := if atol < (10%:R ^+ 10)^-1 then (10%:R ^+ 10)^-1 else if (10%:R ^+ 2)^-1 < atol then (10%:R ^+ 2)^-1 else atol in
    let X k j := projected (rep := rep) (irrep := irrep) k j in
    ((forall k j, (forall i l, `|X k j i l| <= a) -> X k j = 0) -> (0 < m)%N -> (4 * (m - size bs) < m)%N) /\
    (4%:R * ((adim rep)%:R * a) ^+ 2 < 1 -> (4 * (m - size bs) <= m)%N)].
Proof.
move=> L around rnd_int n mul e mu rep irrep atol max ok ra ri G fs sR sD pR uR pD uD irr ar mx.
have [m [bs [h1 h2 h3 h4 []]]] := project_result G fs sR sD pR uR pD uD irr ok ra ri ar mx.
rewrite (clipE ar) => h5 h6; exists m, bs; split=> //; first by move=> b /h3 [].
split=> // nt; apply: h5 => k j /forallP ac; apply: nt => i l; exact: (forallP (ac i) l).
Qed.
Theorem C38_count : forall (L : linalg C) (around : C -> C) (rnd_int : C -> int)
    n mul e (mu : nat -> nat -> C) (rep irrep : arr C) (atol : C) max m,
  linalg_ok L -> (forall k : nat, around k%:R = k%:R) -> (forall k : nat, rnd_int k%:R = k) ->
  group_law n mul e -> ifactor_system n mul e mu -> aorder rep = n -> aorder irrep = n ->
  iprojrep n mul e mu (aget rep) -> iunitary n (aget rep) ->
  iprojrep n mul e mu (aget irrep) -> iunitary n (aget irrep) -> iirreducible n (aget irrep) ->
  (0 < max)%N -> (10%:R ^+ 10)^-1 <= atol -> atol <= (10%:R ^+ 2)^-1 ->
  \sum_(g < n) (\tr (aget irrep g))^* * \tr (aget rep g) = n%:R * m%:R ->
  (m <= 3)%N -> 4%:R * ((adim rep)%:R * atol) ^+ 2 < 1 ->
  exists bs, project_to_irrep L around rnd_int rep irrep atol max = COk bs /\ size bs = m.
Proof.
move=> L around rnd_int n mul e mu rep irrep atol max m ok ra ri G fs sR sD pR uR pD uD irr mx al au mE m3 small.
have l0 := lb_gt0 C.
have ar : atol \is Num.real by rewrite ger0_real // (le_trans (ltW l0)).
have [m' [bs [h1 h2 _ [_ h3] [_]]]] := C38_projection ok ra ri G fs sR sD pR uR pD uD irr ar mx.
rewrite (le_gtF al) (le_gtF au) => /(_ small) h4.
exists bs; split=> //.
have n0 : n%:R != 0 :> C by have := gl_e _ _ _ G; rewrite pnatr_eq0; lia.
have : m' = m by move: mE; rewrite h1 => /(mulfI n0) /eqP; rewrite eqr_nat => /eqP.
by move=> ?; subst m'; lia.
Qed.
End Claims.

Lemma frame_count (C : numClosedFieldType) (L : linalg C) (around : C -> C) (rnd_int : C -> int) (atol : C) max :
  linalg_ok L -> (forall k : nat, around k%:R = k%:R) -> (forall k : nat, rnd_int k%:R = k) ->
  atol \is Num.real -> (0 < max)%N ->
  exists bs, project_to_irrep L around rnd_int (reflection (frame_proj C)) (z2_trivial C) atol max = COk bs /\ size bs = 4%N.
Proof.
move=> ok ra ri ar mx.
have sumE : \sum_(g < 2) (\tr (aget (z2_trivial C) g))^* * \tr (aget (reflection (frame_proj C)) g) = 2%:R * 5%:R.
  by have := reflection_icip (frame_proj C); rewrite frame_trace.
rewrite C46_project_to_irrep // sumE.
have -> : rnd_int (around (2%:R * 5%:R) / (aorder (z2_trivial C))%:R) = 5%N.
  rewrite -natrM ra natrM (_ : aorder (z2_trivial C) = 2%N) // mulrC mulKf ?pnatr_eq0 //; exact: ri.
rewrite [(5%N : int) == 0]/=.
pose trial := project_once L (reflection (frame_proj C)) (z2_trivial C).
have tr t : in_bracket t -> exists bs, trial t = COk bs /\ size bs = 4%N.
  case/andP => l u; apply: (frame_trial ok _ u); exact: le_trans (ltW (lb_gt0 C)) l.
pose out t := if trial t is COk bs then bs else [::].
have outE t : in_bracket t -> trial t = COk (out t) by move=> /tr [bs [E _]]; rewrite /out E.
have [ts [res [E hts tt]]] := adjust_run (5%N : int) outE ar mx.
exists res; split=> //; rewrite (tt_result tt).
have sz : (0 < size ts)%N by case/andP: (tt_count tt).
have hin : in_bracket (last 0 ts).
  rewrite -nth_last; apply: (allP hts); apply: mem_nth; by rewrite ltn_predL.
by have [bs [E' sz']] := tr _ hin; rewrite /out E'.
Qed.

(** Refuted: a representation of the group of order two which contains the trivial irrep five
    times, in dimension 20.  Whatever the tolerance and the number of trials, four blocks are
    returned: the other projected blocks are too close to the space of the first four for
    the bound 1/2, although one of them is independent of it. *)
Theorem C38_count_refuted : forall (C : numClosedFieldType) (L : linalg C) (around : C -> C) (rnd_int : C -> int) (atol : C) max,
  linalg_ok L -> (forall k : nat, around k%:R = k%:R) -> (forall k : nat, rnd_int k%:R = k) ->
  atol \is Num.real -> (0 < max)%N ->
  exists rep irrep : arr C, [/\ group_law 2 (fun i j => (i + j) %% 2)%N 0,
   [/\ aorder rep = 2%N, iprojrep 2 (fun i j => (i + j) %% 2)%N 0 (fun _ _ => 1) (aget rep) & iunitary 2 (aget rep)],
   [/\ aorder irrep = 2%N, iprojrep 2 (fun i j => (i + j) %% 2)%N 0 (fun _ _ => 1) (aget irrep), iunitary 2 (aget irrep) & iirreducible 2 (aget irrep)],
   \sum_(g < 2) (\tr (aget irrep g))^* * \tr (aget rep g) = 2%:R * 5%:R &
   exists bs, project_to_irrep L around rnd_int rep irrep atol max = COk bs /\ size bs = 4%N].
Proof.
move=> C L around rnd_int atol max ok ra ri ar mx.
exists (reflection (frame_proj C)), (z2_trivial C).
have sumE : \sum_(g < 2) (\tr (aget (z2_trivial C) g))^* * \tr (aget (reflection (frame_proj C)) g) = 2%:R * 5%:R.
  by have := reflection_icip (frame_proj C); rewrite frame_trace.
split=> //.
- exact: z2_group.
- by split=> //; [exact: (reflection_rep (frame_PP C))|exact: (reflection_unitary (frame_PP C) (frame_Ph C))].
- by split=> //; [exact: z2_trivial_rep|exact: z2_trivial_unitary|exact: z2_trivial_irr].
exact: frame_count.
Qed.

(** "Each basis vectors are orthonormal": within a block, not from block to block.  The
    reflection 1 - (2/3) J of three dimensions, J the matrix of ones, contains the trivial
    irrep twice; the two vectors returned are not orthogonal. *)
Definition thirds (C : numClosedFieldType) : 'M[C]_3 := 1%:M - 3%:R^-1 *: const_mx 1.
Lemma thirds_PP (C : numClosedFieldType) : thirds C *m thirds C = thirds C.
Proof.
  have JJ : (const_mx 1 : 'M[C]_3) *m (const_mx 1 : 'M[C]_3) = 3%:R *: const_mx 1.
  by apply/matrixP => i j; rewrite !mxE !big_ord_recr big_ord0 /= !mxE !mulr1 add0r -mulr2n -mulrSr.
rewrite /thirds mulmxBl mul1mx mulmxBr mulmx1 -scalemxAl -scalemxAr JJ !scalerA -mulrA mulVf ?pnatr_eq0 //.
by rewrite mulr1 subrr subr0.
Qed.
Lemma thirds_Ph (C : numClosedFieldType) : adj (thirds C) = thirds C.
Proof.
apply/matrixP => i j; rewrite adjE !mxE eq_sym rmorphB rmorphM /= fmorphV conjC_nat conjC1.
by rewrite conjC_nat.
Qed.
Lemma thirds_entry (C : numClosedFieldType) i j : thirds C i j != 0.
Proof.
rewrite !mxE mulr1; case: (i == j); last by rewrite mulr0n sub0r oppr_eq0 invr_eq0 pnatr_eq0.
by rewrite mulr1n subr_eq0 -[X in X == _]invr1 (inj_eq invr_inj) -[1]/(1%:R) eqr_nat.
Qed.
Theorem C38_blocks_not_orthogonal : forall (C : numClosedFieldType) (L : linalg C) (around : C -> C) (rnd_int : C -> int) max,
  linalg_ok L -> (forall k : nat, around k%:R = k%:R) -> (forall k : nat, rnd_int k%:R = k) -> (0 < max)%N ->
  let rep := Arr [:: 1%:M; 1%:M - (2%:R / 3%:R) *: const_mx 1] : arr C in
  let irrep := Arr (adim := 1) [:: 1%:M; 1%:M] : arr C in
  [/\ group_law 2 (fun i j => (i + j) %% 2)%N 0,
      iprojrep 2 (fun i j => (i + j) %% 2)%N 0 (fun _ _ => 1) (aget rep), iunitary 2 (aget rep) &
   exists b1 b2 : 'rV[C]_3, project_to_irrep L around rnd_int rep irrep (10%:R ^+ 6)^-1 max = COk [:: b1; b2] /\ b1 *m adj b2 <> 0].
Proof.
move=> C L around rnd_int max ok ra ri mx rep irrep.
have uE : 1%:M - (2%:R / 3%:R) *: const_mx 1 = thirds C + thirds C - 1%:M.
  apply/matrixP => i j; rewrite !mxE.
  by rewrite !mulr1 -[RHS]addrA [X in _ = _ + X]addrAC subrr add0r -addrA -opprD mulr_natl mulr2n.
have [pR uR] := (reflection_rep (thirds_PP C), reflection_unitary (thirds_PP C) (thirds_Ph C)).
rewrite {}/rep uE -/(reflection (thirds C)); split=> //; first exact: z2_group.
have [l0 u0] : 0 < (10%:R ^+ 6 : C) /\ (10%:R ^+ 6 : C) != 0 by rewrite exprn_gt0 ?ltr0n // expf_neq0 // pnatr_eq0.
have ar : (10%:R ^+ 6 : C)^-1 \is Num.real by rewrite gtr0_real // invr_gt0.
have trE : \tr (thirds C) = 2%:R.
  rewrite /mxtrace !big_ord_recr big_ord0 /= !mxE !eqxx /= !mulr1 add0r.
  rewrite -[X in X = _]/(1 - 3%:R^-1 + (1 - 3%:R^-1) + (1 - 3%:R^-1)).
  have t0 : (3%:R : C) != 0 by rewrite pnatr_eq0.
  apply: (mulfI t0); rewrite -[RHS]natrM; have -> : 3%:R * (1 - 3%:R^-1 + (1 - 3%:R^-1) + (1 - 3%:R^-1)) = (3%:R - 1) + (3%:R - 1) + (3%:R - 1) :> C.
    by rewrite !mulrDr !mulrN mulfV // mulr1.
  by rewrite -[1]/(1%:R) -!natrB // -!natrD.
have sumE := reflection_icip (thirds C); rewrite trE in sumE.
have [m [bs [mE E hb [ind le] [_ lo]]]] := project_result z2_group (z2_one_fs C)
  (erefl : aorder (reflection (thirds C)) = 2%N) (erefl : aorder (z2_trivial C) = 2%N) pR uR
  (z2_trivial_rep C) (z2_trivial_unitary C) (z2_trivial_irr C) ok ra ri ar mx.
have m2 : m = 2%N.
  by move: mE; rewrite sumE => /(mulfI _) h; apply/eqP; rewrite -(eqr_nat C) -h ?pnatr_eq0.
have {}lo : (4 * (m - size bs) <= m)%N.
  apply: lo; rewrite (clipE ar) (_ : ((10%:R ^+ 6)^-1 < (10%:R ^+ 10)^-1 :> C) = false); last first.
    by apply/negbTE; rewrite ltf_pinv ?posrE ?exprn_gt0 ?ltr0n // -!natrX ltr_nat -leqNgt leq_exp2l.
  rewrite (_ : ((10%:R ^+ 2)^-1 < (10%:R ^+ 6)^-1 :> C) = false); last first.
    by apply/negbTE; rewrite ltf_pinv ?posrE ?exprn_gt0 ?ltr0n // -!natrX ltr_nat -leqNgt leq_exp2l.
  rewrite -[adim _]/3%N exprMn exprVn mulrA -[3%:R ^+ 2]natrX -[4%:R * _]natrM ltr_pdivr_mulr ?exprn_gt0 ?ltr0n // mul1r -exprM -natrX ltr_nat.
  by rewrite (@ltn_trans 100) // -[100%N]/(10 ^ 2)%N ltn_exp2l.
subst m; case: bs E hb ind le lo => [|b1 [|b2 [|b3 bs]]] // E hb _ _ _.
exists b1, b2; split=> //.
have [_ _ [c1 [k1 [j1 [c1p ->]]]]] := hb b1 (mem_head _ _).
have [_ _ [c2 [k2 [j2 [c2p ->]]]]] : [/\ transforms 2 (aget (reflection (thirds C))) (aget (z2_trivial C)) b2, orthonormal b2 & exists c k j, 0 < c /\ b2 = c *: projected k j].
  by apply: hb; rewrite !inE eqxx orbT.
rewrite !reflection_projected adjZ -scalemxAl -scalemxAr scalerA => /matrixP/(_ 0 0).
rewrite !mxE => /eqP; rewrite mulf_eq0 (gt_eqF (mulr_gt0 c1p _)) /=; last by rewrite conj_Creal // gtr0_real.
have -> : \sum_j (col k1 (thirds C))^T 0 j * adj (col k2 (thirds C))^T j 0 = thirds C k2 k1.
  rewrite -[in RHS](thirds_PP C) -[X in X *m _](thirds_Ph C) !mxE; apply: eq_bigr => j _.
  by rewrite !adjE !mxE mulrC.
by rewrite (negbTE (thirds_entry _ _ _)).
Qed.

(* ---------- the hypotheses are met ---------- *)
(** The trusted numerical routines exist over every field. *)
Example C50_hypotheses_met : forall C : numClosedFieldType, let u := \row_i (val i == 0%N)%:R : 'rV[C]_2 in
  [/\ linalg_ok (ex_linalg C), orthonormal u, orthonormal (1%:M : 'M[C]_2) &
      grassmann_distance (ex_linalg C) u 1%:M "min" true = COk 0].
Proof.
move=> C u; have ok := ex_linalg_ok C.
have ou : orthonormal u.
  apply/matrixP => i j; rewrite (ord1 i) (ord1 j) !mxE big_ord_recl big_ord1 !adjE !mxE /=.
  by rewrite conjC1 mulr1 mul0r addr0.
have o1 : orthonormal (1%:M : 'M[C]_2) by rewrite /orthonormal adj1 mulmx1.
split=> //.
have [//|d [E _ h _]] := @C50_zero_one C (ex_linalg C) 1 2 2 u 1%:M true ok isT isT.
by rewrite E; congr COk; apply/h; rewrite submx1.
Qed.
Definition ex_round (z : algCF) : int := floorC z.
Example C38_hypotheses_met :
  [/\ linalg_ok (ex_linalg algCF), forall k : nat, ex_round k%:R = k &
    exists b1 b2 : 'rV[algCF]_3, project_to_irrep (ex_linalg algCF) id ex_round
      (Arr [:: 1%:M; 1%:M - (2%:R / 3%:R) *: const_mx 1]) (Arr (adim := 1) [:: 1%:M; 1%:M]) (10%:R ^+ 6)^-1 10 = COk [:: b1; b2]].
Proof.
have ok := ex_linalg_ok algCF.
have rd (k : nat) : ex_round k%:R = k by rewrite /ex_round -[k%:R]/((k : int)%:~R) intCK.
split=> //.
have [//|_ _ _ [b1 [b2 [E _]]]] := C38_blocks_not_orthogonal (max := 10) ok (around := id) _ rd isT.
by exists b1, b2.
Qed.
(** One vector at the upper bound, two below 10^-5, two expected: the second trial, with
    tolerance 10^-6, is the last. *)
Example C46_hypotheses_met : forall C : numClosedFieldType,
  let trial (t : C) := COk (if t < (10%:R ^+ 5)^-1 then [:: true; true] else [:: true]) in
  adjust_tolerance trial 2%:Z 1 10 = COk [:: true; true] /\ adjust_tolerance trial 2%:Z 1 1 = COk [:: true].
Proof.
move=> C trial.
have lt p q : ((10%:R ^+ p)^-1 < (10%:R ^+ q)^-1 :> C) = (q < p)%N.
  by rewrite ltf_pinv ?posrE ?exprn_gt0 ?ltr0n // -!natrX ltr_nat ltn_exp2l.
have lt1 p : ((10%:R ^+ p)^-1 < 1 :> C) = (0 < p)%N by have := lt p 0%N; rewrite expr0 invr1.
have cl : np_clip (Some (atol_lb C)) (Some (atol_ub C)) 1 = (10%:R ^+ 2)^-1.
  rewrite /np_clip (_ : (1 < atol_lb C) = false); first by rewrite lt1.
  by apply: lt_gtF; rewrite lt1.
have sq : sqrtC (atol_lb C * (10%:R ^+ 2)^-1) = (10%:R ^+ 6)^-1.
  by rewrite -invfM -exprD -[(10 + 2)%N]/(6 * 2)%N exprM -exprVn sqrCK // invr_ge0 exprn_ge0 // ler0n //.
have st f t l : search_tolerance trial 2%:Z f.+1 t l =
    if t < (10%:R ^+ 5)^-1 then COk (Some [:: true; true]) else search_tolerance trial 2%:Z f (sqrtC (atol_lb C * t)) (Some [:: true]).
  by rewrite /trial; move: ((10%:R ^+ 5)^-1) => q /=; case: (t < q).
rewrite /adjust_tolerance cl; split; first by rewrite st lt [(_ < _)%N]/= sq st lt.
by rewrite st lt.
Qed.
Print Assumptions C50_min_distance.
Print Assumptions C50_zero_one.
Print Assumptions C50_projection_distance.
Print Assumptions C50_projection_extremes.
Print Assumptions C50_unknown_ord.
Print Assumptions C50_index_error.
Print Assumptions C46_search.
Print Assumptions C46_abnormal.
Print Assumptions C46_project_to_irrep.
Print Assumptions C38_projection.
Print Assumptions C38_count.
Print Assumptions C38_count_refuted.
Print Assumptions C38_blocks_not_orthogonal.
Print Assumptions C38_hypotheses_met.
