(** When the real mode of enumerate_unitary_irreps fails (irreps.py:204-240, 562-624). *)
From Verif Require CorepCover CorepPipeline.
From Coq Require Import QArith ZArith List String.
From mathcomp Require Import all_ssreflect all_algebra all_fingroup.
From Verif Require Import Py Mat3 MatQ GroupModel GroupSpec GroupProofs GroupProofs2 PointGroupModel
  PointGroupSpec ChainSpec RepSpec RepModel CExpSpec RepTheory IndexRepSpec IndexGroup ChainModel ChainTheory RandomModel
  RepProofs SmallModel PurifyTheory SmallSpec GaugeTheory SmallTheory ClaimsChain ClaimsRandom SpinorSpec RealSpec RealTheory PairTheory RealOutcome.
Import Order.TTheory GRing.Theory Num.Theory.
Set Implicit Arguments.
Unset Strict Implicit.
Unset Printing Implicit Defensive.
Local Open Scope ring_scope.

Lemma cmap_warn (A : eqType) B (f : A -> cres B) l : cmap f l = CWarn -> exists2 x, x \in l & f x = CWarn.
Proof.
elim: l => [//|x l IH] /=; case fx: (f x) => [y|//|//|] /=.
  case: (cmap f l) IH => // IH _; have [x' h1 h2] := IH erefl; exists x' => //.
  by rewrite in_cons h1 orbT.
by exists x => //; exact: mem_head.
Qed.

Section Success.
Variables (C : numClosedFieldType) (E : numpy C) (rtol atol : Q).
Local Notation eps := (qC C atol).
Local Notation cjx := (map_mx (@conjC C)).

Lemma warn_cause rots mu method max_num L inds :
  enumerate_unitary_irreps E rots mu false method rtol atol max_num = COk (L, inds, true) ->
  enumerate_unitary_irreps E rots mu true method rtol atol max_num = CWarn ->
  exists i, [/\ (i < size L)%N, nth 0 inds i = 1 &
    get_intertwiner_mats (np_powinv E) (np_rnd E) eps max_num (amats (arr_nth L i)) [seq cjx M | M <- amats (arr_nth L i)] = None].
Proof.
rewrite /enumerate_unitary_irreps; case: (raw_irreps _ _ _ _ _ _ _) => [[raw b]|||] //=.
set irreps := [seq _ | A <- raw].
case: (indicators E irreps) => [[-> _]|[-> _]] //= [<- <- _].
rewrite /physically_irreps; case W: (cmap _ _) => [l|x||] //= _.
have [[i j] hp] := cmap_warn W; rewrite indicatorE; set A := nth _ _ _; set v := np_int E _.
have hi : (i < size irreps)%N.
  have sc : size [seq get_character A | A <- irreps] = size irreps by rewrite size_map.
  have sv : size (nseq (size irreps) false) = size [seq get_character A | A <- irreps] by rewrite size_nseq sc.
  have [p1 p2 p3] := @pair_loop_members C E [seq get_character A | A <- irreps] (size irreps) 0 (nseq (size irreps) false) (esym sc) sv (fun i h => False_ind _ (elimF idP (ltn0 i) h)).
  rewrite -/(conjugated_pairs E irreps) in p1 p2 p3.
  have : i \in members (conjugated_pairs E irreps).
    apply/flattenP; eexists; first by apply/mapP; exists (i, j).
    by rewrite /=; case: (i =P j) => _; rewrite !inE ?eqxx ?orbT.
  by rewrite p2 sc => /andP [].
case: ltP => //= _; rewrite /get_physically_irrep; case: (v =P 1) => [v1|_].
  case EU: (get_intertwiner_mats _ _ _ _ _ _) => [U|] //= _; exists i; split=> //.
  by rewrite (nth_map (@Arr C 0 [::])).
by case: ifP.
Qed.

(** A failed search for the matrix that makes a representation real. *)
Lemma missed_real n mul e (mu : nat -> nat -> C) (A A' : arr C) max_num B :
  0 <= eps -> group_law n mul e -> ifactor_system n mul e mu ->
  (forall i j, (i < n)%N -> (j < n)%N -> mu i j \is Num.real) ->
  aorder A' = n -> iprojrep n mul e mu (aget A') -> iunitary n (aget A') -> iirreducible n (aget A') ->
  fs_meaning n (aget A') 1 -> near eps A A' -> (adim A' ^ 2 <= n)%N ->
  (forall trial d (a b : 'I_d), (trial < max_num)%N -> `|np_rnd E trial d a b| <= B) ->
  get_intertwiner_mats (np_powinv E) (np_rnd E) eps max_num (amats A) [seq cjx M | M <- amats A] = None ->
  unlucky_samples n (np_rnd E) (eps + (n ^ 2)%:R * (B * (2%:R * eps + eps ^+ 2))) max_num.
Proof.
move=> eps0 G fs mr oA pD uD iD rt [d [ms [ns [eA eA' sz nr]]]].
subst A A'; rewrite /aorder /aget /= in oA pD uD iD rt *; move=> dsq hB.
have [U [hU UU _]] : exists U, [/\ forall g, (g < n)%N -> nth 0 ns g *m U = U *m cjx (nth 0 ns g), U *m adj U = 1%:M & U^T = U].
  by case: rt => [[_]|[]|[]].
rewrite /get_intertwiner_mats => /search_None_iff none.
have d0 := iD.1; have n0 : (0 < n)%N by apply: leq_trans dsq; rewrite expn_gt0 d0.
exists n, d, U; split=> //; first by rewrite n0 leqnn.
  by rewrite expn_gt0 d0 dsq.
move=> tr a b ht; have := none tr; rewrite add0n => /(_ ht) /forallP /(_ a) /forallP /(_ b).
set R := np_rnd E tr d.
have B0 : 0 <= B by apply: le_trans (hB tr _ a b ht).
have e0 : 0 <= 2%:R * eps + eps ^+ 2 by apply: addr_ge0; [apply: mulr_ge0; [exact: ler0n|]|apply: exprn_ge0].
have cE (s : seq 'M[C]_d) g : (g < size s)%N -> nth 0 [seq cjx M | M <- s] g = cjx (nth 0 s g) by move=> h; rewrite (nth_map 0).
have u2 := conj_iunitary uD; have p2 := conj_iprojrep mr pD.
have nr' : `|intertwiner_sum ms [seq cjx M | M <- ms] R a b - intertwiner_sum ns [seq cjx M | M <- ns] R a b|
    <= (n * d ^ 2)%:R * (B * (2%:R * eps + eps ^+ 2)).
  apply: (@CorepCover.inter_near C n d) => //; rewrite ?size_map ?sz ?oA //.
  - by move=> g c c' hg; apply: unitary_entry; apply: uD.
  - by move=> g c c' hg; rewrite cE ?oA //; apply: unitary_entry; apply: u2.
  - by move=> g c c' hg; rewrite !cE ?sz ?oA // !mxE -rmorphB norm_conjC.
  - by move=> c c'; apply: hB.
have p2' : iprojrep n mul e mu (nth 0 [seq cjx M | M <- ns]).
  split=> [|i k hi hk]; first by rewrite cE ?oA ?p2.1 //; exact/ssrnat.ltP/(gl_e _ _ _ G).
  have hm : (mul i k < n)%N by apply/ssrnat.ltP; apply: (gl_closed _ _ _ G); apply/ssrnat.ltP.
  by rewrite !cE ?oA ?p2.2.
have u2' : iunitary n (nth 0 [seq cjx M | M <- ns]) by move=> i hi; rewrite cE ?oA ?u2.
have sz2 : size [seq cjx M | M <- ns] = n by rewrite size_map.
have sE : intertwiner_sum ns [seq cjx M | M <- ns] R = (n%:R / d%:R * \tr (R *m adj U)) *: U.
  rewrite (isum G oA sz2).
  have P := proj1 (iprojrepE G _ _) pD; have V := proj1 (iunitaryE G _) uD.
  have N1 := irreducible_norm1 (ifs_fs G fs) P V (proj1 (iirreducibleE G _) iD).
  have U2 : adj U *m U = 1%:M by apply: mulmx1C.
  have -> : (n%:R / d%:R * \tr (R *m adj U)) *: U = avg [set: igT G]%G (fun g => nth 0 ns (ival g)) (fun g => nth 0 ns (ival g)) (R *m adj U) *m U.
    by rewrite (avg_self (ifs_fs G fs) P V N1) cardsT ival_card mul_scalar_mx.
  rewrite /avg mulmx_suml; apply: eq_bigr => s sH.
  have hs := ival_lt s.
  have -> : nth 0 [seq cjx M | M <- ns] (ival s) = adj U *m nth 0 ns (ival s) *m U.
    by rewrite cE ?oA // -mulmxA hU // mulmxA U2 mul1mx.
  by rewrite !adjM adjK !mulmxA.
move=> le1; rewrite sE mxE in nr'; set c := _ / _ * \tr _ in nr'.
have -> : n%:R / d%:R * `|\tr (R *m adj U)| * `|U a b| = `|c * U a b|.
  by rewrite !normrM normfV !normr_nat.
rewrite -[c * _](subrK (intertwiner_sum ms [seq cjx M | M <- ms] R a b)) addrC.
apply: le_trans (ler_norm_add _ _) _; apply: ler_add; first by [].
rewrite distrC; apply: le_trans nr' _; apply: ler_wpmul2r; first exact: mulr_ge0.
by rewrite ler_nat [X in (_ <= X)%N]expnS expn1 leq_mul2l dsq orbT.
Qed.
End Success.
