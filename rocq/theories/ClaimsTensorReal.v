(** Property theorems C41 for real irreps (tensor.py with real=True). *)
From Coq Require List.
From Coq Require Import QArith ZArith String.
From mathcomp Require Import all_ssreflect all_algebra all_fingroup.
From mathcomp.real_closed Require Import mxtens.
From mathcomp Require Import zify.
From Verif Require Import Py Mat3 MatQ GroupSpec GroupModel PointGroupModel RepSpec IndexRepSpec RepModel RepTheory IndexGroup RepProofs ChainModel ClaimsChain.
From mathcomp Require Import algC.
From Verif Require Import ProjModel ProjSpec GrassTheory LinAlgExists ProjTheory ProjProofs ProjSearch.
From Verif Require Import SmallModel SmallSpec SmallTheory ClaimsSmall TensorModel TensorSpec TensorTheory TensorProofs TensorIndex TensorReal.
From Verif Require Import CExpSpec SpinorSpec RealSpec RealTheory RealDrop ClaimsReal.
Import Order.TTheory GRing.Theory Num.Theory.
Set Implicit Arguments.
Unset Strict Implicit.
Unset Printing Implicit Defensive.
Local Open Scope ring_scope.

(** Given a real orthogonal representation and mutually inequivalent real irreducible
    representations, the tensors are returned without failure, they are invariant and
    linearly independent.  Nothing is assumed about the rounding of multiplicities. *)
Theorem C41_real_irreps : forall (C : numClosedFieldType) (L : linalg C) (around : C -> C) (rnd_int : C -> int)
    n mul e (rep : arr C) (irreps : seq (arr C)) rank (atol : C),
  linalg_ok L -> (forall k : nat, around k%:R = k%:R) -> atol \is Num.real ->
  group_law n mul e -> aorder rep = n -> iprojrep n mul e (fun _ _ => 1) (aget rep) ->
  (forall g, (g < n)%N -> orthogonal_mx (aget rep g)) ->
  (forall k, (k < size irreps)%N -> let D := arr_nth irreps k in
    [/\ aorder D = n, iprojrep n mul e (fun _ _ => 1) (aget D), forall g, (g < n)%N -> orthogonal_mx (aget D g) &
        real_irreducible n (aget D)]) ->
  (forall k l, (k < l < size irreps)%N ->
    \sum_(g < n) (\tr (aget (arr_nth irreps k) g))^* * \tr (aget (arr_nth irreps l) g) = 0) ->
  exists ts, [/\ tensors_from_irreps L around rnd_int atol rep irreps rank = COk ts,
    forall T, T \in ts -> tensor_invariant n (aget rep) T & vectors_independent ts].
Proof.
move=> C L around rnd_int n mul e rep irreps rank atol ok ra ar G sR pR oR hI hO.
have un (A : arr C) : aorder A = n -> iprojrep n mul e (fun _ _ => 1) (aget A) -> (forall g, (g < n)%N -> orthogonal_mx (aget A g)) -> rrep n mul e A.
  move=> h1 h2 h3; split; last by move=> g /h3 [].
  by split=> // g gn; have [r o] := h3 g gn; rewrite real_adj.
have rR : rrep n mul e rep by exact: un.
have irrs : List.Forall (rirr n mul e) irreps.
  elim: (irreps) hI => [|A l IH] h; constructor; first by have [h1 h2 h3 h4] := h 0%N isT; split=> //; exact: un.
  by apply: IH => k hk; exact: (h k.+1).
have orth : List.ForallOrdPairs (fun A B : arr C => icip n (aget A) (aget B) = 0) irreps.
  elim: (irreps) hO => [|A l IH] h; constructor; last by apply: IH => k j hj; exact: (h k.+1 j.+1).
  have {}h k : (k < size l)%N -> icip n (aget A) (aget (arr_nth l k)) = 0 by move=> hk; exact: (h 0%N k.+1).
  elim: l h {IH} => [|B l IH] h; constructor; first exact: (h 0%N).
  by apply: IH => k hk; exact: (h k.+1).
have [vs [e1 av iv]] := pe_real G around rnd_int ok ar irrs orth rR.
have [ts [e2 at' it]] := blocks_real G around rnd_int ok ar irrs orth rank.-1 av iv.
have [rows [e3 hr fr]] := rows_real G ra ar irrs at' it.
exists rows; split; last exact: vectors_ind.
- by rewrite /tensors_from_irreps e1 /= e2 /= sR.
- by move=> T /hr h g gn; apply/tact_entry; exact: h.
Qed.

(** The public function in real mode, when the enumeration returned such irreps. *)
Corollary C41_real_mode : forall (C : numClosedFieldType) (E : numpy C) (L : linalg C)
    (rep : arr C) rots mul e rank (atol : Q) irreps inds warn,
  linalg_ok L -> numpy_ok E (Qmake 1 100000) atol ->
  lists_group rots -> multiplication rots mul e ->
  let n := size rots in
  aorder rep = n -> iprojrep n mul e (fun _ _ => 1) (aget rep) -> (forall g, (g < n)%N -> orthogonal_mx (aget rep g)) ->
  enumerate_unitary_irreps E rots (fun _ _ => 1) true "Neto" (Qmake 1 100000) atol 4 = COk (irreps, inds, warn) ->
  (forall k, (k < size irreps)%N -> let D := arr_nth irreps k in
    [/\ aorder D = n, iprojrep n mul e (fun _ _ => 1) (aget D), forall g, (g < n)%N -> orthogonal_mx (aget D g) &
        real_irreducible n (aget D)]) ->
  (forall k l, (k < l < size irreps)%N ->
    \sum_(g < n) (\tr (aget (arr_nth irreps k) g))^* * \tr (aget (arr_nth irreps l) g) = 0) ->
  exists ts, [/\ get_symmetry_adapted_tensors E L rep rots rank true atol = COk ts,
    forall T, T \in ts -> tensor_invariant n (aget rep) T & vectors_independent ts].
Proof.
move=> C E L rep rots mul e rank atol irreps inds warn ok NO LG M n sR pR oR eE hI hO.
have [O _ _] := NO.
have ar : qC C atol \is Num.real by rewrite ger0_real // (or_atol O).
have [ts [h1 h2 h3]] := C41_real_irreps (np_int E) rank ok (or_around O) ar (mult_group_law LG M) sR pR oR hI hO.
by exists ts; split=> //; rewrite /get_symmetry_adapted_tensors eE.
Qed.

Section Z3.
Variables (C : numClosedFieldType) (cexp : Q -> C).
Hypothesis ce : exp_spec cexp.
Local Notation w := (cexp (Qmake 1 3)).
(** The group of order three: the representation exp(2 pi i g / 3), its real form, the
    rotations by 120 degrees, and the real irreps. *)
Definition z3_complex : arr C := Arr [seq p3_irrep cexp 1 g | g <- iota 0 3].
Definition z3_plane : arr C := Arr [seq real_blocks M | M <- amats z3_complex].
Definition z3_trivial : arr C := Arr [seq p3_irrep cexp 0 g | g <- iota 0 3].
Definition z3_real : seq (arr C) := [:: z3_trivial; z3_plane].

Lemma z3_complexE g : (g < 3)%N -> aget z3_complex g = (w ^+ g)%:M.
Proof. by case: g => [|[|[|//]]] _; rewrite /aget /= /p3_irrep ?mul1n. Qed.
Lemma z3_planeE g : (g < 3)%N -> aget z3_plane g = real_blocks (w ^+ g)%:M.
Proof. by move=> hg; rewrite -z3_complexE //; move: g hg => [|[|[|//]]]. Qed.
Lemma z3_trivialE g : (g < 3)%N -> aget z3_trivial g = 1%:M.
Proof. by case: g => [|[|[|//]]]. Qed.
Lemma w_sum : 1 + w + w ^+ 2 = 0.
Proof.
have /esym/eqP := subrX1 w 3; rewrite (w3 ce) subrr mulf_eq0 subr_eq0 (negbTE (w_neq1 ce)) /= => /eqP.
by rewrite !big_ord_recl big_ord0 /= expr0 expr1 addr0 addrA.
Qed.
Lemma w_sum2 : 1 + w ^+ 2 + w ^+ 4 = 0.
Proof. by rewrite (exprS w 3) (w3 ce) mulr1 addrAC w_sum. Qed.
Lemma w_norm g : w ^+ g * (w ^+ g)^* = 1.
Proof. by rewrite -normCK normrX (ce_norm ce) !expr1n. Qed.
Lemma re_w g : 'Re (w ^+ g) * w ^+ g = (w ^+ (2 * g) + 1) / 2%:R.
Proof. by rewrite ReE mulrAC; congr (_ / _); rewrite mulrDl [(_)^* * _]mulrC w_norm -exprD addnn mul2n. Qed.
Lemma im_w g : 'Im (w ^+ g) * w ^+ g = 'i * (1 - w ^+ (2 * g)) / 2%:R.
Proof. by rewrite ImE mulrAC; congr (_ / _); rewrite -mulrA mulrBl [(_)^* * _]mulrC w_norm -exprD addnn mul2n. Qed.

Lemma z3_group : group_law 3 p3_mul 0.
Proof. exact: (mult_group_law p3_group p3_multiplication). Qed.
Lemma z3_plane_rep : [/\ iprojrep 3 p3_mul 0 (fun _ _ => 1) (aget z3_plane), forall g, (g < 3)%N -> orthogonal_mx (aget z3_plane g) &
  real_irreducible 3 (aget z3_plane)].
Proof.
have [h1 h2 h3 h4 h5] := C30_hypotheses_met ce; split.
- have [r1 r2] := p3_irrep_rep ce 1; split=> [|i j hi hj]; first by rewrite z3_planeE // expr0 real_blocks1.
  rewrite scale1r !z3_planeE ?ltn_mod // -real_blocksM; congr real_blocks.
  have := r2 i j hi hj; rewrite scale1r /p3_irrep !mul1n; exact.
- move=> g hg; rewrite z3_planeE //; apply: real_blocks_orth.
  by rewrite /adj map_scalar_mx tr_scalar_mx -scalar_mxM /= w_norm.
have nz : (0 : int) <> 1 by [].
have [i1 i2] := real_blocks_irreducible h4 (not_real_fs h4 h3 h5 nz).
split=> // m B rB lB m0 inv; apply: (i2 m B rB lB m0) => g hg.
by have [Y hY] := inv g hg; exists Y; rewrite -hY; move: g hg {hY inv} => [|[|[|//]]].
Qed.
Lemma z3_trivial_rep : [/\ iprojrep 3 p3_mul 0 (fun _ _ => 1) (aget z3_trivial), forall g, (g < 3)%N -> orthogonal_mx (aget z3_trivial g) &
  real_irreducible 3 (aget z3_trivial)].
Proof.
split.
- by split=> [|i j hi hj]; rewrite !z3_trivialE ?ltn_mod // mulmx1 scale1r.
- by move=> g hg; rewrite z3_trivialE //; split; [move=> i j; rewrite !(ord1 _) mxE rpred1|rewrite trmx1 mulmx1].
split=> // m B _ [V VB] m0 _; apply/eqP; rewrite eqn_leq m0 andbT.
have : \rank (V *m B) = m by rewrite VB mxrank1.
by move=> <-; apply: leq_trans (mxrankM_maxr _ _) (rank_leq_row _).
Qed.
Lemma z3_plane_tr g : (g < 3)%N -> \tr (aget z3_plane g) = 2%:R * 'Re (w ^+ g).
Proof.
move=> hg; rewrite z3_planeE // mxtrace_block (_ : map_mx _ _ = ('Re (w ^+ g))%:M) ?mxtrace_scalar ?mulr1n -?mulr2n ?mulr_natl //.
by apply/matrixP => i j; rewrite !(ord1 _) !mxE eqxx.
Qed.
(** The hypotheses of C41_real_irreps are met by the rotations of the plane. *)
Example C41_real_hypotheses_met :
  [/\ group_law 3 p3_mul 0, aorder z3_plane = 3%N, iprojrep 3 p3_mul 0 (fun _ _ => 1) (aget z3_plane),
    (forall g, (g < 3)%N -> orthogonal_mx (aget z3_plane g)) &
  (forall k, (k < size z3_real)%N -> let D := arr_nth z3_real k in
    [/\ aorder D = 3%N, iprojrep 3 p3_mul 0 (fun _ _ => 1) (aget D), forall g, (g < 3)%N -> orthogonal_mx (aget D g) &
        real_irreducible 3 (aget D)]) /\
  (forall k l, (k < l < size z3_real)%N ->
    \sum_(g < 3) (\tr (aget (arr_nth z3_real k) g))^* * \tr (aget (arr_nth z3_real l) g) = 0)].
Proof.
have [p1 p2 p3] := z3_plane_rep; have [t1 t2 t3] := z3_trivial_rep.
split=> //; first exact: z3_group.
split; first by move=> [|[|k]].
move=> [|k] [|[|l]] //= h; last by move: h; rewrite !ltnS ltn0 andbF.
move: h => _.
have -> : \sum_(g < 3) (\tr (aget z3_trivial g))^* * \tr (aget z3_plane g) = 2%:R * \sum_(g < 3) 'Re (w ^+ g).
  rewrite mulr_sumr; apply: eq_bigr => g _.
  by rewrite z3_trivialE // mxtrace1 conjC1 mul1r z3_plane_tr.
rewrite -raddf_sum (_ : \sum_(g < 3) w ^+ g = 0) ?raddf0 ?mulr0 //.
by rewrite !big_ord_recl big_ord0 /= expr0 expr1 addr0 addrA w_sum.
Qed.

Lemma plane_entry g : (g < 3)%N -> let M : 'M[C]_(1 + 1) := aget z3_plane g in
  [/\ M (lshift 1 0) (lshift 1 0) = 'Re (w ^+ g), M (lshift 1 0) (rshift 1 0) = 'Im (w ^+ g),
      M (rshift 1 0) (lshift 1 0) = - 'Im (w ^+ g) & M (rshift 1 0) (rshift 1 0) = 'Re (w ^+ g)].
Proof.
move=> hg; rewrite z3_planeE // /real_blocks /=.
by rewrite block_mxEul block_mxEur block_mxEdl block_mxEdr !mxE.
Qed.
Lemma w_squares : \sum_(g < 3) w ^+ (2 * g) = 0.
Proof. by rewrite !big_ord_recl big_ord0 /= muln0 expr0 muln1 addr0 addrA w_sum2. Qed.
Lemma plane_projected (b : 'I_(adim z3_complex)) (i j : 'I_(1 + 1)) :
  `|projected (rep := z3_complex) (irrep := z3_plane) b j i 0| = 1.
Proof.
have n3 : 3%:R != 0 :> C by rewrite pnatr_eq0.
have n2 : 2%:R != 0 :> C by rewrite pnatr_eq0.
have sre : \sum_(g < 3) 'Re (w ^+ g) * w ^+ g = 3%:R / 2%:R.
  under eq_bigr => g _ do rewrite re_w.
  by rewrite -mulr_suml big_split /= w_squares add0r sumr_const card_ord.
have sim : \sum_(g < 3) 'Im (w ^+ g) * w ^+ g = 'i * (3%:R / 2%:R).
  under eq_bigr => g _ do rewrite im_w.
  by rewrite -mulr_suml -mulr_sumr big_split /= sumrN w_squares oppr0 addr0 sumr_const card_ord mulrA.
have nrm (z : C) : `|z| = 1 -> `|2%:R / 3%:R * (z * (3%:R / 2%:R))| = 1.
  by move=> z1; rewrite mulrCA mulf_div [X in X / _]mulrC divff ?mulf_neq0 // mulr1.
have gE (g : 'I_3) : aget z3_complex g 0 b = w ^+ g by rewrite z3_complexE // (ord1 b) mxE eqxx.
have pE (f : 'I_3 -> C) : (forall g : 'I_3, (aget z3_plane g : 'M[C]_(1 + 1)) i j = f g) -> (forall g, f g \is Num.real) ->
    projected (rep := z3_complex) (irrep := z3_plane) b j i 0 = 2%:R / 3%:R * \sum_g f g * w ^+ g.
  move=> fE fr; rewrite mxE mxE; congr (_ * _); apply: eq_bigr => g _.
  by rewrite fE conj_Creal // -gE (ord1 b).
have [reR imR] : (forall g : 'I_3, 'Re (w ^+ g) \is Num.real) /\ (forall g : 'I_3, 'Im (w ^+ g) \is Num.real).
  by split=> g; rewrite ?Creal_Re ?Creal_Im.
move: pE; case: (split_ordP i) => i' ->; case: (split_ordP j) => j' ->; rewrite (ord1 i') (ord1 j') => pE.
- rewrite (pE (fun g => 'Re (w ^+ g))) => [|g|//]; last by have [] := plane_entry (ltn_ord g).
  by rewrite sre -[3%:R / 2%:R]mul1r nrm ?normr1.
- rewrite (pE (fun g => 'Im (w ^+ g))) => [|g|//]; last by have [] := plane_entry (ltn_ord g).
  by rewrite sim nrm ?normCi.
- rewrite (pE (fun g => - 'Im (w ^+ g))) => [|g|g]; [|by have [] := plane_entry (ltn_ord g)|by rewrite rpredN].
  under eq_bigr => g _ do rewrite mulNr.
  by rewrite sumrN sim -mulNr nrm ?normrN ?normCi.
- rewrite (pE (fun g => 'Re (w ^+ g))) => [|g|//]; last by have [] := plane_entry (ltn_ord g).
  by rewrite sre -[3%:R / 2%:R]mul1r nrm ?normr1.
Qed.
Lemma plane_trial (L : linalg C) (a : C) : linalg_ok L -> in_bracket a -> project_once L z3_complex z3_plane a = CExn IndexError.
Proof.
move=> ok /andP [_ a2].
have pr1 n j (i : 'I_(adim z3_plane)) (m : 'I_(adim z3_complex)) : `|projected n j i m| = 1.
  by rewrite (ord1 m); exact: plane_projected.
have nc n j : allclose0 a (projected (rep := z3_complex) (irrep := z3_plane) n j) = false.
  apply/negP => /forallP /(_ ord0) /forallP /(_ ord0); rewrite pr1 => h.
  have : (1 : C) <= (10%:R ^+ 2)^-1 by exact: le_trans h a2.
  by apply/negP; rewrite lt_geF // invf_lt1 ?exprn_gt0 ?ltr0n // -natrX ltr1n.
have nr n j : exists b, normalise_rows (projected (rep := z3_complex) (irrep := z3_plane) n j) = COk b.
  rewrite /normalise_rows ifT; first by eexists.
  apply/forallP => i; rewrite /row_norm sqrtC_eq0 big_ord1 pr1 expr1n; exact: oner_neq0.
rewrite /project_once; set s := [seq _ | _ <- _, _ <- _].
have : size s = 2%N by rewrite size_allpairs !size_enum_ord.
case: s => [//|[n1 j1] [//|[n2 j2] s]] _ /=; rewrite /project_step /= nc.
have [b1 ->] := nr n1 j1; rewrite /= nc; have [b2 ->] := nr n2 j2; rewrite /=.
rewrite /grassmann_distance /distance_of /=.
have [sv _ _ _] := lo_svd ok (adj (la_qr L b2^T) *m la_qr L (stack [:: b1])^T).
by rewrite sv.
Qed.

(** For a complex representation real mode fails: the rows of a block are then not
    independent.  The representation g -> exp(2 pi i g / 3) with the real irreps raises
    IndexError. *)
Theorem C41_complex_real_refuted : forall (L : linalg C) (around : C -> C) (rnd_int : C -> int) (atol : C) rank,
  linalg_ok L -> (forall k : nat, around k%:R = k%:R) -> (forall k : nat, rnd_int k%:R = k) -> atol \is Num.real ->
  [/\ aorder z3_complex = 3%N, iprojrep 3 p3_mul 0 (fun _ _ => 1) (aget z3_complex), iunitary 3 (aget z3_complex) &
    tensors_from_irreps L around rnd_int atol z3_complex z3_real rank = CExn IndexError].
Proof.
move=> L around rnd_int atol rank ok ra ri ar.
have [r1 r2] := p3_irrep_rep ce 1.
have e3 g : (g < 3)%N -> aget z3_complex g = p3_irrep cexp 1 g by case: g => [|[|[|//]]].
split=> //.
- by split=> [|i j hi hj]; rewrite !e3 ?ltn_mod // ?r1 ?r2.
- by move=> g hg; rewrite z3_complexE // /adj map_scalar_mx tr_scalar_mx -scalar_mxM /= w_norm.
have tc (g : 'I_3) : \tr (aget z3_complex g) = w ^+ g by rewrite z3_complexE // mxtrace_scalar mulr1n.
rewrite /tensors_from_irreps /project_each [cmap _ _]/=.
have -> : project_to_irrep L around rnd_int z3_complex z3_trivial atol 10 = COk [::].
  rewrite /project_to_irrep /= (@char_sumE _ 3) //.
  have -> : icip 3 (aget z3_trivial) (aget z3_complex) = 0%:R.
    transitivity (\sum_(g < 3) w ^+ g); last by rewrite !big_ord_recl big_ord0 /= expr0 expr1 addr0 addrA w_sum.
    by apply: eq_bigr => g _; rewrite z3_trivialE // mxtrace1 conjC1 mul1r tc.
  by rewrite ra mul0r (ri 0%N).
have -> : project_to_irrep L around rnd_int z3_complex z3_plane atol 10 = CExn IndexError.
  rewrite /project_to_irrep /= (@char_sumE _ 3) //.
  have -> : icip 3 (aget z3_plane) (aget z3_complex) = 3%:R.
    transitivity (\sum_(g < 3) (w ^+ (2 * g) + 1)); last by rewrite big_split /= w_squares add0r sumr_const card_ord.
    apply: eq_bigr => g _; rewrite tc z3_plane_tr // conj_Creal ?rpredM ?realn ?Creal_Re //.
    by rewrite -mulrA re_w mulrC divfK // pnatr_eq0.
  rewrite ra divff ?pnatr_eq0 // (ri 1%N) /= /adjust_tolerance /=.
  by rewrite plane_trial //; exact: clip_bracket.
by [].
Qed.
End Z3.

Print Assumptions C41_real_irreps.
Print Assumptions C41_real_mode.
Print Assumptions C41_real_hypotheses_met.
Print Assumptions C41_complex_real_refuted.
