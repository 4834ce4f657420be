(** Property theorems C71: how many symmetry-adapted tensors are returned (tensor.py:14-80). *)
From Coq Require List.
From Coq Require Import QArith ZArith String Permutation.
From mathcomp Require Import all_ssreflect all_algebra.
From mathcomp Require Import algC.
From Verif Require Import Py Mat3 MatQ GroupSpec GroupModel PointGroupModel RepSpec IndexRepSpec RepModel RepTheory RepProofs ChainModel ClaimsChain
  ProjModel ProjSpec LinAlgExists SmallModel SmallSpec SmallTheory SmallExamples ClaimsSmall TensorModel TensorSpec ClaimsTensor
  SpinorModel SpinorSpec SpinorTheory SpinorProofs ClaimsSpinor RobustTheory DimTheory ClaimsRobust ClaimsCorep3
  CorepBridge CorepModel CorepSpec ClaimsCorep TensorTableSpec TensorCount TensorTable.
From Verif Require TensorReal.
Import Order.TTheory GRing.Theory Num.Theory.
Set Implicit Arguments.
Unset Strict Implicit.
Unset Printing Implicit Defensive.
Local Open Scope ring_scope.

(* ---------- C71 ---------- *)
(** The average over the group of the rank-th power of the character is a natural number.  At
    most so many tensors are returned, and exactly so many for a representation of dimension at
    most three. *)
Theorem C71_number_of_tensors : forall (C : numClosedFieldType) (E : numpy C) (L : linalg C) (rep : arr C) rots mul e rank (atol : Q) ts,
  linalg_ok L -> numpy_ok E (Qmake 1 100000) atol -> Qeq atol (inject_Z Z0) ->
  lists_group rots -> multiplication rots mul e -> spglib_ok E rots -> (0 < rank)%N ->
  aorder rep = size rots -> iprojrep (size rots) mul e (fun _ _ => 1) (aget rep) -> iunitary (size rots) (aget rep) ->
  get_symmetry_adapted_tensors E L rep rots rank false atol = COk ts ->
  exists N : nat, [/\ \sum_(g < size rots) \tr (aget rep g) ^+ rank = (size rots)%:R * N%:R, (size ts <= N)%N &
    (adim rep <= 3)%N -> size ts = N].
Proof.
move=> C E L rep rots mul e [//|p] atol ts ok NO A0 LG M sp _ sR pR uR res.
have [N [h1 h2 h3]] := invariants_count (mult_group_law LG M) pR p.
exists N; have := C41_exact p.+1 ok NO A0 LG M sp sR pR uR; rewrite res.
case=> [[//]|[ts' [[<-] inv ind c3 _]]]; split=> //; first exact: h2.
by move=> /c3 c; apply: h3.
Qed.
Print Assumptions C71_number_of_tensors.

(** The rotations in Cartesian coordinates. *)
Definition cartesian_rep (C : numClosedFieldType) (L : 'M[C]_3) (rots : list mat) : arr C :=
  Arr [seq L^T *m mC C r *m invmx L^T | r <- rots].

Lemma zC_of_nat (C : numClosedFieldType) m : zC C (Z.of_nat m) = m%:R.
Proof. by elim: m => [|m IH]; rewrite ?Znat.Nat2Z.inj_succ // /Z.succ zC_add IH -addn1 natrD zC1. Qed.
Lemma zC_pow (C : numClosedFieldType) z k : zC C (Z.pow z (Z.of_nat k)) = zC C z ^+ k.
Proof.
elim: k => [|k IH]; first by rewrite expr0 zC1.
by rewrite Znat.Nat2Z.inj_succ Z.pow_succ_r ?zC_mul ?IH ?exprS //; exact: Zorder.Zle_0_nat.
Qed.
Lemma zC_trace_power (C : numClosedFieldType) k rots : zC C (trace_power k rots) = \sum_(r <- rots) zC C (mtrace r) ^+ k.
Proof.
rewrite /trace_power; elim: rots => [|r rots IH]; first by rewrite big_nil.
by rewrite big_cons /= zC_add IH zC_pow.
Qed.
(** For the rotations in Cartesian coordinates this is the average of the powers of the traces
    of the integer matrices, so that it does not depend on the lattice. *)
Theorem C71_cartesian_tensors : forall (C : numClosedFieldType) (E : numpy C) (LA : linalg C) (L : 'M[C]_3) rots rank (atol : Q),
  linalg_ok LA -> numpy_ok E (Qmake 1 100000) atol -> Qeq atol (inject_Z Z0) ->
  lists_group rots -> spglib_ok E rots -> lattice_ok L -> (forall r, List.In r rots -> preserves_metric L r) -> (0 < rank)%N ->
  let f := get_symmetry_adapted_tensors E LA (cartesian_rep L rots) rots rank false atol in
  (f = CWarn /\ unlucky_samples (size rots) (np_rnd E) 0 4) \/
  exists ts, f = COk ts /\ trace_power rank rots = Z.of_nat (size rots * size ts).
Proof.
move=> C E LA L rots rank atol ok NO A0 LG sp LO PM r0 f.
have [mul [e M]] := mult_exists LG.
have [Lr Lu] := LO; have LTu : L^T \in unitmx by rewrite unitmx_tr.
have gE g : (g < size rots)%N -> aget (cartesian_rep L rots) g = L^T *m mC C (List.nth g rots mid) *m invmx L^T.
  by move=> h; rewrite /aget /= (nth_map mid) // nthE.
have sR : aorder (cartesian_rep L rots) = size rots by rewrite /aorder size_map.
have pR : iprojrep (size rots) mul e (fun _ _ => 1) (aget (cartesian_rep L rots)).
  split; first by rewrite gE ?(mt_id M) ?mC_id ?mulmx1 ?mulmxV //; exact: mt_e M.
  move=> i j hi hj; rewrite !gE ?(mt_lt M) // (mt_mul M) // mC_mul scale1r.
  by rewrite !mulmxA -[_ *m invmx L^T *m L^T]mulmxA mulVmx // mulmx1.
have uR : iunitary (size rots) (aget (cartesian_rep L rots)).
  move=> i hi; rewrite gE //; set R := _ *m invmx _.
  have RR : R^T *m R = 1%:M.
    have h := PM _ (List.nth_In rots mid (ssrnat.ltP hi)).
    rewrite /R !trmx_mul trmxK trmx_inv trmxK.
    rewrite !mulmxA -[invmx L *m _ *m L *m L^T]mulmxA -[invmx L *m _ *m (L *m L^T)]mulmxA -[invmx L *m _ *m mC C _]mulmxA h.
    by rewrite mulmxA mulVmx // mul1mx mulmxV.
  have rR : real_mx R.
    apply: real_mulmx; last by apply: real_invmx; apply: real_trmx.
    by apply: real_mulmx; [apply: real_trmx|apply: real_mC].
  rewrite (TensorReal.real_adj rR).
  exact: mulmx1C.
case: (C41_exact rank ok NO A0 LG M sp sR pR uR) => [|[ts [res _ _ _ _]]]; first by left.
right; exists ts; split=> //.
have [N [h _ h3]] := C71_number_of_tensors ok NO A0 LG M sp r0 sR pR uR res.
rewrite (h3 isT); apply: (@zC_inj C); rewrite zC_of_nat natrM -h zC_trace_power (big_nth mid) big_mkord.
apply: eq_bigr => g _; rewrite gE // nthE; congr (_ ^+ _).
by rewrite mxtrace_mulC mulmxA mulVmx // mul1mx mC_tr.
Qed.
Print Assumptions C71_cartesian_tensors.

(** For ranks one to four they are the numbers of components listed in the textbooks, for each
    of the 32 point groups in every basis and order of the operations. *)
Theorem C71_point_groups : forall (C : numClosedFieldType) (E : numpy C) (LA : linalg C) (L : 'M[C]_3) rots rank (atol : Q) s P ts,
  linalg_ok LA -> numpy_ok E (Qmake 1 100000) atol -> Qeq atol (inject_Z Z0) ->
  lists_group rots -> spglib_ok E rots -> spglib_pointgroup E rots = (s, P) ->
  lattice_ok L -> (forall r, List.In r rots -> preserves_metric L r) -> (1 <= rank <= 4)%N ->
  get_symmetry_adapted_tensors E LA (cartesian_rep L rots) rots rank false atol = COk ts ->
  exists2 ns, List.In (s, ns) tensor_components & size ts = List.nth (rank - 1) ns 0%N.
Proof.
move=> C E LA L rots rank atol s P ts ok NO A0 LG sp sE LO PM /andP [r1 r4] res.
have := C71_cartesian_tensors ok NO A0 LG sp LO PM r1; cbv zeta; rewrite res.
case=> [[//]|[ts' [[<-] h]]].
have [dP iP [settings [std [hs hstd pm]]]] : [/\ ~ Qeq (qdet P) (inject_Z Z0),
    forall r, List.In r rots -> qintegral (qmul (qmul (qinv P) (qofz r)) P) &
    exists settings std, [/\ dict_get PointGroupData.pg_dataset s = Ret settings, List.In std settings &
      Permutation std (List.map (conj_round P) rots)]] by move: sp; rewrite /spglib_ok sE.
have [ns [i1 [_ i2]]] := point_components _ _ _ _ _ hs hstd dP iP pm; exists ns => //.
have := i2 rank (conj (ssrnat.leP r1) (ssrnat.leP r4)); rewrite h => /Znat.Nat2Z.inj.
have n0 : (0 < size rots)%N by case: (rots) (lg_id _ LG).
by move/eqP; rewrite -[List.length _]/(size rots) eqn_pmul2l // => /eqP ->.
Qed.
Print Assumptions C71_point_groups.

(** 222 on a cubic lattice: no invariant vector, three invariant tensors of rank two and six of
    rank three. *)
Example C71_hypotheses_met : exists (LA : linalg algCF) (L : 'M[algCF]_3),
  [/\ linalg_ok LA, numpy_ok grey_numpy (Qmake 1 100000) (inject_Z Z0), lists_group p2_rots, spglib_ok grey_numpy p2_rots & lattice_ok L] /\
  [/\ forall r, List.In r p2_rots -> preserves_metric L r,
      exists P, spglib_pointgroup grey_numpy p2_rots = ("222"%string, P) &
      forall rank, (1 <= rank <= 4)%N -> exists ts,
        get_symmetry_adapted_tensors grey_numpy LA (cartesian_rep L p2_rots) p2_rots rank false (inject_Z Z0) = COk ts /\
        size ts = List.nth (rank - 1) (0 :: 3 :: 6 :: 21 :: nil)%N 0%N].
Proof.
have [LO LE PM _ _] := C36_hypotheses_met algCF.
have [[_ RO EO SP] _] := C62_C63_hypotheses_met.
have ok := @ex_linalg_ok algCF.
have PM' r : List.In r p2_rots -> preserves_metric (1%:M : 'M[algCF]_3) r by move=> h; apply: PM; apply: List.in_or_app; left.
have LG : lists_group p2_rots by have [[SG _ _ _ _] _] := C27_hypotheses_met; exact: sg_rots SG.
have NO : numpy_ok grey_numpy (Qmake 1 100000) (inject_Z Z0).
  have ex_nat (m : nat) : ex_around m%:R = m%:R by apply: rounds_near RO _; rewrite subrr normr0 invr_gt0 ltr0n.
  have [[h1 h2 h3 h4 h5] [k1 k2 k3 k4] h] := ex_numpy_ok; split=> //; split=> //.
  by rewrite /qC /= mul1r invr_ge0 ler0n.
exists (ex_linalg algCF), 1%:M; split=> //; split=> //; first by eexists.
move=> rank hr; have /andP [r1 r4] := hr.
case: (C71_cartesian_tensors ok NO (Qeq_refl _) LG SP LO PM' r1) => [[_ u]|[ts [res _]]].
  by case: (@unit_draw_lucky algCF 4).
exists ts; split=> //.
have [ns i1 ->] := C71_point_groups ok NO (Qeq_refl _) LG SP erefl LO PM' hr res.
by repeat (destruct i1 as [i1|i1]; [first [discriminate i1|injection i1 as <-; reflexivity]|]).
Qed.
Print Assumptions C71_hypotheses_met.
