(** Property theorems C41 and C42 (tensor.py). *)
From Coq Require List.
From Coq Require Import QArith ZArith String.
From mathcomp Require Import all_ssreflect all_algebra all_fingroup.
From mathcomp.real_closed Require Import mxtens.
From mathcomp Require Import zify.
From Verif Require Import Py Mat3 MatQ GroupSpec GroupModel PointGroupModel RepSpec IndexRepSpec RepModel RepTheory IndexGroup RepProofs ChainModel ClaimsChain.
From mathcomp Require Import algC.
From Verif Require Import ProjModel ProjSpec GrassTheory LinAlgExists ProjTheory ProjProofs ProjSearch ProjExamples.
From Verif Require Import SmallModel SmallSpec SmallTheory ClaimsSmall TensorModel TensorSpec TensorTheory TensorProofs TensorIndex ClaimsProj.
From Verif Require Import ModeModel SpinorModel SpinorSpec SpinorTheory SpinorProofs SmallExamples ClaimsSpinor.
From Verif Require Import CorepBridge IsoTheory MultTheory CompleteTheory DimTheory PointDims.
Import Order.TTheory GRing.Theory Num.Theory.
Set Implicit Arguments.
Unset Strict Implicit.
Unset Printing Implicit Defensive.
Local Open Scope ring_scope.

(* ---------- C41 ---------- *)
(** Given a full list of unitary irreps, the tensors are returned without failure, they are
    invariant and linearly independent.  If the irreps have dimension at most 3, rep contains
    each of them at most three times and has dimension less than 50, the tensors are a basis
    of all invariant tensors. *)
Theorem C41_from_irreps : forall (C : numClosedFieldType) (L : linalg C) (around : C -> C) (rnd_int : C -> int)
    n mul e (rep : arr C) (irreps : seq (arr C)) rank (atol : C),
  linalg_ok L -> (forall k : nat, around k%:R = k%:R) -> (forall k : nat, rnd_int k%:R = k) -> atol \is Num.real ->
  group_law n mul e -> aorder rep = n -> iprojrep n mul e (fun _ _ => 1) (aget rep) -> iunitary n (aget rep) ->
  (forall k, (k < size irreps)%N -> aorder (arr_nth irreps k) = n) ->
  complete_irreps n mul e (fun _ _ => 1) (size irreps) (fun k => aget (arr_nth irreps k)) ->
  exists ts, [/\ tensors_from_irreps L around rnd_int atol rep irreps rank = COk ts,
    forall T, T \in ts -> tensor_invariant n (aget rep) T,
    vectors_independent ts &
    (adim rep < 50)%N ->
    (forall k, (k < size irreps)%N -> (adim (arr_nth irreps k) <= 3)%N) ->
    (forall k (m : nat), (k < size irreps)%N -> \sum_(g < n) (\tr (aget (arr_nth irreps k) g))^* * \tr (aget rep g) = n%:R * m%:R -> (m <= 3)%N) ->
    forall T, tensor_invariant n (aget rep) T -> combination ts T].
Proof.
move=> C L around rnd_int n mul e rep irreps rank atol ok ra ri ar G sR pR uR ord ci.
have inA A : List.In A irreps -> exists2 k, (k < size irreps)%N & A = arr_nth irreps k.
  by move=> /(List.In_nth _ _ (@Arr C 0 [::])) [k [/ssrnat.ltP hk <-]]; exists k => //; rewrite nthE.
have irrs : List.Forall (uirr n mul e) irreps.
  apply/List.Forall_forall => A /inA [k hk ->].
  split; [split|exact: (ci_irreducible ci)]; [exact: ord|exact: (ci_rep ci)|exact: (ci_unitary ci)].
have orth := ci_orthogonal ci; have sq := ci_squares ci.
have uX : urep n mul e rep by [].
have [vs [e1 av iv dv]] := pe_ok G irrs orth ok ra ri ar uX.
have [ts [e2 at' it dt]] := blocks_ok G irrs orth ok ra ri ar rank.-1 av iv.
have [rows [e3 hr fr sr]] := rows_ok G irrs ra ar at' it.
exists rows; split.
- by rewrite /tensors_from_irreps e1 /= e2 /= sR.
- by move=> T /hr h g gn; apply/tact_entry; exact: h.
- exact: vectors_ind.
move=> small d3 m3 T hT; apply: vectors_comb; rewrite -sr.
have [a0 a1] : 0 <= np_clip (Some (atol_lb C)) (Some (atol_ub C)) atol /\ np_clip (Some (atol_lb C)) (Some (atol_ub C)) atol <= (10%:R ^+ 2)^-1.
  by have /andP [h1 h2] := clip_bracket ar; split=> //; apply: le_trans h1; apply: ltW; exact: lb_gt0.
have sm k : (k < 50)%N -> 4%:R * (k%:R * np_clip (Some (atol_lb C)) (Some (atol_ub C)) atol) ^+ 2 < 1.
  move=> hk; have kk : k%:R * np_clip (Some (atol_lb C)) (Some (atol_ub C)) atol <= 49%:R / 100%:R.
    have k49 : k%:R <= 49%:R :> C by rewrite ler_nat; lia.
    have a2 : np_clip (Some (atol_lb C)) (Some (atol_ub C)) atol <= 100%:R^-1 by rewrite (_ : 100%:R = 10%:R ^+ 2) // -natrX.
    exact: ler_pmul (ler0n _ _) a0 k49 a2.
  have := ler_pmul (mulr_ge0 (ler0n _ k) a0) (mulr_ge0 (ler0n _ k) a0) kk kk; rewrite -!expr2 => h.
  apply: (@le_lt_trans _ _ (4%:R * (49%:R / 100%:R) ^+ 2)); first by rewrite ler_pmul2l ?ltr0n.
  rewrite exprMn exprVn mulrA ltr_pdivr_mulr ?exprn_gt0 ?ltr0n // mul1r -!natrX -natrM ltr_nat.
  by rewrite -!mulnn.
have dvE : dims vs = adim rep.
  apply/eqP; rewrite -(eqr_nat C) dv; last first.
    by split; [exact: sm|move=> A m /inA [k hk ->]; exact: m3].
  by rewrite -(dims_all G irrs orth uX sq).
apply: (invariant_span G irrs ra at' it); last by move=> g gn; apply/tact_entry; exact: hT.
apply: dt => //; move=> A B /inA [k hk ->] /inA [l hl ->]; split.
  apply: sm; rewrite /direct_arr /=; have := d3 k hk; have := d3 l hl; move: (adim _) (adim _) => x y hx hy.
  by apply: (@leq_ltn_trans (3 * 3)); rewrite // leq_mul.
move=> D m /inA [j hj ->] h; apply: leq_trans (d3 k hk); apply: (product_mult G _ _ _ h).
- by move/List.Forall_forall: irrs; apply; rewrite /arr_nth -nthE; apply: List.nth_In; apply/ssrnat.ltP.
- by move/List.Forall_forall: irrs; apply; rewrite /arr_nth -nthE; apply: List.nth_In; apply/ssrnat.ltP.
- by move/List.Forall_forall: irrs; apply; rewrite /arr_nth -nthE; apply: List.nth_In; apply/ssrnat.ltP.
Qed.

(** Through the public function: whatever full list of irreps the enumeration yields. *)
Theorem C41_symmetry_adapted_tensors : forall (C : numClosedFieldType) (E : numpy C) (L : linalg C)
    (rep : arr C) rots mul e rank real (atol : Q) irreps inds warn,
  linalg_ok L -> numpy_ok E (Qmake 1 100000) atol ->
  lists_group rots -> multiplication rots mul e ->
  aorder rep = size rots -> iprojrep (size rots) mul e (fun _ _ => 1) (aget rep) -> iunitary (size rots) (aget rep) ->
  enumerate_unitary_irreps E rots (fun _ _ => 1) real "Neto" (Qmake 1 100000) atol 4 = COk (irreps, inds, warn) ->
  complete_list rots mul e (fun _ _ => 1) irreps ->
  exists ts, [/\ get_symmetry_adapted_tensors E L rep rots rank real atol = COk ts,
    forall T, T \in ts -> tensor_invariant (size rots) (aget rep) T,
    vectors_independent ts &
    (adim rep < 50)%N ->
    (forall k, (k < size irreps)%N -> (adim (arr_nth irreps k) <= 3)%N) ->
    (forall k (m : nat), (k < size irreps)%N ->
      \sum_(g < size rots) (\tr (aget (arr_nth irreps k) g))^* * \tr (aget rep g) = (size rots)%:R * m%:R -> (m <= 3)%N) ->
    forall T, tensor_invariant (size rots) (aget rep) T -> combination ts T].
Proof.
move=> C E L rep rots mul e rank real atol irreps inds warn ok NO LG M sR pR uR eE [sI cI].
have [O _ ni] := NO.
have ri (k : nat) : np_int E k%:R = k.
  by apply: ni; rewrite (Creal_ReP _ _) ?realn // subrr normr0 invr_gt0 ltr0n.
have ar : qC C atol \is Num.real by rewrite ger0_real // (or_atol O).
have [ts [h1 h2 h3 h4]] := C41_from_irreps rank ok (or_around O) ri ar (mult_group_law LG M) sR pR uR sI cI.
by exists ts; split=> //; rewrite /get_symmetry_adapted_tensors eE.
Qed.

(** A representation of dimension at most 3 needs no hypothesis on multiplicities: the
    returned tensors are a basis of the invariant tensors. *)
Corollary C41_small_representation : forall (C : numClosedFieldType) (L : linalg C) (around : C -> C) (rnd_int : C -> int)
    n mul e (rep : arr C) (irreps : seq (arr C)) rank (atol : C),
  linalg_ok L -> (forall k : nat, around k%:R = k%:R) -> (forall k : nat, rnd_int k%:R = k) -> atol \is Num.real ->
  group_law n mul e -> aorder rep = n -> iprojrep n mul e (fun _ _ => 1) (aget rep) -> iunitary n (aget rep) ->
  (forall k, (k < size irreps)%N -> aorder (arr_nth irreps k) = n) ->
  complete_irreps n mul e (fun _ _ => 1) (size irreps) (fun k => aget (arr_nth irreps k)) ->
  (adim rep <= 3)%N -> (forall k, (k < size irreps)%N -> (adim (arr_nth irreps k) <= 3)%N) ->
  exists ts, [/\ tensors_from_irreps L around rnd_int atol rep irreps rank = COk ts,
    vectors_independent ts & forall T, tensor_invariant n (aget rep) T <-> combination ts T].
Proof.
move=> C L around rnd_int n mul e rep irreps rank atol ok ra ri ar G sR pR uR ord ci d3 i3.
have [ts [h1 h2 h3 h4]] := C41_from_irreps rank ok ra ri ar G sR pR uR ord ci.
exists ts; split=> // T; split.
  apply: h4 => //; first by exact: leq_ltn_trans d3 _.
  move=> k m hk h; apply: leq_trans d3; apply: (mult_le G _ _ h) => //.
  split; [split|exact: (ci_irreducible ci)]; [exact: ord|exact: (ci_rep ci)|exact: (ci_unitary ci)].
case=> c ->; apply: invariant_sum => a; apply: h2; exact: mem_nth.
Qed.

(** With the tolerance 0 and spglib answering, the outcome of the public function: unlucky
    random matrices, or the tensors. *)
Theorem C41_exact : forall (C : numClosedFieldType) (E : numpy C) (L : linalg C) (rep : arr C) rots mul e rank (atol : Q),
  linalg_ok L -> numpy_ok E (Qmake 1 100000) atol -> Qeq atol (inject_Z Z0) ->
  lists_group rots -> multiplication rots mul e -> spglib_ok E rots ->
  aorder rep = size rots -> iprojrep (size rots) mul e (fun _ _ => 1) (aget rep) -> iunitary (size rots) (aget rep) ->
  let f := get_symmetry_adapted_tensors E L rep rots rank false atol in
  (f = CWarn /\ unlucky_samples (size rots) (np_rnd E) 0 4) \/
  exists ts, [/\ f = COk ts, forall T, T \in ts -> tensor_invariant (size rots) (aget rep) T, vectors_independent ts,
    (adim rep <= 3)%N -> forall T, tensor_invariant (size rots) (aget rep) T -> combination ts T &
    (adim rep < 50)%N ->
    (forall d (D : nat -> 'M[C]_d) (m : nat), iprojrep (size rots) mul e (fun _ _ => 1) D -> iunitary (size rots) D ->
      iirreducible (size rots) D ->
      \sum_(g < size rots) (\tr (D g))^* * \tr (aget rep g) = (size rots)%:R * m%:R -> (m <= 3)%N) ->
    forall T, tensor_invariant (size rots) (aget rep) T -> combination ts T].
Proof.
move=> C E L rep rots mul e rank atol ok NO A0 LG M sp sR pR uR f.
have fs : ifactor_system (size rots) mul e (fun _ _ => 1 : C) by split=> *; rewrite ?normr1.
have A3 : Qle atol (Qmake 1 3) by rewrite A0.
have q0 : qC C atol = 0 by rewrite (qC_eq C A0) qC0.
have sm : (size rots)%:R * (2%:R * qC C atol + qC C atol ^+ 2) < 2%:R^-1 :> C.
  by rewrite q0 mulr0 expr0n add0r mulr0 invr_gt0 ltr0n.
have mr i j : (i < size rots)%N -> (j < size rots)%N -> (1 : C) \is Num.real by rewrite rpred1.
have mok : method_ok E rots "Neto" by left.
have := C51_real_factor_system 4 NO A3 sm LG M fs mr mok; cbv zeta.
case=> [[h [_ u]]|[_ //]|[Li [L' [inds [h cl nr _ _]]]]].
  by left; rewrite /f /get_symmetry_adapted_tensors h; split=> //; rewrite -q0.
right; rewrite q0 in nr; have ? := near_list0 nr; subst L'.
have [sI ci] := cl; have G := mult_group_law LG M.
have i3 k : (k < size Li)%N -> (adim (arr_nth Li k) <= 3)%N.
  by move=> hk; have [<-|[<-|[<-|[]]]] := point_linear_dims LG M sp (ci_rep ci hk) (ci_irreducible ci hk).
have [ts [h1 h2 h3 h4]] := C41_symmetry_adapted_tensors rank ok NO LG M sR pR uR h cl; exists ts; split=> //.
  move=> d3; apply: h4 => //; first exact: leq_ltn_trans d3 _.
  move=> k m hk hm; apply: leq_trans d3; apply: (mult_le G _ _ hm) => //.
  split; [split|exact: (ci_irreducible ci)]; [exact: sI|exact: (ci_rep ci)|exact: (ci_unitary ci)].
move=> d50 hm; apply: h4 => // k m hk; apply: hm; [exact: (ci_rep ci)|exact: (ci_unitary ci)|exact: (ci_irreducible ci)].
Qed.

(* ---------- C42 ---------- *)
Section Intrinsic.
Variable C : numClosedFieldType.
(** Given non-zero tensors, the function does not fail.  Every returned tensor is symmetric,
    has norm 1 and is a positive multiple of the symmetrisation of one of the inputs; the
    returned tensors are linearly independent, each at least 30 degrees away from the span of
    the previous ones; and the symmetrisation of every input is within 30 degrees of the span
    of all, unless that of the normalised input is within the tolerance in every entry. *)
Theorem C42_intrinsic_symmetry : forall (L : linalg C) (atol : C) m p (ts : seq 'rV[C]_(tdim m p)),
  linalg_ok L -> 0 <= atol -> (forall T, T \in ts -> T != 0) ->
  exists ss, [/\ apply_intrinsic_symmetry L atol ts = COk ss,
    forall S, S \in ss -> tensor_symmetric S /\ sqnorm S = 1,
    forall S, S \in ss -> exists T T' c, [/\ T \in ts, is_symmetrisation T T', 0 < c & S = c *: T'],
    vectors_independent ss /\
    (forall i W, (i < size ss)%N -> combination (take i ss) W -> 1 <= 4%:R * sqnorm (nth 0 ss i - W)) &
    forall T T', T \in ts -> is_symmetrisation T T' ->
      (forall x, `|entry T' x| <= atol * sqrtC (sqnorm T)) \/
      exists W, combination ss W /\ 4%:R * sqnorm (T' - W) < sqnorm T'].
Proof.
move=> L atol m p ts ok a0 nz.
have [ss [e1 [h1 h2 h3 h5 h4]]] := loop_ok ok a0 nz (loop_start atol m p).
have symmP T T' : is_symmetrisation T T' -> T' = symm T by move=> h; apply: entryP => x; rewrite h symmE.
exists ss; split=> //.
- move=> S hS; split; last exact: h1.
  by have [T [c [_ _ ->]]] := h2 _ hS; apply: symmetricZ; exact: symm_symmetric.
- move=> S /h2 [T [c [hT c0 ->]]]; exists T, (symm T), c; split=> // x; exact: symmE.
- split; first exact: vectors_ind.
  by move=> i W hi /comb_vectors; exact: h5.
move=> T T' hT /symmP ->; have tn := vec_norm_gt0 (nz T hT).
case: (h4 T hT) => [h|[w hw1 hw2]]; [left|right; exists w; split=> //; exact: vectors_comb].
move=> x; have /forallP/(_ 0)/forallP/(_ (flat x)) := h.
by rewrite !mxE normrM normfV gtr0_norm // ler_pdivr_mull // mulrC.
Qed.

(** If the inputs are invariant under the matrices R(g), so are the returned tensors. *)
Theorem C42_invariance_kept : forall (L : linalg C) (atol : C) m p (ts ss : seq 'rV[C]_(tdim m p)) n (R : nat -> 'M[C]_m),
  linalg_ok L -> 0 <= atol -> apply_intrinsic_symmetry L atol ts = COk ss ->
  (forall T, T \in ts -> tensor_invariant n R T) -> forall S, S \in ss -> tensor_invariant n R S.
Proof.
move=> L atol m p ts ss n R ok a0 h inv.
have nz T : T \in ts -> T != 0.
  move=> hT; apply/eqP => T0; move: h; rewrite /apply_intrinsic_symmetry.
  by rewrite (loop_zero ok a0 (loop_start atol m p)) // -T0.
have [ss' [e1 [h1 h2 h3 _ h4]]] := loop_ok ok a0 nz (loop_start atol m p).
move: h; rewrite /apply_intrinsic_symmetry e1 => -[<-] S /h2 [T [c [hT _ ->]]].
by apply: invariantZ; apply: symm_invariant; exact: inv.
Qed.

(** A zero tensor in the list makes the function divide by zero. *)
Theorem C42_zero_refuted : forall (L : linalg C) (atol : C) m p (ts : seq 'rV[C]_(tdim m p)),
  linalg_ok L -> 0 <= atol -> 0 \in ts -> apply_intrinsic_symmetry L atol ts = CWarn.
Proof. by move=> L atol m p ts ok a0; apply: (loop_zero ok a0 (loop_start atol m p)). Qed.

(** The number of tensors may be wrong, already for rank 1: of the two independent vectors
    (1, 0) and (2, 1), which are symmetric tensors, only one is kept. *)
Theorem C42_count_refuted : forall (L : linalg C) (atol : C), linalg_ok L -> 0 <= atol ->
  exists ts : seq 'rV[C]_(tdim 2 0), [/\ vectors_independent ts, size ts = 2%N, forall T, T \in ts -> tensor_symmetric T &
    forall ss, apply_intrinsic_symmetry L atol ts = COk ss -> (size ss <= 1)%N].
Proof.
move=> L atol ok a0.
pose u : 'rV[C]_2 := \row_j (eq_op j 0)%:R; pose v : 'rV[C]_2 := \row_j (if eq_op j 0 then 2%:R else 1).
exists [:: u; v].
have ind (c : nat -> C) : \sum_(a < 2) c (val a) *: nth 0 [:: u; v] a = 0 -> c 0%N = 0 /\ c 1%N = 0.
  rewrite !big_ord_recl big_ord0 /= addr0 => /matrixP h.
  have := h 0 1; rewrite !mxE mulr0 add0r mulr1 => c1.
  by have := h 0 0; rewrite !mxE c1 mul0r addr0 mulr1.
have nu : u != 0 by apply/eqP => /matrixP/(_ 0 0); rewrite !mxE => /eqP; rewrite oner_eq0.
have nv : v != 0 by apply/eqP => /matrixP/(_ 0 1); rewrite !mxE => /eqP; rewrite oner_eq0.
have sym (T : 'rV[C]_(tdim 2 0)) : tensor_symmetric T.
  move=> s x; congr (entry T _); apply/ffunP => j; rewrite ffunE; congr (x _).
  by rewrite !ord1.
split=> //.
  by move=> c /ind [h1 h2] [|[|]].
move=> ss h; rewrite leqNgt; apply/negP => sz.
have nz (T : 'rV[C]_(tdim 2 0)) : T \in [:: u; v] -> T != 0 by rewrite !inE => /orP [] /eqP ->.
have [ss' [e1 [h1 h2 _ h5 _]]] := loop_ok ok a0 nz (loop_start atol 2 0).
have ? : ss = ss' by move: h; rewrite /apply_intrinsic_symmetry e1 => -[].
subst ss'; have sy (T : 'rV[C]_(tdim 2 0)) : symm T = T.
  by rewrite symm_fixed ?scale1r //; exact: sym.
have [T0 [c0 [m0 p0 E0]]] := h2 _ (mem_nth 0 (ltnW sz)); have [T1 [c1 [m1 p1 E1]]] := h2 _ (mem_nth 0 sz).
rewrite !sy in E0 E1.
have bd (k : C) : 1 <= 4%:R * sqnorm (c1 *: (T1 - k *: T0)).
  rewrite scalerBr -E1; apply: h5 => //; case: ss sz E0 {h h1 h2 e1 E1} => [//|s0 ss'] _ /= E0.
  have -> : T0 = c0^-1 *: s0 by rewrite E0 scalerA mulVf ?scale1r // gt_eqF.
  rewrite take0 scalerA; apply: scalemx_sub; apply: scalemx_sub; by rewrite (stack_cons s0 [::]) addsmxSl.
have n1 : `|c1| ^+ 2 * sqnorm T1 = 1 by rewrite -sqnormZ -E1; apply: h1; exact: mem_nth.
have lt5 k d : sqnorm T1 = d%:R * sqnorm (T1 - k *: T0) -> (4 < d)%N -> False.
  move=> E d4; have := bd k; rewrite sqnormZ -{1}n1 E mulrCA.
  have q0 : 0 < `|c1| ^+ 2 * sqnorm (T1 - k *: T0).
    rewrite lt_def mulr_ge0 ?sqnorm_ge0 ?exprn_ge0 // andbT; apply/eqP => q0.
    by have := n1; rewrite E mulrCA q0 mulr0 => /eqP; rewrite eq_sym oner_eq0.
  by rewrite ler_pmul2r // ler_nat leqNgt d4.
have sn (a b : C) : sqnorm (\row_(j < 2) (if eq_op j 0 then a else b)) = `|a| ^+ 2 + `|b| ^+ 2.
  by rewrite /sqnorm !big_ord_recl big_ord0 !mxE addr0.
have uE : u = \row_j (if eq_op j 0 then 1 else 0) by apply/matrixP => i j; rewrite !mxE; case: (eq_op j 0).
have same : T1 = T0 -> False.
  by move=> E; have := bd 1; rewrite E scale1r subrr scaler0 sqnorm0 mulr0 ler10.
have sub (a b a' b' k : C) : (\row_(j < 2) (if eq_op j 0 then a else b)) - k *: (\row_j (if eq_op j 0 then a' else b')) =
    \row_j (if eq_op j 0 then a - k * a' else b - k * b').
  by apply/matrixP => i j; rewrite !mxE; case: (eq_op j 0).
move: m0 m1; rewrite !inE => /orP [] /eqP e0 /orP [] /eqP e1'; first by apply: same; rewrite e0 e1'.
- apply: (lt5 2%:R 5%N) => //; rewrite e0 e1' uE /v sub !sn mulr1 mulr0 subrr subr0 normr0 expr0n add0r.
  by rewrite normr1 expr1n mulr1 normr_nat -natrX -mulrSr.
- apply: (lt5 (2%:R / 5%:R) 5%N) => //; rewrite e0 e1' uE /v sub !sn mulr1 sub0r normrN.
  have -> : 1 - 2%:R / 5%:R * 2%:R = 5%:R^-1 :> C.
    by apply: (mulIf (x := 5%:R)); rewrite ?pnatr_eq0 // mulrBl mul1r mulrAC divfK ?pnatr_eq0 // mulVf ?pnatr_eq0 // -natrM -[1]/(1%:R) -natrB.
  rewrite normr0 normr1 expr1n expr0n addr0 normfV normrM normfV !normr_nat exprVn exprMn exprVn.
  by rewrite -[X in X + _]mul1r -mulrDl -(natrX _ 2 2) -mulrS mulrA -expr2 divff // expf_neq0 // pnatr_eq0.
by apply: same; rewrite e0 e1'.
Qed.
End Intrinsic.

(* ---------- The group of order two ---------- *)
Section OrderTwo.
Variable C : numClosedFieldType.
Definition z2_sign : arr C := Arr (adim := 1) [:: 1%:M; (-1)%:M].
Definition z2_irreps : seq (arr C) := [:: z2_trivial C; z2_sign].
Lemma z2_complete : complete_irreps 2 z2_mul 0 (fun _ _ => 1) (size z2_irreps) (fun k => aget (arr_nth z2_irreps k)).
Proof.
have tr1 (a : C) : \tr (a%:M : 'M[C]_1) = a by rewrite mxtrace_scalar.
apply: (complete_from_orth z2_group (z2_one_fs C)).
- move=> [|[|k]] // _; first exact: z2_trivial_rep.
  split=> // [[|[|i]]] // [|[|j]] // _ _; rewrite /aget /= ?mul1mx ?mulmx1 ?scale1r //.
  by rewrite -scalar_mxM mulrN1 opprK.
- move=> [|[|k]] // _; first exact: z2_trivial_unitary.
  move=> [|[|i]] // _; rewrite /aget /= ?adj1 ?mulmx1 //.
  by rewrite /adj map_scalar_mx tr_scalar_mx rmorphN rmorph1 -scalar_mxM mulrN1 opprK.
- move=> [|[|k]] // [|[|l]] // _ _; rewrite /icip !big_ord_recl big_ord0 /aget /= !tr1 ?rmorphN ?rmorph1 ?mulrNN ?mulr1 ?mul1r addr0 //;
  by rewrite subrr.
move=> m B m0 [B1 BB].
have [h|h] := eqVneq (icip 2 (aget (z2_trivial C)) B) 0; last by exists 0%N.
exists 1%N; split=> //; move: h.
rewrite /icip !big_ord_recl !big_ord0 /aget /= !tr1 ?rmorphN ?rmorph1 !mul1r !addr0 => /eqP; rewrite addr_eq0 B1 mxtrace1 => /eqP h.
by rewrite mulN1r -h -mulr2n mulrn_eq0 /= pnatr_eq0 -lt0n.
Qed.

(** The hypotheses of C41_from_irreps and C41_small_representation are met by the
    representation diag(1, -1). *)
Definition diag_proj : 'M[C]_2 := diag_mx (\row_j (eq_op j 0)%:R).
Example C41_hypotheses_met : exists (L : linalg C), let rep := reflection diag_proj in
  [/\ linalg_ok L, group_law 2 z2_mul 0, [/\ aorder rep = 2%N, iprojrep 2 z2_mul 0 (fun _ _ => 1) (aget rep) & iunitary 2 (aget rep)],
    (forall k, (k < size z2_irreps)%N -> aorder (arr_nth z2_irreps k) = 2%N /\ (adim (arr_nth z2_irreps k) <= 3)%N) &
    complete_irreps 2 z2_mul 0 (fun _ _ => 1) (size z2_irreps) (fun k => aget (arr_nth z2_irreps k))] /\ (adim rep <= 3)%N.
Proof.
have PP : diag_proj *m diag_proj = diag_proj.
  by rewrite mulmx_diag; congr diag_mx; apply/matrixP => i j; rewrite !mxE; case: (eq_op j 0); rewrite ?mulr1 ?mulr0.
have Ph : adj diag_proj = diag_proj.
  by apply/matrixP => [[[|[|//]] hi]] [[|[|//]] hj]; rewrite adjE !mxE /= ?mulr0n ?mulr1n ?conjC0 ?conjC1.
exists (ex_linalg C); split=> //; split.
- exact: ex_linalg_ok.
- exact: z2_group.
- by split=> //; [exact: (reflection_rep PP)|exact: (reflection_unitary PP Ph)].
- by move=> [|[|k]].
- exact: z2_complete.
Qed.

(** Without the bound on the multiplicities the tensors need not be a basis: for a
    representation of the group of order two with five independent invariant vectors, four
    are returned. *)
Theorem C41_basis_refuted : forall (L : linalg C) (around : C -> C) (rnd_int : C -> int) (atol : C),
  linalg_ok L -> (forall k : nat, around k%:R = k%:R) -> (forall k : nat, rnd_int k%:R = k) -> atol \is Num.real ->
  exists rep : arr C, [/\ aorder rep = 2%N, iprojrep 2 z2_mul 0 (fun _ _ => 1) (aget rep), iunitary 2 (aget rep) &
    forall ts, tensors_from_irreps L around rnd_int atol rep z2_irreps 1 = COk ts ->
      exists T : 'rV[C]_(tdim (adim rep) 0), tensor_invariant 2 (aget rep) T /\ ~ combination ts T].
Proof.
move=> L around rnd_int atol ok ra ri ar; exists (reflection (frame_proj C)); split=> //.
- exact: (reflection_rep (frame_PP C)).
- exact: (reflection_unitary (frame_PP C) (frame_Ph C)).
have [bs [e1 sz]] := @frame_count C L around rnd_int atol 10 ok ra ri ar isT.
move=> ts; rewrite /tensors_from_irreps /project_each /= e1 /=.
case e2: (project_to_irrep _ _ _ _ z2_sign _ _) => [cs|||] //= h.
have sts : (size ts <= 4)%N.
  move: h; rewrite cats0 /invariant_tensors filter_cat.
  rewrite (_ : [seq x <- [seq TBlock b | b <- cs] | _] = [::]); last first.
    have no : is_equivalent_irrep around (get_character z2_sign) (nseq (aorder (reflection (frame_proj C))) 1) = false.
      rewrite /is_equivalent_irrep (_ : char_sum _ _ = 0%:R) ?ra ?eqr_nat //.
      by rewrite /char_sum /= !big_cons big_nil /= !mxtrace_scalar rmorphN rmorph1 !mulr1 addr0 subrr.
    by elim: (cs) => [|c l IH] //=; rewrite no.
  rewrite cats0 => h.
  have cs_size N (l : seq (tblock C N)) us : cmap (@first_row C N) l = COk us -> size us = size l.
    elim: l us => [|t l IH] us /=; first by move=> [<-].
    case: (first_row t) => [r|||] //=; case E: (cmap _ l) => [us'|||] //= [<-]; by rewrite /= (IH _ E).
  rewrite (cs_size _ _ _ h) size_filter; apply: leq_trans (count_size _ _) _.
  by rewrite size_map (eq_leq sz).
pose P := frame_proj C.
have inv (k : 'I_20) : tensor_invariant 2 (aget (reflection P)) ((col k P)^T : 'rV[C]_(tdim 20 0)).
  move=> g gn; apply/tact_entry; rewrite /= trmxK colE mulmxA; congr (_ *m _).
  case: g gn => [|[|g]] // _; rewrite /aget /= ?mul1mx //.
  by rewrite mulmxBl mulmxDl mul1mx (frame_PP C) addrK.
have [/existsP [k hk]|] := boolP [exists k : 'I_20, ~~ (((col k P)^T : 'rV[C]_20) <= stack ts)%MS].
  by exists (col k P)^T; split; [exact: inv|move/comb_vectors; exact/negP].
rewrite negb_exists => /forallP all; exfalso.
have : (P^T <= stack ts)%MS.
  by apply/row_subP => k; rewrite -tr_col; have := all k; rewrite negbK.
move/mxrankS; rewrite mxrank_tr => h1; have := leq_trans h1 (rank_leq_row _); rewrite muln1 => h2.
have := leq_trans h2 sts; rewrite leqNgt => /negP; apply.
by rewrite -(ltr_nat C) -(idem_trace (frame_PP C)) frame_trace ltr_nat.
Qed.
End OrderTwo.

(** The hypotheses of C41_exact are met: the four rotations of 222, which act on vectors by
    their matrices. *)
Definition rotation_rep (C : numClosedFieldType) (rots : seq mat) : arr C := Arr [seq mC C r | r <- rots].
Lemma rotation_repE (C : numClosedFieldType) rots i : (i < size rots)%N -> aget (rotation_rep C rots) i = mC C (List.nth i rots mid).
Proof. by move=> h; rewrite /aget /= (nth_map mid) // nthE. Qed.
Lemma rotation_rep_law (C : numClosedFieldType) rots mul e : multiplication rots mul e ->
  iprojrep (size rots) mul e (fun _ _ => 1) (aget (rotation_rep C rots)).
Proof.
move=> M; split; first by rewrite rotation_repE ?(mt_id M); [exact: mC_id|exact: mt_e M].
by move=> i j hi hj; rewrite !rotation_repE ?(mt_lt M) // (mt_mul M) // mC_mul scale1r.
Qed.
Example C41_exact_hypotheses_met : exists L : linalg algCF, let E := ex_numpy in let rep := rotation_rep algCF p2_rots in
  [/\ linalg_ok L, numpy_ok E (Qmake 1 100000) (inject_Z Z0), lists_group p2_rots, multiplication p2_rots p2_mul 3 & spglib_ok E p2_rots] /\
  [/\ aorder rep = size p2_rots, iprojrep (size p2_rots) p2_mul 3 (fun _ _ => 1) (aget rep), iunitary (size p2_rots) (aget rep) & adim rep = 3%N].
Proof.
have [[SG _ M _ mo] _] := C27_hypotheses_met.
exists (ex_linalg algCF); split; split=> //.
- exact: ex_linalg_ok.
- by have [h1 [g1 g2 g3 g4] h3] := ex_numpy_ok; split=> //; split=> //; rewrite /qC /= mul1r invr_ge0 ler0n.
- exact: sg_rots SG.
- by case: mo => [[]//|].
- exact: rotation_rep_law.
move=> i hi; rewrite rotation_repE //.
have hin : List.In (List.nth i p2_rots mid) p2_rots by apply: List.nth_In; apply/ssrnat.ltP.
have [_ _ _ /(_ _ hin)] := C34_hypotheses_met algCF; rewrite /preserves_metric trmx1 !mulmx1 => /mulmx1C h.
by rewrite -[RHS]h; congr (_ *m _); apply: mx3P; split; rewrite adjE !mxE /= zC_nat rmorphB !rmorph_nat.
Qed.

Print Assumptions C41_from_irreps.
Print Assumptions C41_symmetry_adapted_tensors.
Print Assumptions C41_small_representation.
Print Assumptions C41_exact.
Print Assumptions C41_basis_refuted.
Print Assumptions C41_hypotheses_met.
Print Assumptions C41_exact_hypotheses_met.
Print Assumptions C42_intrinsic_symmetry.
Print Assumptions C42_invariance_kept.
Print Assumptions C42_zero_refuted.
Print Assumptions C42_count_refuted.
