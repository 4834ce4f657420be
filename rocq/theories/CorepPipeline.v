(** Proofs about CorepModel: the steps of enumerate_spinor_small_corepresentations for a factor
    system of signs. *)
From Coq Require Import QArith ZArith List String.
From mathcomp Require Import all_ssreflect all_algebra all_fingroup.
From Verif Require Import Py Mat3 MatQ GroupModel GroupSpec GroupProofs RepSpec RepModel RepTheory RepProofs Mx2 IndexRepSpec IndexGroup
  CExpSpec ChainModel ChainTheory SmallModel SmallSpec SmallTheory SpinorModel SpinorSpec SpinorTheory SpinorProofs SpinorConv CorepModel CorepSpec CorepProofs
  CorepTheory CorepKinds CorepBridge.
Import Order.TTheory GRing.Theory Num.Theory.
Set Implicit Arguments.
Unset Strict Implicit.
Unset Printing Implicit Defensive.
Local Open Scope ring_scope.


Section Pipeline.
Variables (rots : list mat) (flags : list bool) (mul : nat -> nat -> nat) (e : nat).
Hypotheses (LE : size flags = size rots) (LG : lists_magnetic_group (combine rots flags)) (M : mag_multiplication (combine rots flags) mul e).
Local Notation n := (size rots).
Local Notation anti := (anti flags).
Local Notation xsg := (linear_ops rots flags).
Local Notation H := (linear_subgroup LE LG M).
Let Gl := lin_group_law LE LG M.
Local Notation gT := (igT Gl).
Local Notation v := (@ival _ _ _ Gl).
Variables (C : numClosedFieldType) (wi : nat -> nat -> bool) (mu : nat -> nat -> C) (t : table) (a0 inv_a0 : nat).
Hypothesis muE : forall i j, (i < n)%N -> (j < n)%N -> mu i j = (-1) ^+ wi i j.
Hypothesis wic : forall i j k, (i < n)%N -> (j < n)%N -> (k < n)%N -> wi i (mul j k) (+) wi j k = wi (mul i j) k (+) wi i j.
Hypothesis wie : wi e e = false.
Hypothesis tE : forall i j, (i < n)%N -> (j < n)%N -> tget t i j = mul i j.
Hypotheses (a0n : (a0 < n)%N) (aa0 : anti a0) (in0 : (inv_a0 < n)%N) (inv0 : mul inv_a0 a0 = e).
Local Notation w := (w (LE := LE) (LG := LG) (M := M) wi).
Lemma wc (x y z : gT) : w x (y * z)%g (+) w y z = w (x * y)%g z (+) w x y.
Proof. by rewrite /w !ivalM wic ?ival_lt. Qed.
Lemma w1 : w 1%g 1%g = false. Proof. by rewrite /w ival1. Qed.
Definition ga : gT := Ordinal a0n : gT.
Lemma v_ga : v ga = a0. Proof. by []. Qed.
Lemma v_inv : v ga^-1%g = inv_a0.
Proof.
have [y hy] : exists y : gT, v y = inv_a0 by apply: ival_surj.
have h : (y * ga = 1)%g by apply: ival_inj; rewrite ivalM hy v_ga inv0.
by rewrite -hy; congr v; apply: (mulIg ga); rewrite h mulVg.
Qed.
Lemma gaH : ga \notin H. Proof. by rewrite in_linear v_ga aa0. Qed.
Lemma v_conj (x : gT) : v (x ^ ga)%g = mul inv_a0 (mul (v x) a0).
Proof. by rewrite conjgE !ivalM v_inv. Qed.
Lemma lt_xsg i : i \in xsg -> (i < n)%N. Proof. by rewrite mem_linear => /andP []. Qed.
Lemma conj_index u : u \in xsg -> tget t inv_a0 (tget t u a0) = mul inv_a0 (mul u a0) /\ mul inv_a0 (mul u a0) \in xsg.
Proof.
move=> hu; have [x hx ex] := xsg_elt LE LG M hu.
rewrite tE ?tE ?(lin_mulN LE M) ?(lt_xsg hu) //; split=> //.
by rewrite -ex -v_conj (in_xsg (LE := LE) (LG := LG) (M := M)) (cuH (linear_half (LE := LE) (LG := LG) (M := M)) gaH).
Qed.
Local Notation ci u := (mul inv_a0 (mul u a0)).
Definition conj_mats (A : arr C) : seq 'M[C]_(adim A) :=
  [seq (mu u a0 / mu a0 (ci u)) *: conj_mx (aget A (index (ci u) xsg)) | u <- xsg].
Lemma conjugated_ok (A : arr C) : conjugated_irrep t mu xsg a0 inv_a0 A = COk (conj_mats A).
Proof.
by apply: cmap_ok => u hu; have [-> h] := conj_index hu; rewrite /xsg_position h.
Qed.
Lemma size_conj_mats A : size (conj_mats A) = size xsg. Proof. by rewrite size_map. Qed.
Local Notation lft A := (lift (LE := LE) (LG := LG) (M := M) (aget A)).
Lemma conj_matsE (A : arr C) x : x \in H -> nth 0 (conj_mats A) (index (v x) xsg) = conjrep w ga (lft A) x.
Proof.
move=> hx; have hv : v x \in xsg by rewrite (in_xsg (LE := LE) (LG := LG) (M := M)).
rewrite (nth_map 0%N) ?index_mem // nth_index // /conjrep /f /lift /w v_conj v_ga !muE ?(lin_mulN LE M) ?ival_lt //.
by rewrite sgC_inv sgC_add.
Qed.
(** The products with a0. *)
Definition a0_ops : seq nat := [seq mul a0 u | u <- xsg].
Lemma a0u_ok : [seq tget t a0 u | u <- xsg] = a0_ops.
Proof. by apply/eq_in_map => u /lt_xsg hu; rewrite tE. Qed.
Lemma a0_mulI i j : (i < n)%N -> (j < n)%N -> mul a0 i = mul a0 j -> i = j.
Proof.
move=> hi hj; have [x <-] := ival_surj Gl hi; have [y <-] := ival_surj Gl hj.
by rewrite -v_ga -!ivalM => /ival_inj /mulgI ->.
Qed.
Lemma uniq_a0 : uniq a0_ops.
Proof.
rewrite map_inj_in_uniq ?uniq_linear // => i j /lt_xsg hi /lt_xsg hj; exact: a0_mulI.
Qed.
Lemma a0_lt i : i \in a0_ops -> (i < n)%N.
Proof. by move=> /mapP [u /lt_xsg hu ->]; rewrite (lin_mulN LE M). Qed.
Lemma a0_disj i : i \in a0_ops -> i \notin xsg.
Proof.
move=> /mapP [u hu ->]; have := hu; rewrite !mem_linear => /andP [h /negbTE a].
by rewrite (lin_mulN LE M) //=; have [_ ->] := lin_mulE LE M a0n h; rewrite aa0 a.
Qed.
Lemma size_a0 : size a0_ops = size xsg. Proof. by rewrite size_map. Qed.
Lemma nth_a0 p : (p < size xsg)%N -> nth 0%N a0_ops p = mul a0 (nth 0%N xsg p).
Proof. by move=> hp; rewrite (nth_map 0%N). Qed.
Lemma sq_in i : i \in a0_ops -> mul i i \in xsg.
Proof.
move=> hi; have h := a0_lt hi; rewrite mem_linear (lin_mulN LE M) //=; have [_ ->] := lin_mulE LE M h h.
by case: (anti i).
Qed.
Definition sq_ops : seq nat := [seq index (mul i i) xsg | i <- a0_ops].
Lemma squares_ok : cmap (fun x => xsg_position xsg (tget t x x)) a0_ops = COk sq_ops.
Proof.
by apply: cmap_ok => i hi; rewrite tE ?a0_lt // /xsg_position sq_in.
Qed.
(** The sum of the indicator. *)
Lemma sum_ok (A : arr C) : aorder A = size xsg ->
  corep_indicator_sum mu a0_ops sq_ops (get_character A) = total H w ga (lft A).
Proof.
move=> oA; rewrite /corep_indicator_sum /sq_ops /total.
have -> : zip a0_ops [seq index (mul i i) xsg | i <- a0_ops] = [seq (i, index (mul i i) xsg) | i <- a0_ops].
  by elim: a0_ops => //= x l ->.
rewrite big_map /= /a0_ops big_map (big_linear LE LG M); apply: eq_bigr => x hx.
have hv : mul a0 (v x) \in a0_ops by apply: map_f; rewrite (in_xsg (LE := LE) (LG := LG) (M := M)).
rewrite muE ?a0_lt // /w !ivalM v_ga /get_character /get_character_mats (nth_map 0); last by rewrite -/(aorder A) oA index_mem sq_in.
by rewrite /lift !ivalM v_ga.
Qed.
(** The filled arrays. *)
Section Fill.
Variables (m : nat) (K : 'M[C]_m) (lin : seq 'M[C]_m).
Hypothesis sl : size lin = size xsg.
Local Notation F := (fill_corep n mu xsg a0_ops a0 K lin).
Lemma made_order : aorder F = n.
Proof. apply: fill_order => [i|i]; [exact: lt_xsg|exact: a0_lt]. Qed.
Lemma made_linear u : u \in xsg -> aget F u = nth 0 lin (index u xsg).
Proof. by apply: fill_linear; [exact: uniq_linear|exact: sl|exact: a0_disj]. Qed.
Lemma made_anti u : u \in xsg -> aget F (mul a0 u) = mu a0 u *: (K *m aget F u).
Proof.
move=> hu; have hp : (index u xsg < size xsg)%N by rewrite index_mem.
have : aget F (nth 0%N a0_ops (index u xsg)) = ((mu a0 (nth 0%N xsg (index u xsg)))^* *: K) *m nth 0 lin (index u xsg).
  by apply: fill_anti => //; [exact: uniq_a0|exact: size_a0].
rewrite nth_a0 // nth_index // => ->.
rewrite made_linear // -scalemxAl; congr (_ *: _).
by rewrite (muE a0n (lt_xsg hu)) sgC_conj.
Qed.
End Fill.

Variables (E : numpy C) (eps : C) (max_num : nat).
Definition dbl (A : arr C) : seq 'M[C]_(adim A + adim A) := [seq block_mx x.1 0 0 x.2 | x <- zip (amats A) (conj_mats A)].
Lemma size_dbl A : aorder A = size xsg -> size (dbl A) = size xsg.
Proof. by move=> oA; rewrite size_map size_zip size_conj_mats -/(aorder A) oA minnn. Qed.
Lemma nth_dbl A p : aorder A = size xsg -> (p < size xsg)%N -> nth 0 (dbl A) p = block_mx (aget A p) 0 0 (nth 0 (conj_mats A) p).
Proof.
move=> oA hp; rewrite (nth_map (0, 0)) ?size_zip ?size_conj_mats -/(aorder A) ?oA ?minnn //.
by rewrite nth_zip // size_conj_mats -/(aorder A).
Qed.
Local Notation inter A := (get_intertwiner_mats (np_powinv E) (np_rnd E) eps max_num (amats A) (conj_mats A)).
Definition made (ind : int) (A : arr C) (x : arr C * bool) : Prop :=
  [\/ ind = 1 /\ exists2 U, x.1 = fill_corep n mu xsg a0_ops a0 U (amats A) & x.2 -> inter A = Some U,
      ind = -1 /\ exists2 U, x.1 = fill_corep n mu xsg a0_ops a0 (block_mx 0 (- U) U 0) (dbl A) & x.2 -> inter A = Some U |
      ind = 0 /\ x.1 = fill_corep n mu xsg a0_ops a0 (block_mx 0 (mu a0 a0 *: aget A (index (mul a0 a0) xsg)) 1%:M 0) (dbl A)].
Lemma make_ok ind A x : make_corep E n t mu xsg a0_ops a0 eps max_num ind (conj_mats A) = COk x -> made ind A x.
Proof.
rewrite /make_corep -/(dbl A); case: (eqVneq ind 1) => [->|n1] /=.
  case: ifP => // _; case EU: get_intertwiner_mats => [U|] [<-] /=; apply: Or31; split=> //; eexists; by [reflexivity|].
case: (eqVneq ind (-1)) => [->|n2] /=.
  by case: ifP => // _; case EU: get_intertwiner_mats => [U|] [<-] /=; apply: Or32; split=> //; eexists; by [reflexivity|].
case: (eqVneq ind 0) => [->|//].
have a00 : mul a0 a0 \in xsg.
  by rewrite mem_linear (lin_mulN LE M) //=; have [_ ->] := lin_mulE LE M a0n a0n; rewrite aa0.
by rewrite tE // /xsg_position a00 /= => -[<-]; apply: Or33.
Qed.
Lemma pairs_sound chars conj_chars todo vis l :
  corep_pairs E mu a0_ops sq_ops (size xsg) chars conj_chars todo vis = COk l ->
  forall x, x \in l -> x.2 \in todo /\ np_int E (corep_indicator_sum mu a0_ops sq_ops (nth [::] chars x.2)) = x.1 * (size xsg)%:Z.
Proof.
elim: todo vis l => [|i todo IH] vis l /=; first by case=> <-.
case: ifP => _; first by move=> /IH h x hx; have [h1 h2] := h x hx; rewrite inE h1 orbT.
case: ifP => // /negbFE /eqP m0; have dv : np_int E (corep_indicator_sum mu a0_ops sq_ops (nth [::] chars i)) =
    (np_int E (corep_indicator_sum mu a0_ops sq_ops (nth [::] chars i)) %/ (size xsg)%:Z)%Z * (size xsg)%:Z.
  by rewrite {1}[np_int _ _](divz_eq _ (size xsg)%:Z) m0 addr0.
have step vis' l' : corep_pairs E mu a0_ops sq_ops (size xsg) chars conj_chars todo vis' = COk l' ->
  forall x, x \in (np_int E (corep_indicator_sum mu a0_ops sq_ops (nth [::] chars i)) %/ (size xsg)%:Z, i)%Z :: l' ->
  x.2 \in i :: todo /\ np_int E (corep_indicator_sum mu a0_ops sq_ops (nth [::] chars x.2)) = x.1 * (size xsg)%:Z.
  move=> h x; rewrite inE => /orP [/eqP ->|hx]; first by rewrite mem_head.
  by have [h1 h2] := IH _ _ h x hx; rewrite inE h1 orbT.
case: ifP => _.
  by case EP: corep_pairs => [l'| | |] //= [<-]; apply: step EP.
case: ifP => // _; by case EP: corep_pairs => [l'| | |] //= [<-]; apply: step EP.
Qed.
(** Exact irreps. *)
Hypothesis eps0 : 0 <= eps.
Hypothesis powP : forall (z : C) m, (0 < m)%N -> np_powinv E z m ^+ m = z.
Section Exact.
Variable A : arr C.
Local Notation D := (lft A).
Hypothesis oA : aorder A = size xsg.
Hypotheses (pD : projrep (mus (LE := LE) (LG := LG) (M := M) C wi) H D) (uD : unirep H D) (iD : irreducible H D).
Local Notation half := (linear_half (LE := LE) (LG := LG) (M := M)).
Lemma isum_avg R : intertwiner_sum (amats A) (conj_mats A) R = avg H D (conjrep w ga D) R.
Proof.
rewrite /intertwiner_sum /avg (big_nth (0, 0)) size_zip size_conj_mats -/(aorder A) oA minnn.
have -> : \sum_(0 <= p < size xsg) (nth (0, 0) (zip (amats A) (conj_mats A)) p).1 *m R *m adj (nth (0, 0) (zip (amats A) (conj_mats A)) p).2 =
    \sum_(i <- xsg) aget A (index i xsg) *m R *m adj (nth 0 (conj_mats A) (index i xsg)).
  rewrite [RHS](big_nth 0%N) !big_mkord; apply: eq_bigr => p _.
  by rewrite nth_zip ?size_conj_mats -/(aorder A) // index_uniq ?uniq_linear.
rewrite (big_linear LE LG M); apply: eq_bigr => x hx; by rewrite conj_matsE.
Qed.
Lemma found_ok U : inter A = Some U -> intertwines H w ga D U /\ U *m adj U = 1%:M.
Proof.
move=> /search_Some [j [_ nz ->]]; set S := intertwiner_sum _ _ _ in nz *.
have fs := sign_fs C wc w1; have N := irreducible_norm1 fs pD uD iD.
have pB := conjrep_rep wc w1 half gaH pD; have uB := conjrep_uni w half gaH uD.
have hS u : u \in H -> D u *m S = S *m conjrep w ga D u by move=> hu; rewrite /S isum_avg; apply: (avg_intertwines fs) hu.
split=> [u hu|]; first by rewrite -scalemxAr hS // -scalemxAl.
have S0 : S != 0.
  by apply: contraNneq nz => ->; apply/forallP => x; apply/forallP => y; rewrite mxE normr0.
have d0 := iD.1; case: (intertwiner_scalar fs pD uD N pB uB (conj_norm wc w1 half ga pD uD iD) hS) => [z|[a [a0' h _]]]; first by rewrite z eqxx in S0.
set c := np_powinv E _ _; have dd : \det S * (\det S)^* = a ^+ adim A.
  by rewrite -det_map_mx -[\det (map_mx _ S)]det_tr -det_mulmx -/(adj S) h det_scalar.
have cP : c ^+ adim A = \det S by exact: powP.
have cc : c * c^* = a.
  apply: (@pexpIrn _ (adim A)) => //; rewrite ?nnegrE ?mul_conjC_ge0 ?ltW //.
  by rewrite exprMn -rmorphX cP.
rewrite adjZ -scalemxAl -scalemxAr scalerA h fmorphV -invfM cc scale_scalar_mx mulVf //.
by rewrite gt_eqF.
Qed.
Lemma conj_dbl x : x \in H -> nth 0 (dbl A) (index (v x) xsg) = doubled w ga D x.
Proof.
by move=> hx; rewrite nth_dbl ?index_mem ?(in_xsg (LE := LE) (LG := LG) (M := M)) // conj_matsE.
Qed.
End Exact.
End Pipeline.
