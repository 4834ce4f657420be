(** Linear algebra of lists of blocks of vectors: spans, independence, Kronecker products. *)
From Coq Require List.
From mathcomp Require Import all_ssreflect all_algebra.
From mathcomp.real_closed Require Import mxtens.
From mathcomp Require Import zify.
From Verif Require Import RepSpec RepModel RepProofs ChainModel ProjModel ProjSpec ProjProofs TensorModel TensorSpec.
Import Order.TTheory GRing.Theory Num.Theory.
Set Implicit Arguments.
Unset Strict Implicit.
Unset Printing Implicit Defensive.
Local Open Scope ring_scope.

Section LinAlg.
Variable C : numClosedFieldType.

Lemma rank_sum_le N I (s : seq I) (W : I -> 'M[C]_N) :
  (\rank (\sum_(i <- s) W i)%MS <= \sum_(i <- s) \rank (W i))%N.
Proof.
elim: s => [|i s IH]; rewrite ?big_nil ?mxrank0 // !big_cons.
by apply: leq_trans (mxrank_adds_leqif _ _) _; rewrite leq_add2l.
Qed.

(** A sum of subspaces whose dimensions add up. *)
Definition direct N I (s : seq I) (W : I -> 'M[C]_N) : Prop :=
  \rank (\sum_(i <- s) W i)%MS = (\sum_(i <- s) \rank (W i))%N.
Lemma direct_cons N I i (s : seq I) (W : I -> 'M[C]_N) : direct (i :: s) W <->
  (W i :&: (\sum_(i <- s) W i)%MS = 0)%MS /\ direct s W.
Proof.
rewrite /direct !big_cons; have := mxrank_sum_cap (W i) (\sum_(i <- s) W i)%MS.
have := rank_sum_le s W.
move: (\sum_(i <- s) W i)%MS => S; move: (\sum_(i <- s) _)%N => r h1 h2; split.
  by move=> h3; split; [apply/eqP; rewrite -mxrank_eq0|]; move: h1 h2 h3; do 4!move: (\rank _); lia.
by case=> h3 h4; rewrite h3 mxrank0 in h2; move: h1 h2 h4; do 3!move: (\rank _); lia.
Qed.
Lemma sum_sub N I (s : seq I) (U W : I -> 'M[C]_N) : List.Forall (fun i => (U i <= W i)%MS) s ->
  ((\sum_(i <- s) U i)%MS <= (\sum_(i <- s) W i)%MS)%MS.
Proof. by elim=> [|i s' h _ IH]; rewrite ?big_nil // !big_cons addsmxS. Qed.
Lemma direct_sub N I (s : seq I) (U W : I -> 'M[C]_N) : List.Forall (fun i => (U i <= W i)%MS) s -> direct s W -> direct s U.
Proof.
elim=> [|i s' h hs IH]; first by rewrite /direct !big_nil mxrank0.
move/direct_cons=> [h1 h2]; apply/direct_cons; split; last exact: IH.
by have := capmxS h (sum_sub hs); rewrite h1 submx0 => /eqP.
Qed.
(** Mutually annihilating idempotents. *)
Lemma idem_direct N I i0 (s : seq I) (P : I -> 'M[C]_N) :
  (forall k l, (k < size s)%N -> (l < size s)%N -> P (nth i0 s k) *m P (nth i0 s l) = if k == l then P (nth i0 s k) else 0) ->
  direct s P.
Proof.
elim: s => [|i s IH] h; first by rewrite /direct !big_nil mxrank0.
apply/direct_cons; split; last by apply: IH => k l hk hl; exact: (h k.+1 l.+1).
have S0 : ((\sum_(j <- s) P j)%MS *m P i = 0).
  have: forall k, (k < size s)%N -> P (nth i0 s k) *m P i = 0 by move=> k hk; exact: (h k.+1 0%N).
  elim: s {IH h} => [|j s IH] h; first by rewrite big_nil mul0mx.
  apply/eqP; rewrite -submx0 big_cons addsmxMr addsmx_sub; apply/andP; split.
    by rewrite (h 0%N).
  by rewrite IH // => k hk; exact: (h k.+1).
apply/eqP; rewrite -submx0; set Z := (_ :&: _)%MS.
have /submxP [X ZX] : (Z <= P i)%MS by exact: capmxSl.
have /submxP [Y ZY] : (Z <= \sum_(j <- s) P j)%MS by exact: capmxSr.
have : Z *m P i = Z by rewrite ZX -mulmxA; have := h 0%N 0%N => /= ->.
by move=> <-; rewrite ZY -mulmxA S0 mulmx0.
Qed.

(** ** Kronecker products *)
Lemma tensDl m n p q (A A' : 'M[C]_(m, n)) (B : 'M[C]_(p, q)) : (A + A') *t B = A *t B + A' *t B.
Proof.
apply/matrixP => x y; case: (mxtens_indexP x) => i j; case: (mxtens_indexP y) => k l.
by rewrite [RHS]mxE !tensmxE !mxE mulrDl.
Qed.
Lemma tensDr m n p q (A : 'M[C]_(m, n)) (B B' : 'M[C]_(p, q)) : A *t (B + B') = A *t B + A *t B'.
Proof.
apply/matrixP => x y; case: (mxtens_indexP x) => i j; case: (mxtens_indexP y) => k l.
by rewrite [RHS]mxE !tensmxE !mxE mulrDr.
Qed.
Lemma tens_sub m n p q m' p' (A : 'M[C]_(m, n)) (B : 'M[C]_(p, q)) (A' : 'M[C]_(m', n)) (B' : 'M[C]_(p', q)) :
  (A <= A')%MS -> (B <= B')%MS -> (A *t B <= A' *t B')%MS.
Proof. by move=> /submxP [X ->] /submxP [Y ->]; rewrite -tensmx_mul; apply: submxMl. Qed.
Lemma tens_free m n p q (A : 'M[C]_(m, n)) (B : 'M[C]_(p, q)) : row_free A -> row_free B -> row_free (A *t B).
Proof.
move=> /row_freeP [A' hA] /row_freeP [B' hB]; apply/row_freeP; exists (A' *t B').
by rewrite tensmx_mul hA hB tens1.
Qed.
Lemma tens_rank m n p q (A : 'M[C]_(m, n)) (B : 'M[C]_(p, q)) : (\rank A * \rank B <= \rank (A *t B))%N.
Proof.
have <- : \rank (row_base A *t row_base B) = (\rank A * \rank B)%N.
  by apply/eqP/tens_free; apply: row_base_free.
by apply: mxrankS; apply: tens_sub; rewrite eq_row_base.
Qed.
Lemma tens_sum_l N M I (s : seq I) (U : I -> 'M[C]_N) p (B : 'M[C]_(p, M)) (S : 'M[C]_(N * M)) :
  List.Forall (fun i => (U i *t B <= S)%MS) s -> ((\sum_(i <- s) U i)%MS *t B <= S)%MS.
Proof.
elim=> [|i s' h _ IH]; first by rewrite big_nil tens0mx sub0mx.
rewrite big_cons.
have /sub_addsmxP [[x y] /= e] : (U i + \sum_(j <- s') U j <= U i + \sum_(j <- s') U j)%MS by [].
rewrite {1}e tensDl; apply: addmx_sub.
  by apply: submx_trans h; apply: tens_sub; rewrite ?submxMl.
by apply: submx_trans IH; apply: tens_sub; rewrite ?submxMl.
Qed.
Lemma tens_sum_r N M I (s : seq I) p (A : 'M[C]_(p, N)) (U : I -> 'M[C]_M) (S : 'M[C]_(N * M)) :
  List.Forall (fun i => (A *t U i <= S)%MS) s -> (A *t (\sum_(i <- s) U i)%MS <= S)%MS.
Proof.
elim=> [|i s' h _ IH]; first by rewrite big_nil tensmx0 sub0mx.
rewrite big_cons.
have /sub_addsmxP [[x y] /= e] : (U i + \sum_(j <- s') U j <= U i + \sum_(j <- s') U j)%MS by [].
rewrite {1}e tensDr; apply: addmx_sub.
  by apply: submx_trans h; apply: tens_sub; rewrite ?submxMl.
by apply: submx_trans IH; apply: tens_sub; rewrite ?submxMl.
Qed.
End LinAlg.

(** ** Lists of blocks *)
Section Blocks.
Variable C : numClosedFieldType.
Variable N : nat.
Implicit Types (t : tblock C N) (ts : seq (tblock C N)).

Definition spc t : 'M[C]_N := <<tb_basis t>>%MS.
Definition span ts : 'M[C]_N := (\sum_(t <- ts) spc t)%MS.
Definition dims ts : nat := (\sum_(t <- ts) adim (tb_irrep t))%N.
Definition indep ts : Prop := \rank (span ts) = dims ts.

Lemma span_cat ts us : span (ts ++ us) = (span ts + span us)%MS.
Proof. exact: big_cat. Qed.
Lemma dims_cat ts us : dims (ts ++ us) = (dims ts + dims us)%N.
Proof. exact: big_cat. Qed.
Lemma span_le ts : (\rank (span ts) <= dims ts)%N.
Proof.
apply: leq_trans (rank_sum_le _ _) _; rewrite /dims; elim: ts => [|t ts IH]; rewrite ?big_nil // !big_cons.
by rewrite leq_add // mxrank_gen rank_leq_row.
Qed.
Lemma indep_free ts : indep ts -> List.Forall (fun t => row_free (tb_basis t)) ts /\ direct ts spc.
Proof.
elim: ts => [|t ts IH] h; first by split=> //; rewrite /direct !big_nil mxrank0.
have h1 := span_le ts; have h2 := mxrank_sum_cap (spc t) (span ts).
have h3 : (\rank (spc t) <= adim (tb_irrep t))%N by rewrite mxrank_gen rank_leq_row.
move: h; rewrite /indep /span /dims !big_cons -/(span ts) -/(dims ts) => h.
have [e1 e2 e3] : [/\ \rank (spc t) = adim (tb_irrep t), indep ts & \rank (spc t :&: span ts)%MS = 0%N].
  by rewrite /indep; move: h h1 h2 h3; do 4!move: (\rank _); move: (dims ts) (adim _) => a b c d x y *; split; lia.
have [f1 f2] := IH e2; split.
  by constructor=> //; rewrite /row_free -{1}(mxrank_gen (tb_basis t)) [X in X == _]e1.
by apply/direct_cons; split=> //; apply/eqP; rewrite -mxrank_eq0 e3.
Qed.
Lemma free_indep ts : List.Forall (fun t => row_free (tb_basis t)) ts -> direct ts spc -> indep ts.
Proof.
rewrite /indep /direct /span => h ->; elim: h => [|t us h1 _ IH]; rewrite /dims ?big_nil // !big_cons.
by congr (_ + _)%N => //; rewrite mxrank_gen; apply/eqP.
Qed.

(** Sublists and concatenations. *)
Lemma span_filter (a : pred (tblock C N)) ts : (span (filter a ts) <= span ts)%MS.
Proof.
rewrite /span; elim: ts => [|t ts IH] //=; rewrite big_cons; case: (a t); rewrite ?big_cons.
  exact: addsmxS.
by apply: submx_trans IH _; apply: addsmxSr.
Qed.
Lemma indep_filter (a : pred (tblock C N)) ts : indep ts -> indep (filter a ts).
Proof.
move=> /indep_free [h1 h2]; apply: free_indep.
  by elim: h1 => [|t us h _ IH] //=; case: (a t) => //; constructor.
elim: ts {h1} h2 => [|t ts IH] //= /direct_cons [h1 h2].
case: (a t); last exact: IH.
apply/direct_cons; split; last exact: IH.
by have := capmxS (submx_refl (spc t)) (span_filter a ts); rewrite [X in (_ <= X)%MS]h1 submx0 => /eqP.
Qed.
Lemma indep_flatten I (W : I -> 'M[C]_N) s fs :
  List.Forall2 (fun i f => (span f <= W i)%MS /\ indep f) s fs -> direct s W -> indep (flatten fs).
Proof.
suff H : List.Forall2 (fun i f => (span f <= W i)%MS /\ indep f) s fs -> direct s W ->
    indep (flatten fs) /\ (span (flatten fs) <= \sum_(i <- s) W i)%MS by move=> h1 h2; have [] := H h1 h2.
elim=> [|i f s' fs' [h1 h2] _ IH]; first by rewrite /indep /span /dims /= !big_nil mxrank0.
move/direct_cons=> [c d]; have [i1 i2] := IH d; split; last first.
  by rewrite /= span_cat big_cons addsmxS.
rewrite /indep /= span_cat dims_cat -i1 -h2.
have := mxrank_sum_cap (span f) (span (flatten fs')).
have -> : (span f :&: span (flatten fs') = 0)%MS.
  by have := capmxS h1 i2; rewrite c submx0 => /eqP.
by rewrite mxrank0 addn0.
Qed.
Lemma dims_flatten fs : dims (flatten fs) = (\sum_(f <- fs) dims f)%N.
Proof. by elim: fs => [|f fs IH] /=; rewrite ?big_nil ?big_cons ?dims_cat ?IH // /dims big_nil. Qed.

(** A linear map which keeps some of the blocks and kills the others. *)
Lemma span_select (a : pred (tblock C N)) (M : 'M[C]_N) ts :
  List.Forall (fun t => tb_basis t *m M = if a t then tb_basis t else 0) ts ->
  (span ts *m M <= span (filter a ts))%MS.
Proof.
rewrite /span; elim=> [|t us h _ IH]; first by rewrite big_nil mul0mx sub0mx.
rewrite big_cons addsmxMr addsmx_sub /=; apply/andP; split.
  have e : (spc t *m M <= tb_basis t *m M)%MS by apply: submxMr; rewrite genmxE.
  apply: submx_trans e _; rewrite h; case: (a t); last exact: sub0mx.
  by rewrite big_cons; apply: submx_trans (addsmxSl _ _); rewrite genmxE.
by case: (a t) => //; rewrite big_cons; apply: submx_trans IH _; apply: addsmxSr.
Qed.
End Blocks.

(** ** Lists of blocks of one size, lists of vectors *)
Section Lists.
Variable C : numClosedFieldType.
Variables (N : nat).

Lemma stack_coeff d (bs : seq 'M[C]_(d, N)) (x : 'rV[C]_(size bs * d)) : exists c : nat -> 'rV[C]_d,
  x *m stack bs = \sum_(a < size bs) c a *m nth 0 bs a /\ ((forall a, (a < size bs)%N -> c a = 0) -> x = 0).
Proof.
elim: bs x => [|b bs IH] x.
  by exists (fun=> 0); rewrite big_ord0 mulmx0; split=> // _; apply/matrixP => i [].
have [c [h1 h2]] := IH (rsubmx (x : 'rV_(d + size bs * d))).
exists (fun a => if a is a'.+1 then c a' else lsubmx (x : 'rV_(d + size bs * d))).
rewrite big_ord_recl /= -h1; split.
  by rewrite -{1}(hsubmxK (x : 'rV_(d + size bs * d))) mul_row_col.
move=> z; rewrite -(hsubmxK (x : 'rV_(d + size bs * d))) (z 0%N) // h2 ?row_mx0 //.
by move=> a ha; exact: (z a.+1).
Qed.
Lemma independent_stack d (bs : seq 'M[C]_(d, N)) : independent bs -> row_free (stack bs).
Proof.
move=> ind; rewrite -kermx_eq0; apply/eqP/row_matrixP => i; rewrite row0.
have [c [h1 h2]] := stack_coeff (row i (kermx (stack bs))).
by apply: h2; apply: ind; rewrite -h1 -row_mul mulmx_ker row0.
Qed.
Lemma span_stack (A : arr C) (bs : seq 'M[C]_(adim A, N)) : (span [seq TBlock b | b <- bs] :=: stack bs)%MS.
Proof.
elim: bs => [|b bs IH]; first by rewrite /span big_nil; apply: eqmx_sym; apply: eqmx0.
rewrite /span map_cons big_cons -/(span _).
apply: eqmx_trans (eqmx_sym (stack_cons _ _)).
by apply: adds_eqmx => //; apply: genmxE.
Qed.
Lemma dims_blocks (A : arr C) (bs : seq 'M[C]_(adim A, N)) : dims [seq TBlock b | b <- bs] = (size bs * adim A)%N.
Proof. by rewrite /dims big_map big_const_seq count_predT iter_addn_0 mulnC. Qed.
Lemma indep_blocks (A : arr C) (bs : seq 'M[C]_(adim A, N)) : independent bs -> indep [seq TBlock b | b <- bs].
Proof. by move/independent_stack/eqP => h; rewrite /indep dims_blocks (span_stack bs). Qed.

(** Vectors. *)
Lemma vectors_ind (vs : seq 'rV[C]_N) : row_free (stack vs) -> vectors_independent vs.
Proof.
move=> /stack_independent ind c h a ha; have := ind (fun a => (c a)%:M) _ a ha.
have -> : \sum_(a < size vs) (c a)%:M *m nth 0 vs a = 0 by rewrite -[RHS]h; apply: eq_bigr => i _; rewrite mul_scalar_mx.
by move=> /(_ erefl) /matrixP /(_ 0 0); rewrite !mxE eqxx mulr1n.
Qed.
Lemma vectors_comb (vs : seq 'rV[C]_N) v : (v <= stack vs)%MS -> combination vs v.
Proof.
move=> /submxP [x ->]; have [c [-> _]] := stack_coeff x; exists (fun a => c a 0 0).
by apply: eq_bigr => i _; rewrite {1}(mx11_scalar (c i)) mul_scalar_mx.
Qed.
Lemma nth_stack (vs : seq 'rV[C]_N) a : (a < size vs)%N -> (nth 0 vs a <= stack vs)%MS.
Proof.
elim: vs a => [//|v vs IH] [_|a /IH h]; first by rewrite (stack_cons v vs) addsmxSl.
by rewrite (stack_cons v vs); apply: submx_trans h (addsmxSr _ _).
Qed.
Lemma comb_vectors (vs : seq 'rV[C]_N) v : combination vs v -> (v <= stack vs)%MS.
Proof. by move=> [c ->]; apply: summx_sub => a _; apply: scalemx_sub; apply: nth_stack. Qed.
End Lists.
