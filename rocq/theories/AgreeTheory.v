(** Two full lists of irreducible representations with the same factor system agree up to
    order and equivalence; change of factor system by phases, by complex conjugation and by
    renumbering the group elements. *)
From mathcomp Require Import all_ssreflect all_algebra all_fingroup.
From Verif Require Import GroupSpec RepSpec RepTheory IsoTheory IndexRepSpec IndexGroup GaugeTheory RealOutcome.
Import Order.TTheory GRing.Theory Num.Theory.
Set Implicit Arguments.
Unset Strict Implicit.
Unset Printing Implicit Defensive.
Local Open Scope ring_scope.

Section Unique.
Variables (C : numClosedFieldType) (n : nat) (mul : nat -> nat -> nat) (e : nat) (mu : nat -> nat -> C).

Lemma iequivalent_trans d1 d2 d3 (A : nat -> 'M[C]_d1) (B : nat -> 'M[C]_d2) (F : nat -> 'M[C]_d3) :
  iequivalent n A B -> iequivalent n B F -> iequivalent n A F.
Proof.
case=> T [T' [a1 a2 a3]] [S [S' [b1 b2 b3]]]; exists (T *m S), (S' *m T'); split.
- by rewrite mulmxA -(mulmxA T) b1 mulmx1.
- by rewrite mulmxA -(mulmxA S') a2 mulmx1.
by move=> i hi; rewrite mulmxA a3 // -!mulmxA b3.
Qed.
Lemma iequivalent_dim d1 d2 (A : nat -> 'M[C]_d1) (B : nat -> 'M[C]_d2) : iequivalent n A B -> d1 = d2.
Proof.
case=> T [T' [h1 h2 _]]; apply/eqP; rewrite -(eqr_nat C).
by rewrite -(mxtrace1 C d1) -(mxtrace1 C d2) -h1 -h2 mxtrace_mulC.
Qed.

Lemma complete_match N dim (D : forall k, nat -> 'M[C]_(dim k)) N' dim' (D' : forall k, nat -> 'M[C]_(dim' k)) :
  complete_irreps n mul e mu N D -> complete_irreps n mul e mu N' D' ->
  exists s : nat -> nat, (forall k, (k < N)%N -> (s k < N')%N /\ iequivalent n (D k) (D' (s k))) /\
    forall k l, (k < N)%N -> (l < N)%N -> s k = s l -> k = l.
Proof.
move=> cD cD'.
have ex (k : 'I_N) : exists m : 'I_N', iequivalent n (D' m) (D k).
  have [m [mN eq _]] := ci_complete cD' (ci_rep cD (ltn_ord k)) (ci_irreducible cD (ltn_ord k)).
  by exists (Ordinal mN).
have [f hf] := fin_all_exists ex.
exists (fun k => if insub k is Some i then (f i : nat) else 0%N); split=> [k kN|k l kN lN].
  by rewrite insubT; split=> //; apply: iequivalent_sym; exact: (hf (Ordinal kN)).
rewrite !insubT => /= /val_inj E; case: (k =P l) => // kl; case: (ci_inequivalent cD kN lN kl).
have h1 := hf (Ordinal kN); have h2 := hf (Ordinal lN); rewrite E in h1.
exact: iequivalent_trans (iequivalent_sym h1) h2.
Qed.
Lemma inj_le N N' (s : nat -> nat) : (forall k, (k < N)%N -> (s k < N')%N) ->
  (forall k l, (k < N)%N -> (l < N)%N -> s k = s l -> k = l) -> (N <= N')%N.
Proof.
move=> sN inj; rewrite -(size_iota 0 N) -(size_map s) -[X in (_ <= X)%N](size_iota 0 N').
apply: uniq_leq_size.
  by rewrite map_inj_in_uniq ?iota_uniq // => k l; rewrite !mem_iota !add0n /=; apply: inj.
by move=> x /mapP [k]; rewrite !mem_iota !add0n /= => kN ->; apply: sN.
Qed.
Lemma complete_size N dim (D : forall k, nat -> 'M[C]_(dim k)) N' dim' (D' : forall k, nat -> 'M[C]_(dim' k)) :
  complete_irreps n mul e mu N D -> complete_irreps n mul e mu N' D' -> N = N'.
Proof.
move=> cD cD'; apply/eqP; rewrite eqn_leq; apply/andP; split.
  by have [s [h1 h2]] := complete_match cD cD'; apply: (@inj_le _ _ s) => // k /h1 [].
by have [s [h1 h2]] := complete_match cD' cD; apply: (@inj_le _ _ s) => // k /h1 [].
Qed.
End Unique.

(** ** Complex conjugation *)
Section Conj.
Variables (C : numClosedFieldType) (n : nat) (mul : nat -> nat -> nat) (e : nat) (mu nu : nat -> nat -> C).
Hypothesis nuE : forall i j, (i < n)%N -> (j < n)%N -> nu i j = (mu i j)^*.
Local Notation cjx := (map_mx (@conjC C)).

Lemma conj_rep d (D : nat -> 'M[C]_d) : iprojrep n mul e mu D -> iprojrep n mul e nu (fun g => cjx (D g)).
Proof.
case=> h1 h2; split=> [|i j hi hj]; first by rewrite h1 map_mx1.
by rewrite -map_mxM h2 // map_mxZ nuE.
Qed.
End Conj.
Section ConjComplete.
Variables (C : numClosedFieldType) (n : nat) (mul : nat -> nat -> nat) (e : nat) (mu nu : nat -> nat -> C).
Hypothesis nuE : forall i j, (i < n)%N -> (j < n)%N -> nu i j = (mu i j)^*.
Local Notation cjx := (map_mx (@conjC C)).
Lemma conj_complete N dim (D : forall k, nat -> 'M[C]_(dim k)) :
  complete_irreps n mul e mu N D -> complete_irreps n mul e nu N (fun k i => cjx (D k i)).
Proof.
have cc d (F : nat -> 'M[C]_d) i : cjx (cjx (F i)) = F i by exact: cjxK.
have eqc d1 d2 (A : nat -> 'M[C]_d1) (B : nat -> 'M[C]_d2) :
    iequivalent n (fun i => cjx (A i)) B -> iequivalent n A (fun i => cjx (B i)).
  by move/iequivalent_conj => [T [T' [h1 h2 h3]]]; exists T, T'; split=> // i hi; rewrite -h3 // cc.
case=> h1 h2 h3 h4 h5 h6 h7; split=> //.
- by move=> k kN; apply: (conj_rep nuE); exact: h1.
- by move=> k kN; apply: conj_iunitary; exact: h2.
- by move=> k kN; apply: conj_iirreducible; exact: h3.
- move=> k l kN lN kl /eqc [T [T' [e1 e2 e3]]]; apply: (h4 k l kN lN kl); exists T, T'.
  by split=> // i hi; rewrite e3 // cc.
- move=> k l kN lN; rewrite -[LHS]conjCK; have -> : (icip n (fun i => cjx (D k i)) (fun i => cjx (D l i)))^* = icip n (D k) (D l).
    rewrite /icip rmorph_sum; apply: eq_bigr => i _; rewrite rmorphM /= !trace_map_mx conjCK.
    by rewrite conjCK.
  by rewrite h5 //; case: eqP => _; rewrite ?conjC_nat ?conjC0.
move=> d F pF iF.
have muE i j : (i < n)%N -> (j < n)%N -> mu i j = (nu i j)^* by move=> hi hj; rewrite nuE // conjCK.
have [k [kN eq uq]] := h6 d (fun i => cjx (F i)) (conj_rep muE pF) (conj_iirreducible iF).
exists k; split=> //.
  by have [T [T' [e1 e2 e3]]] := iequivalent_conj eq; exists T, T'; split=> // i hi; rewrite e3 // cc.
by move=> l lN /eqc h; apply: uq.
Qed.
End ConjComplete.

(** ** Renumbering *)
Section Relabel.
Variables (C : numClosedFieldType) (n : nat) (mul mul' : nat -> nat -> nat) (e e' : nat) (mu mu' : nat -> nat -> C).
Variables q p : nat -> nat.
Hypotheses (qn : forall i, (i < n)%N -> (q i < n)%N) (pn : forall i, (i < n)%N -> (p i < n)%N).
Hypotheses (pq : forall i, (i < n)%N -> p (q i) = i) (qp : forall i, (i < n)%N -> q (p i) = i).
Hypotheses (qe : q e' = e).
Hypothesis closed : forall i j, (i < n)%N -> (j < n)%N -> (mul' i j < n)%N.
Hypotheses (qmul : forall i j, (i < n)%N -> (j < n)%N -> q (mul' i j) = mul (q i) (q j)).
Hypothesis muE : forall i j, (i < n)%N -> (j < n)%N -> mu' i j = mu (q i) (q j).

Lemma rl_rep d (D : nat -> 'M[C]_d) : iprojrep n mul e mu D -> iprojrep n mul' e' mu' (fun i => D (q i)).
Proof. by case=> h1 h2; split=> [|i j hi hj]; [rewrite qe|rewrite h2 ?qn // muE // qmul]. Qed.
Lemma rl_irr d (D D' : nat -> 'M[C]_d) (r : nat -> nat) : (forall i, (i < n)%N -> exists2 j, (j < n)%N & D i = D' j) ->
  iirreducible n D -> iirreducible n D'.
Proof.
move=> h [d0 ir]; split=> // m W inv; apply: ir => i hi.
by have [j hj ->] := h i hi; exact: inv.
Qed.
Lemma rl_cip d1 d2 (A : nat -> 'M[C]_d1) (B : nat -> 'M[C]_d2) : icip n (fun i => A (q i)) (fun i => B (q i)) = icip n A B.
Proof.
have qi : injective (fun i : 'I_n => Ordinal (qn (ltn_ord i))).
  move=> i j [] h; apply: val_inj => /=; by rewrite -(pq (ltn_ord i)) h pq.
by rewrite /icip [RHS](reindex_inj qi).
Qed.
Lemma rl_equiv d1 d2 (A : nat -> 'M[C]_d1) (B : nat -> 'M[C]_d2) :
  iequivalent n A B <-> iequivalent n (fun i => A (q i)) (fun i => B (q i)).
Proof.
split=> -[T [T' [h1 h2 h3]]]; exists T, T'; split=> // i hi; first by rewrite h3 ?qn.
by have := h3 _ (pn hi); rewrite qp.
Qed.
End Relabel.
Section RelabelComplete.
Variables (C : numClosedFieldType) (n : nat) (mul mul' : nat -> nat -> nat) (e e' : nat) (mu mu' : nat -> nat -> C).
Variables q p : nat -> nat.
Hypotheses (qn : forall i, (i < n)%N -> (q i < n)%N) (pn : forall i, (i < n)%N -> (p i < n)%N).
Hypotheses (pq : forall i, (i < n)%N -> p (q i) = i) (qp : forall i, (i < n)%N -> q (p i) = i).
Hypotheses (en : (e' < n)%N) (qe : q e' = e).
Hypothesis closed : forall i j, (i < n)%N -> (j < n)%N -> (mul i j < n)%N.
Hypothesis closed' : forall i j, (i < n)%N -> (j < n)%N -> (mul' i j < n)%N.
Hypotheses (qmul : forall i j, (i < n)%N -> (j < n)%N -> q (mul' i j) = mul (q i) (q j)).
Hypothesis muE : forall i j, (i < n)%N -> (j < n)%N -> mu' i j = mu (q i) (q j).

Lemma relabel_complete N dim (D : forall k, nat -> 'M[C]_(dim k)) :
  complete_irreps n mul e mu N D -> complete_irreps n mul' e' mu' N (fun k i => D k (q i)).
Proof.
case=> h1 h2 h3 h4 h5 h6 h7; split=> //.
- by move=> k kN; apply: (rl_rep qn qe qmul muE); exact: h1.
- by move=> k kN i hi; apply: h2 => //; exact: qn.
- move=> k kN; apply: (rl_irr id _ (h3 k kN)) => i hi.
  by exists (p i); [exact: pn|rewrite qp].
- by move=> k l kN lN kl h; apply: (h4 k l kN lN kl); apply: (proj2 (rl_equiv qn pn qp (D k) (D l))).
- by move=> k l kN lN; rewrite (rl_cip qn pq); exact: h5.
move=> d F pF iF.
have pe : p e = e' by rewrite -qe pq.
have pmul i j : (i < n)%N -> (j < n)%N -> p (mul i j) = mul' (p i) (p j).
  by move=> hi hj; rewrite -{1}(qp hi) -{1}(qp hj) -qmul ?pn // pq // closed' ?pn.
have muE' i j : (i < n)%N -> (j < n)%N -> mu i j = mu' (p i) (p j) by move=> hi hj; rewrite muE ?pn // !qp.
have irF : iirreducible n (fun i => F (p i)).
  by apply: (rl_irr id _ iF) => i hi; exists (q i); [exact: qn|rewrite pq].
have [k [kN eq uq]] := h6 d (fun i => F (p i)) (rl_rep pn pe pmul muE' pF) irF.
have eE l : iequivalent n (D l) (fun i => F (p i)) <-> iequivalent n (fun i => D l (q i)) F.
  split=> [/(proj1 (rl_equiv qn pn qp (D l) (fun i => F (p i)))) [T [T' [e1 e2 e3]]]|[T [T' [e1 e2 e3]]]].
    by exists T, T'; split=> // i hi; rewrite e3 // pq.
  by exists T, T'; split=> // i hi; rewrite -e3 ?pn // qp.
by exists k; split=> //; [exact/eE|move=> l lN /eE; exact: uq].
Qed.
End RelabelComplete.
