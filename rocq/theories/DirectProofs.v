(** Reduction of a unitary representation by projection onto a full list of irreps. *)
From mathcomp Require Import all_ssreflect all_algebra all_fingroup.
From mathcomp.real_closed Require Import mxtens.
From mathcomp Require Import zify.
From Verif Require Import Py GroupSpec RepSpec RepModel RepTheory RepProofs IsoTheory MultTheory IndexGroup IndexRepSpec
  ChainModel ProjModel ProjSpec ProjTheory ProjProofs ProjSearch DirectSpec.
Import Order.TTheory GRing.Theory Num.Theory.
Set Implicit Arguments.
Unset Strict Implicit.
Unset Printing Implicit Defensive.
Local Open Scope ring_scope.

Section Stack.
Variables (C : numClosedFieldType) (d N : nat).
Fixpoint stack_c (bs : seq 'M[C]_(d, N)) : 'rV[C]_(size bs * d) -> nat -> 'rV[C]_d :=
  match bs with
  | [::] => fun _ _ => 0
  | _ :: bs' => fun x a => if a is a'.+1 then stack_c (rsubmx (x : 'rV_(d + size bs' * d))) a' else lsubmx (x : 'rV_(d + size bs' * d))
  end.
Lemma stack_coef (bs : seq 'M[C]_(d, N)) (x : 'rV[C]_(size bs * d)) :
  x *m stack bs = \sum_(a < size bs) stack_c x a *m nth 0 bs a /\ ((forall a, (a < size bs)%N -> stack_c x a = 0) -> x = 0).
Proof.
elim: bs x => [|b bs IH] x.
  by rewrite mulmx0 big_ord0; split=> // _; apply/matrixP => i [].
pose y : 'rV[C]_(d + size bs * d) := x.
have [cE c0] := IH (rsubmx y); split.
  rewrite big_ord_recl /= -cE -[x in LHS]/y -[y in LHS]hsubmxK; exact: mul_row_col.
have e0 : stack_c x 0 = lsubmx y by [].
move=> h; rewrite -[x]/y -[y]hsubmxK -e0 (h 0%N) // c0 ?row_mx0 // => a ha; exact: (h a.+1).
Qed.
Lemma independent_free (bs : seq 'M[C]_(d, N)) : independent bs -> row_free (stack bs).
Proof.
move=> ind; rewrite -kermx_eq0; apply/eqP/row_matrixP => i; rewrite row0.
have [cE c0] := stack_coef (row i (kermx (stack bs))).
apply: c0; apply: ind; rewrite -cE; apply/sub_kermxP; exact: row_sub.
Qed.
End Stack.

Section Reduce.
Variables (C : numClosedFieldType) (n : nat) (mul : nat -> nat -> nat) (e : nat) (mu : nat -> nat -> C).
Hypothesis G : group_law n mul e.
Hypothesis fs : ifactor_system n mul e mu.
Let T := [set: igT G]%G.
Let mufs := ifs_fs G fs.
Let cT : #|T| = n. Proof. by rewrite cardsT ival_card. Qed.
Variable X : arr C.
Hypotheses (oX : aorder X = n) (pX0 : iprojrep n mul e mu (aget X)) (uX : iunitary n (aget X)).
Let F (A : arr C) (g : igT G) := aget A (ival g).
Let pX : projrep (imu mu) T (F X). Proof. exact/(iprojrepE G). Qed.

Section One.
Variable A : arr C.
Hypotheses (pA0 : iprojrep n mul e mu (aget A)) (uA0 : iunitary n (aget A)) (iA0 : iirreducible n (aget A)).
Lemma pA_ : projrep (imu mu) T (F A). Proof. exact/(iprojrepE G). Qed.
Lemma uA_ : unirep T (F A). Proof. exact/(iunitaryE G). Qed.
Lemma nA_ : cip T (F A) (F A) = #|T|%:R.
Proof. by apply: (irreducible_norm1 mufs pA_ uA_); apply/(iirreducibleE G). Qed.
Lemma self_iso : proj_iso T (F A) (F A) = 1%:M.
Proof.
apply/matrixP => k l; rewrite /proj_iso mxE summxE [RHS]mxE.
have -> : \sum_i proj_op T (F A) (F A) i i k l = \sum_i #|T|%:R / (adim A)%:R * ((i == k) && (i == l))%:R.
  apply: eq_bigr => i _; rewrite /proj_op summxE -(ortho_eq mufs pA_ uA_ nA_).
  by apply: eq_bigr => g _; rewrite mxE.
rewrite -mulr_sumr.
have d0 : (adim A)%:R != 0 :> C by rewrite pnatr_eq0 -lt0n (norm1_dim nA_).
have n0 : #|T|%:R != 0 :> C by exact: cardH_neq0.
rewrite mulrA mulf_div mulrC [X in _ / X]mulrC divff ?mulf_neq0 // mulr1.
by rewrite (bigD1 k) //= big1 ?addr0 ?eqxx // => i ik; rewrite (negbTE ik).
Qed.
Lemma iso_hom (b : 'M[C]_(adim A, adim X)) : transforms n (aget X) (aget A) b ->
  (b <= (proj_iso T (F X) (F A))^T)%MS.
Proof.
move/(hom_transforms G) => h; suff e1 : proj_iso T (F X) (F A) *m b^T = b^T.
  by apply/submxP; exists b; rewrite -{1}(trmxK b) -e1 trmx_mul trmxK.
rewrite -{2}[b^T]mulmx1 -self_iso !proj_isoE -scalemxAl -scalemxAr; congr (_ *: _).
rewrite mulmx_suml mulmx_sumr; apply: eq_bigr => g _; rewrite -scalemxAl -scalemxAr; congr (_ *: _).
exact: h (in_setT g).
Qed.
Lemma iso_rank m : icip n (aget A) (aget X) = n%:R * m%:R -> \rank (proj_iso T (F X) (F A)) = (m * adim A)%N.
Proof.
move=> mE; have n0 : n%:R != 0 :> C by rewrite -cT; exact: cardH_neq0.
have PP := proj_iso_idem mufs pX pA_ uA_ nA_.
apply/eqP; rewrite -(eqr_nat C) -(idem_trace PP) proj_isoE mxtraceZ raddf_sum /=.
have -> : \sum_(g in T) \tr ((\tr (F A g))^* *: F X g) = n%:R * m%:R.
  by rewrite -mE (icipE G); apply: eq_bigr => g _; rewrite mxtraceZ.
by rewrite cT mulrA divfK // -natrM mulnC.
Qed.
Lemma stack_iso m (bs : seq 'M[C]_(adim A, adim X)) : icip n (aget A) (aget X) = n%:R * m%:R ->
  (forall b, b \in bs -> transforms n (aget X) (aget A) b) -> independent bs -> size bs = m ->
  (stack bs :=: (proj_iso T (F X) (F A))^T)%MS.
Proof.
move=> mE tr ind sz; apply/eqmxP; rewrite -(geq_leqif (mxrank_leqif_eq _)).
  by rewrite mxrank_tr (iso_rank mE) -sz (eqP (independent_free ind)).
by apply: stack_sub => b /tr; exact: iso_hom.
Qed.
End One.

Lemma blocks_perp A B (b : 'M[C]_(adim A, adim X)) (b' : 'M[C]_(adim B, adim X)) :
  iprojrep n mul e mu (aget A) -> iunitary n (aget A) -> iirreducible n (aget A) ->
  iprojrep n mul e mu (aget B) -> iunitary n (aget B) -> iirreducible n (aget B) ->
  ~ iequivalent n (aget A) (aget B) ->
  transforms n (aget X) (aget A) b -> transforms n (aget X) (aget B) b' -> b *m adj b' = 0.
Proof.
move=> pA uA iA pB uB iB ne /(hom_transforms G) tb /(hom_transforms G) tb'.
pose Y := adj b^T *m b'^T.
have hY x : x \in T -> F A x *m Y = Y *m F B x.
  move=> xT; have h := hom_adj (uA_ uX) (uA_ uA) tb xT.
  rewrite /Y mulmxA -[F A x *m _]h -[LHS]mulmxA -[RHS]mulmxA; congr (_ *m _); exact: (tb' x xT).
case: (altP (Y =P 0)) => [Y0|Y0].
  apply/matrixP => i j; have := congr1 (fun Z : 'M[C]_(_, _) => (Z i j)^*) Y0; rewrite !mxE conjC0 => Y1.
  by rewrite -[RHS]Y1 rmorph_sum; apply: eq_bigr => k _; rewrite !adjE !mxE rmorphM /= conjCK.
by case: ne; apply/(iequivalentE G); apply: (intertwiner_equivalent mufs (pA_ pA) (uA_ uA) (nA_ pA uA iA) (pA_ pB) (uA_ uB) (nA_ pB uB iB) hY Y0).
Qed.

Variable As : seq (arr C).
Local Notation K := (size As).
Local Notation A k := (nth (Arr (adim := 0) [::]) As k).
Hypothesis ci : complete_irreps n mul e mu K (fun k => aget (A k)).
Variable bs : block_family C (adim X) (fun k => adim (A k)).
Hypothesis full : forall k, (k < K)%N -> icip n (aget (A k)) (aget X) = n%:R * (size (bs k))%:R.
Hypothesis tr : forall k b, (k < K)%N -> b \in bs k -> transforms n (aget X) (aget (A k)) b.
Hypothesis ind : forall k, (k < K)%N -> independent (bs k).

Lemma family_orthogonal : blocks_orthogonal K bs.
Proof.
move=> k l b b' hk hl kl hb hb'.
have pk := ci_rep ci hk; have uk := ci_unitary ci hk; have ik := ci_irreducible ci hk.
have pl := ci_rep ci hl; have ul := ci_unitary ci hl; have il := ci_irreducible ci hl.
apply: (blocks_perp pk uk ik pl ul il _ (tr hk hb) (tr hl hb')); exact: (ci_inequivalent ci hk hl kl).
Qed.
Lemma family_sum : \sum_(k < K) proj_iso T (F X) (F (A k)) = 1%:M.
Proof.
pose D (k : 'I_K) := F (A k).
have pD k : projrep (imu mu) T (D k) by apply: pA_; exact: ci_rep ci _ _.
have uD k : unirep T (D k) by apply: uA_; exact: ci_unitary ci _ _.
have nD k : cip T (D k) (D k) = #|T|%:R by apply: nA_; [exact: ci_rep ci _ _|exact: ci_unitary ci _ _|exact: ci_irreducible ci _ _].
have oD k l : k != l -> cip T (D k) (D l) = 0.
  by move=> kl; rewrite -[cip _ _ _]icipE (ci_orthogonal ci) // -[(_ == _ :> nat)]/(k == l) (negbTE kl).
apply: (@proj_sum _ _ _ mufs T _ _ D pD uD nD oD _ _ (F X) pX).
move=> m B m0 pB; apply: (@squares_cover _ _ _ mufs _ _ D pD uD nD oD) => //.
by rewrite (ival_card G) -(ci_squares ci).
Qed.
Lemma family_basis : blocks_basis K bs.
Proof.
move=> v.
pose P k := proj_iso T (F X) (F (A k)).
pose c k := stack_c ((v *m (P k)^T) *m pinvmx (stack (bs k))).
have cE k : (k < K)%N -> v *m (P k)^T = \sum_(a < size (bs k)) c k a *m nth 0 (bs k) a.
  move=> hk; rewrite -(stack_coef _).1 mulmxKpV //.
  have h : (stack (bs k) :=: (P k)^T)%MS.
    by apply: (stack_iso (ci_rep ci hk) (ci_unitary ci hk) (ci_irreducible ci hk) (full hk) _ (ind hk) erefl) => b; exact: tr.
  by rewrite h submxMl.
have vE : v = \sum_(k < K) \sum_(a < size (bs k)) c k a *m nth 0 (bs k) a.
  rewrite -[LHS]mulmx1 -trmx1 -family_sum raddf_sum mulmx_sumr; apply: eq_bigr => k _; exact: cE.
exists c; split=> // c' vE' k a hk ha.
pose u l := \sum_(a < size (bs l)) (c' l a - c l a) *m nth 0 (bs l) a.
have us : \sum_(l < K) u l = 0.
  rewrite /u; under eq_bigr => l _ do under eq_bigr => b _ do rewrite mulmxBl.
  under eq_bigr => l _ do rewrite sumrB.
  by rewrite sumrB -vE -vE' subrr.
have perp l m : (l < K)%N -> (m < K)%N -> l <> m -> u l *m adj (u m) = 0.
  move=> hl hm lm; rewrite /u mulmx_suml big1 // => x _; rewrite adj_sum mulmx_sumr big1 // => y _.
  have h := family_orthogonal hl hm lm (mem_nth 0 (ltn_ord x)) (mem_nth 0 (ltn_ord y)).
  by rewrite adjM mulmxA -[X in X *m _]mulmxA h mulmx0 mul0mx.
have uk0 : u k = 0.
  apply: sqn_eq0; have : (\sum_(l < K) u l) *m adj (u k) = 0 by rewrite us mul0mx.
  rewrite mulmx_suml (bigD1 (Ordinal hk)) //= big1 => [|l lk]; first by rewrite addr0 => ->; rewrite mxtrace0.
  by apply: perp => // el; rewrite -(inj_eq val_inj) /= el eqxx in lk.
by apply/eqP; rewrite -subr_eq0; apply/eqP; exact: (ind hk (c := fun a => c' k a - c k a) uk0 ha).
Qed.
End Reduce.

(** Multiplicities in a product. *)
Section Bound.
Variables (C : numClosedFieldType) (n : nat).
Hypothesis n0 : (0 < n)%N.
Lemma unitary_tr_le d (A : nat -> 'M[C]_d) g : iunitary n A -> (g < n)%N -> `|\tr (A g)| <= d%:R.
Proof.
move=> u gn; apply: le_trans (ler_norm_sum _ _ _) _.
rewrite -[in X in _ <= X](card_ord d) -sumr_const; apply: ler_sum => i _.
have := congr1 (fun X : 'M[C]_d => X i i) (u g gn); rewrite !mxE eqxx => h.
rewrite mulr1n in h; rewrite -(@expr_le1 _ 2) // -h (bigD1 i) //= adjE -normCK ler_addl sumr_ge0 // => j _.
by rewrite adjE -normCK exprn_ge0.
Qed.
Lemma product_bound dA dB dD (A : nat -> 'M[C]_dA) (B : nat -> 'M[C]_dB) (D : nat -> 'M[C]_dD) k :
  iunitary n A -> icip n B B = n%:R -> icip n D D = n%:R ->
  \sum_(g < n) (\tr (D g))^* * (\tr (A g) * \tr (B g)) = n%:R * k%:R -> (k <= dA)%N.
Proof.
move=> uA nB nD h.
have sq d (X : nat -> 'M[C]_d) : icip n X X = n%:R -> \sum_(i < n) `|\tr (X i)| ^+ 2 = n%:R.
  by move=> <-; apply: eq_bigr => i _; rewrite normCK mulrC.
have : `|n%:R * k%:R| <= dA%:R * n%:R :> C.
  rewrite -h; apply: le_trans (ler_norm_sum _ _ _) _.
  have -> : dA%:R * n%:R = \sum_(i < n) dA%:R * ((`|\tr (D i)| ^+ 2 + `|\tr (B i)| ^+ 2) / 2%:R) :> C.
    rewrite -mulr_sumr -mulr_suml big_split /= !sq //; congr (_ * _).
    by rewrite -mulr2n -[X in X / _]mulr_natr mulfK // pnatr_eq0.
  apply: ler_sum => i _; rewrite normrM norm_conjC normrM mulrCA.
  apply: ler_pmul; rewrite ?mulr_ge0 //; first exact: unitary_tr_le.
  rewrite ler_pdivl_mulr ?ltr0n // mulr_natr -subr_ge0.
  set x := `|_|; set y := `|_|.
  have -> : x ^+ 2 + y ^+ 2 - x * y *+ 2 = (x - y) ^+ 2 by rewrite sqrrB addrAC.
  by apply: real_exprn_even_ge0 => //; apply: rpredB; exact: normr_real.
by rewrite -natrM normr_nat -natrM ler_nat mulnC leq_pmul2r.
Qed.
End Bound.
