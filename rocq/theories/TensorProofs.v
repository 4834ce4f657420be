(** Symmetry-adapted tensors: the blocks built by the program transform as they should, are
    linearly independent, and span everything when each projection finds all its copies. *)
From Coq Require List.
From mathcomp Require Import all_ssreflect all_algebra all_fingroup.
From mathcomp.real_closed Require Import mxtens.
From mathcomp Require Import zify.
From Verif Require Import Py GroupSpec RepSpec RepModel RepTheory RepProofs IsoTheory MultTheory IndexGroup IndexRepSpec
  ChainModel ProjModel ProjSpec ProjTheory ProjProofs ProjSearch TensorModel TensorSpec TensorTheory.
Import Order.TTheory GRing.Theory Num.Theory.
Set Implicit Arguments.
Unset Strict Implicit.
Unset Printing Implicit Defensive.
Local Open Scope ring_scope.

Lemma inP (T : eqType) (x : T) s : reflect (List.In x s) (x \in s).
Proof.
elim: s => [|y s IH] /=; first by constructor.
rewrite inE; apply: (iffP orP) => [[/eqP ->|/IH]|[->|/IH]]; [by left|by right|by left|by right].
Qed.
Lemma cmap_all A B (f : A -> cres B) (Q : A -> B -> Prop) l :
  List.Forall (fun a => exists b, f a = COk b /\ Q a b) l -> exists bs, cmap f l = COk bs /\ List.Forall2 Q l bs.
Proof.
elim=> [|a l' [b [fa qa]] _ [bs [fl ql]]] /=; first by exists [::].
by rewrite fa /= fl /=; exists (b :: bs); split=> //; constructor.
Qed.

Section Tensors.
Variables (C : numClosedFieldType) (n : nat) (mul : nat -> nat -> nat) (e : nat).
Hypothesis G : group_law n mul e.
Local Notation one := (fun _ _ : nat => 1 : C).
Lemma one_fs : ifactor_system n mul e one.
Proof. by split=> *; rewrite ?normr1. Qed.

(** Unitary representations of the group. *)
Definition urep (A : arr C) : Prop := [/\ aorder A = n, iprojrep n mul e one (aget A) & iunitary n (aget A)].
Definition uirr (A : arr C) : Prop := urep A /\ iirreducible n (aget A).

Variable As : seq (arr C).
Hypothesis irrs : List.Forall uirr As.
Local Notation arr0 := (@Arr C 0 [::]).
Hypothesis orth : forall k l, (k < size As)%N -> (l < size As)%N ->
  icip n (aget (nth arr0 As k)) (aget (nth arr0 As l)) = if k == l then n%:R else 0.

Variables (L : linalg C) (around : C -> C) (rnd_int : C -> int) (atol : C).
Hypotheses (ok : linalg_ok L) (ra : forall k : nat, around k%:R = k%:R) (ri : forall k : nat, rnd_int k%:R = k).
Hypothesis ar : atol \is Num.real.
Local Notation pe := (project_each L around rnd_int atol As).

Let T := [set: igT G]%G.
Let mufs := ifs_fs G one_fs.
Let cT : #|T| = n. Proof. by rewrite cardsT ival_card. Qed.
Let F (A : arr C) (g : igT G) := aget A (ival g).

Lemma nth_irr k : (k < size As)%N -> uirr (nth arr0 As k).
Proof. by move=> hk; elim: irrs k hk => [|A l h _ IH] [|k] //= /IH. Qed.

(** A block transforms under R as its irrep, and its vectors are independent. *)
Definition adapted N (R : nat -> 'M[C]_N) (t : tblock C N) : Prop :=
  List.In (tb_irrep t) As /\ forall g, (g < n)%N -> R g *m (tb_basis t)^T = (tb_basis t)^T *m aget (tb_irrep t) g.

Let a := np_clip (Some (atol_lb C)) (Some (atol_ub C)) atol.
(** Conditions under which every projection of X finds all copies. *)
Definition few (X : arr C) : Prop := 4%:R * ((adim X)%:R * a) ^+ 2 < 1 /\
  forall A m, List.In A As -> icip n (aget A) (aget X) = n%:R * m%:R -> (m <= 3)%N.

Lemma project_irrep X A : urep X -> uirr A -> exists m bs, [/\ icip n (aget A) (aget X) = n%:R * m%:R,
  project_to_irrep L around rnd_int X A atol 10 = COk bs,
  forall b, b \in bs -> forall g, (g < n)%N -> aget X g *m b^T = b^T *m aget A g,
  independent bs &
  4%:R * ((adim X)%:R * a) ^+ 2 < 1 -> (m <= 3)%N -> size bs = m].
Proof.
move=> [sX pX uX] [[sA pA uA] iA].
have [m [bs [h1 h2 h3 [h4 h5] [_ h6]]]] := project_result G one_fs sX sA pX uX pA uA iA ok ra ri ar (isT : (0 < 10)%N).
exists m, bs; split=> //.
  move=> b /h3 [/(hom_transforms G) tr _ _] g gn; have [x <-] := ival_surj G gn; exact: (tr x (in_setT x)).
by move=> sm m3; have := h6 sm; move: h5 m3; lia.
Qed.

Section Each.
Variable X : arr C.
Hypothesis uX : urep X.
Let pX : projrep (imu one) T (F X). Proof. by case: uX => _ /(iprojrepE G). Qed.
Section OneIrrep.
Variable A : arr C.
Hypothesis uA : uirr A.
Lemma pA_ : projrep (imu one) T (F A). Proof. by case: uA => -[_ /(iprojrepE G)]. Qed.
Lemma uA_ : unirep T (F A). Proof. by case: uA => -[_ _ /(iunitaryE G)]. Qed.
Lemma nA_ : cip T (F A) (F A) = #|T|%:R.
Proof. by apply: (irreducible_norm1 mufs pA_ uA_); case: uA => _ /(iirreducibleE G). Qed.
Lemma self_iso : proj_iso T (F A) (F A) = 1%:M.
Proof.
apply/matrixP => k l; rewrite /proj_iso mxE summxE [RHS]mxE.
have -> : \sum_i proj_op T (F A) (F A) i i k l = \sum_i #|T|%:R / (adim A)%:R * ((i == k) && (i == l))%:R.
  apply: eq_bigr => i _; rewrite /proj_op summxE -(ortho_eq mufs pA_ uA_ nA_).
  by apply: eq_bigr => g _; rewrite mxE.
rewrite -mulr_sumr.
have d0 : (adim A)%:R != 0 :> C by rewrite pnatr_eq0 -lt0n (norm1_dim nA_).
have n0 : #|T|%:R != 0 :> C by exact: cardH_neq0.
rewrite mulrA mulf_div mulrC [X in _ / X]mulrC divff ?mulf_neq0 // mulr1.
by rewrite (bigD1 k) //= big1 ?addr0 ?eqxx // => i ik; rewrite (negbTE ik).
Qed.
Lemma iso_hom (b : 'M[C]_(adim A, adim X)) : (forall g, (g < n)%N -> aget X g *m b^T = b^T *m aget A g) ->
  (b <= (proj_iso T (F X) (F A))^T)%MS.
Proof.
move=> h; suff e1 : proj_iso T (F X) (F A) *m b^T = b^T.
  by apply/submxP; exists b; rewrite -{1}(trmxK b) -e1 trmx_mul trmxK.
rewrite -{2}[b^T]mulmx1 -self_iso !proj_isoE -scalemxAl -scalemxAr; congr (_ *: _).
rewrite mulmx_suml mulmx_sumr; apply: eq_bigr => g _; rewrite -scalemxAl -scalemxAr h //.
exact: ival_lt.
Qed.
End OneIrrep.
Let W (A : arr C) := (proj_iso T (F X) (F A))^T.
Lemma iso_direct : direct As W.
Proof.
apply: (@idem_direct _ _ _ arr0) => k l hk hl; rewrite /W -trmx_mul.
have [uk ul] := (nth_irr hk, nth_irr hl).
case: eqP => [<-|/eqP kl].
  by rewrite (proj_iso_idem mufs pX (pA_ uk) (uA_ uk) (nA_ uk)).
rewrite (proj_iso_orth mufs pX (pA_ ul) (uA_ ul) (nA_ ul) (pA_ uk) (uA_ uk) (nA_ uk)) ?trmx0 //.
by rewrite -[cip _ _ _]icipE orth // eq_sym (negbTE kl).
Qed.
Lemma pe_ok : exists cs, [/\ pe X = COk cs, List.Forall (adapted (aget X)) cs, indep cs &
  few X -> (dims cs)%:R = \sum_(k < size As) (adim (nth arr0 As k))%:R / n%:R * icip n (aget (nth arr0 As k)) (aget X)].
Proof.
have n0 : n%:R != 0 :> C by rewrite -cT; exact: cardH_neq0.
pose Q A (f : seq (tblock C (adim X))) := [/\ (span f <= W A)%MS, indep f, List.Forall (adapted (aget X)) f &
  few X -> (dims f)%:R = (adim A)%:R / n%:R * icip n (aget A) (aget X)].
have [fs [e1 e2]] : exists fs, cmap (fun irrep => cbind (project_to_irrep L around rnd_int X irrep atol 10)
                                  (fun bs => COk [seq TBlock b | b <- bs])) As = COk fs /\ List.Forall2 Q As fs.
  apply: cmap_all; apply/List.Forall_forall => A inA.
  have uA : uirr A by move/List.Forall_forall: irrs => /(_ A inA).
  have [m [bs [h1 h2 h3 h4 h5]]] := project_irrep uX uA.
  exists [seq TBlock b | b <- bs]; rewrite h2; split=> //; split.
  - rewrite (span_stack bs); apply: stack_sub => b hb; apply: iso_hom => //; exact: h3.
  - exact: indep_blocks.
  - apply/List.Forall_forall => t /List.in_map_iff [b [<- hb]]; split=> //=.
    by apply: h3; apply/inP.
  - move=> [sm le3]; rewrite dims_blocks (h5 sm) ?(le3 A m) // h1 natrM.
    by rewrite mulrA divfK // mulrC.
exists (flatten fs); rewrite /project_each e1; split=> //.
- elim: e2 => [|A f l fl [_ _ h _] _ IH] //=; exact/List.Forall_app.
- apply: indep_flatten iso_direct; elim: e2 => [|A f l fl [h1 h2 _ _] _ IH]; by constructor.
move=> fw; rewrite dims_flatten natr_sum.
rewrite -(big_mkord xpredT (fun k => (adim (nth arr0 As k))%:R / n%:R * icip n (aget (nth arr0 As k)) (aget X))).
rewrite -(big_nth arr0 xpredT (fun A => (adim A)%:R / n%:R * icip n (aget A) (aget X))).
elim: e2 => [|A f l fl [_ _ _ h] _ IH]; rewrite ?big_nil // !big_cons IH; congr (_ + _); exact: h.
Qed.

(** With a full list of irreps the blocks fill the space. *)
Hypothesis squares : (\sum_(k < size As) adim (nth arr0 As k) ^ 2 = n)%N.
Lemma dims_all : (adim X)%:R = \sum_(k < size As) (adim (nth arr0 As k))%:R / n%:R * icip n (aget (nth arr0 As k)) (aget X).
Proof.
pose dim (k : 'I_(size As)) := adim (nth arr0 As k).
pose D (k : 'I_(size As)) := F (nth arr0 As k).
have pD k : projrep (imu one) T (D k) by exact: pA_ (nth_irr _).
have uD k : unirep T (D k) by exact: uA_ (nth_irr _).
have nD k : cip T (D k) (D k) = #|T|%:R by exact: nA_ (nth_irr _).
have oD k l : k != l -> cip T (D k) (D l) = 0.
  by move=> kl; rewrite -[cip _ _ _]icipE orth // -[(_ == _ :> nat)]/(k == l) (negbTE kl).
rewrite (@dim_count _ _ _ mufs T _ dim D pD uD nD oD _ _ (F X) pX).
  by apply: eq_bigr => k _; rewrite cT (icipE G).
move=> m B m0 pB; apply: (@squares_cover _ _ _ mufs _ dim D pD uD nD oD) => //.
by rewrite (ival_card G).
Qed.
End Each.

(** ** Products of blocks *)
Implicit Types (A B D : arr C).
Lemma direct_get A B g : aorder A = n -> aorder B = n -> (g < n)%N -> aget (direct_arr A B) g = aget A g *t aget B g.
Proof.
rewrite /aorder => sA sB gn; rewrite /aget /direct_arr /= (nth_map (0, 0)) ?nth_zip ?sA ?sB //.
by rewrite size_zip sA sB minnn.
Qed.
Lemma direct_urep A B : urep A -> urep B -> urep (direct_arr A B).
Proof.
move=> [sA [a1 a2] a3] [sB [b1 b2] b3].
have en : (e < n)%N by exact: ig_e G.
have cl i j : (i < n)%N -> (j < n)%N -> (mul i j < n)%N.
  by move=> /ssrnat.ltP hi /ssrnat.ltP hj; apply/ssrnat.ltP; exact: (gl_closed _ _ _ G).
split.
- by rewrite /aorder size_map size_zip -/(aorder A) -/(aorder B) sA sB minnn.
- split; first by rewrite direct_get // a1 b1 tens1.
  move=> i j hi hj; rewrite !direct_get ?cl // tensmx_mul a2 // b2 // !scale1r //.
- by move=> i hi; rewrite direct_get // adj_tens tensmx_mul a3 // b3 // tens1.
Qed.

Variable m : nat.
(** R(g) acting on all indices of a tensor. *)
Fixpoint tact p (R : 'M[C]_m) : 'M[C]_(tdim m p) := if p is p'.+1 then tact p' R *t R else R.

Lemma uirr_in A : List.In A As -> uirr A.
Proof. by move/List.Forall_forall: irrs => h /h. Qed.

Section Pair.
Variables (N : nat) (R1 : nat -> 'M[C]_N) (R2 : nat -> 'M[C]_m).
Variables (t : tblock C N) (v : tblock C m).
Hypotheses (ht : adapted R1 t) (hv : adapted R2 v).
Hypotheses (ft : row_free (tb_basis t)) (fv : row_free (tb_basis v)).
Lemma raise_ok : exists us, [/\ raise_pair L around rnd_int atol As (t, v) = COk us,
  List.Forall (adapted (fun g => R1 g *t R2 g)) us, indep us, (span us <= tb_basis t *t tb_basis v)%MS &
  (\sum_(k < size As) adim (nth arr0 As k) ^ 2 = n)%N -> few (direct_arr (tb_irrep t) (tb_irrep v)) ->
  dims us = (adim (tb_irrep t) * adim (tb_irrep v))%N].
Proof.
have [[uA _] [uB _]] := (uirr_in ht.1, uirr_in hv.1).
have [sA _ _] := uA; have [sB _ _] := uB.
have uX := direct_urep uA uB.
have [cs [h1 h2 h3 h4]] := pe_ok uX.
pose M := tb_basis t *t tb_basis v.
exists [seq TBlock (tb_basis c *m M) | c <- cs].
have fM : row_free M by exact: tens_free.
have spE : (span [seq TBlock (tb_basis c *m M) | c <- cs] :=: span cs *m M)%MS.
  rewrite /span; elim: (cs) => [|c l IH]; first by rewrite !big_nil mul0mx; apply: eqmx_sym; apply: eqmx0.
  rewrite map_cons !big_cons; apply: eqmx_sym; apply: eqmx_trans (addsmxMr _ _ _) _; apply: eqmx_sym.
  apply: adds_eqmx => //; rewrite /spc /=; apply: eqmx_trans (genmxE _) _.
  by apply: eqmxMr; apply: eqmx_sym; apply: genmxE.
have dE : dims [seq TBlock (tb_basis c *m M) | c <- cs] = dims cs by rewrite /dims big_map.
rewrite /raise_pair; split.
- rewrite /get_direct_product sA sB eqxx [clift _]/= [cbind (COk _) _]/= h1 //.
- apply/List.Forall_forall => u /List.in_map_iff [c [<- hc]].
  move/List.Forall_forall: h2 => /(_ c hc) [inc tc]; split=> //= g gn.
  rewrite trmx_mul trmx_tens mulmxA tensmx_mul ht.2 // hv.2 // -tensmx_mul -!mulmxA; congr (_ *m _).
  by rewrite -tc // direct_get.
- by rewrite /indep dE -h3 spE mxrankMfree.
- by rewrite spE; exact: submxMl.
- move=> sq fw; rewrite dE; apply/eqP; rewrite -(eqr_nat C) h4 // -dims_all //.
Qed.
End Pair.

(** The multiplicities in a product of two irreps. *)
Lemma tr_le A g : urep A -> (g < n)%N -> `|\tr (aget A g)| <= (adim A)%:R.
Proof.
move=> [_ _ u] gn; apply: le_trans (ler_norm_sum _ _ _) _.
rewrite -[in X in _ <= X](card_ord (adim A)) -sumr_const; apply: ler_sum => i _.
have := congr1 (fun X : 'M[C]_(adim A) => X i i) (u g gn); rewrite !mxE eqxx => h.
rewrite mulr1n in h; rewrite -(@expr_le1 _ 2) // -h (bigD1 i) //= adjE -normCK ler_addl sumr_ge0 // => j _.
by rewrite adjE -normCK exprn_ge0.
Qed.
Lemma product_mult A B D k : uirr A -> uirr B -> uirr D ->
  icip n (aget D) (aget (direct_arr A B)) = n%:R * k%:R -> (k <= adim A)%N.
Proof.
move=> uA uB uD h.
have [[sA _ _] _] := uA; have [[sB _ _] _] := uB.
have n0 : (0 < n)%N by exact: leq_ltn_trans (ig_e G).
have sq X : uirr X -> \sum_(i < n) `|\tr (aget X i)| ^+ 2 = n%:R.
  move=> uX; have := nA_ uX; rewrite -[cip _ _ _]icipE cT => <-; apply: eq_bigr => i _.
  by rewrite normCK mulrC.
have : `|n%:R * k%:R| <= (adim A)%:R * n%:R :> C.
  rewrite -h /icip; apply: le_trans (ler_norm_sum _ _ _) _.
  have -> : (adim A)%:R * n%:R = \sum_(i < n) (adim A)%:R * ((`|\tr (aget D i)| ^+ 2 + `|\tr (aget B i)| ^+ 2) / 2%:R) :> C.
    rewrite -mulr_sumr -mulr_suml big_split /= !sq //; congr (_ * _).
    by rewrite -mulr2n -[X in X / _]mulr_natr mulfK // pnatr_eq0.
  apply: ler_sum => i _; rewrite direct_get // tr_tens normrM norm_conjC normrM mulrCA.
  apply: ler_pmul; rewrite ?mulr_ge0 //; first exact: tr_le uA.1 _.
  rewrite ler_pdivl_mulr ?ltr0n // mulr_natr -subr_ge0.
  set x := `|_|; set y := `|_|.
  have -> : x ^+ 2 + y ^+ 2 - x * y *+ 2 = (x - y) ^+ 2 by rewrite sqrrB addrAC.
  by apply: real_exprn_even_ge0 => //; apply: rpredB; exact: normr_real.
by rewrite -natrM normr_nat -natrM ler_nat mulnC leq_pmul2r.
Qed.

Lemma mult_le A X k : uirr A -> urep X -> icip n (aget A) (aget X) = n%:R * k%:R -> (k <= adim X)%N.
Proof.
move=> uA uX h; have n0 : (0 < n)%N by exact: leq_ltn_trans (ig_e G).
have sq : \sum_(i < n) `|\tr (aget A i)| ^+ 2 = n%:R.
  have := nA_ uA; rewrite -[cip _ _ _]icipE cT => <-; apply: eq_bigr => i _.
  by rewrite normCK mulrC.
have : `|n%:R * k%:R| <= (adim X)%:R * n%:R :> C.
  rewrite -h /icip; apply: le_trans (ler_norm_sum _ _ _) _.
  have -> : (adim X)%:R * n%:R = \sum_(i < n) (adim X)%:R * ((`|\tr (aget A i)| ^+ 2 + 1) / 2%:R) :> C.
    rewrite -mulr_sumr -mulr_suml big_split /= sq sumr_const card_ord; congr (_ * _).
    by rewrite -mulr2n -[X in X / _]mulr_natr mulfK // pnatr_eq0.
  apply: ler_sum => i _; rewrite normrM norm_conjC mulrC.
  apply: ler_pmul => //; first exact: tr_le uX _.
  rewrite ler_pdivl_mulr ?ltr0n // mulr_natr -subr_ge0.
  set x := `|_|; have -> : x ^+ 2 + 1 - x *+ 2 = (x - 1) ^+ 2 by rewrite sqrrB expr1n mulr1 addrAC.
  by apply: real_exprn_even_ge0 => //; apply: rpredB; [exact: normr_real|exact: rpred1].
by rewrite -natrM normr_nat -natrM ler_nat mulnC leq_pmul2r.
Qed.

(** ** All ranks *)
Lemma Forall_pairs S1 S2 (Q : S1 * S2 -> Prop) ts vs :
  List.Forall (fun t => List.Forall (fun v => Q (t, v)) vs) ts -> List.Forall Q [seq (t, v) | t <- ts, v <- vs].
Proof.
elim=> [|t l h _ IH] //=; apply/List.Forall_app; split=> //.
by elim: h => [|v l' hv _ IH'] //=; constructor.
Qed.
Lemma Forall2_impl S1 S2 (Q Q' : S1 -> S2 -> Prop) l l' : (forall x y, Q x y -> Q' x y) -> List.Forall2 Q l l' -> List.Forall2 Q' l l'.
Proof. by move=> h; elim=> [|x y s s' hx _ IH]; constructor=> //; exact: h. Qed.
Lemma sum_mem N S1 (s : seq S1) (W : S1 -> 'M[C]_N) i : List.In i s -> (W i <= \sum_(j <- s) W j)%MS.
Proof.
elim: s => [|j s IH] //= [->|/IH h]; rewrite big_cons; first exact: addsmxSl.
by apply: submx_trans h _; apply: addsmxSr.
Qed.
Lemma pairs_direct N (ts : seq (tblock C N)) (vs : seq (tblock C m)) : indep ts -> indep vs ->
  direct [seq (t, v) | t <- ts, v <- vs] (fun tv => <<tb_basis tv.1 *t tb_basis tv.2>>%MS) /\
  (\sum_(tv <- [seq (t, v) | t <- ts, v <- vs]) adim (tb_irrep tv.1) * adim (tb_irrep tv.2) = dims ts * dims vs)%N.
Proof.
move=> it iv; set ps := [seq _ | _ <- _, _ <- _]; set W := fun _ => _.
have dE : (\sum_(tv <- ps) adim (tb_irrep tv.1) * adim (tb_irrep tv.2) = dims ts * dims vs)%N.
  rewrite /ps big_allpairs /dims big_distrl /=; apply: eq_bigr => t _; by rewrite big_distrr.
split=> //; apply/eqP; rewrite /direct eqn_leq rank_sum_le /=.
have h1 : (\sum_(i <- ps) \rank (W i) <= dims ts * dims vs)%N.
  rewrite -dE; elim: (ps) => [|tv l IH]; rewrite ?big_nil // !big_cons leq_add //.
  by rewrite /W mxrank_gen; exact: rank_leq_row.
apply: leq_trans h1 _; rewrite -it -iv; apply: leq_trans (tens_rank _ _) _; apply: mxrankS.
apply: tens_sum_l; apply/List.Forall_forall => t ht.
apply: tens_sum_r; apply/List.Forall_forall => v hv.
have hin : List.In (t, v) ps.
  rewrite /ps; elim: (ts) ht => [|t' l IH] //= [->|/IH h]; apply/List.in_app_iff; [left|by right].
  exact: List.in_map.
apply: submx_trans (sum_mem W hin); rewrite /W /= genmxE.
by apply: tens_sub; rewrite genmxE.
Qed.

Variable R : nat -> 'M[C]_m.
Definition few_pairs : Prop := forall A B, List.In A As -> List.In B As -> few (direct_arr A B).
Local Notation squares := ((\sum_(k < size As) adim (nth arr0 As k) ^ 2)%N = n).
Lemma blocks_ok (vs : seq (tblock C m)) p : List.Forall (adapted R) vs -> indep vs ->
  exists ts, [/\ tensor_blocks L around rnd_int atol As vs p = COk ts,
    List.Forall (adapted (fun g => tact p (R g))) ts, indep ts &
    squares -> few_pairs -> dims vs = m -> dims ts = tdim m p].
Proof.
move=> av iv; elim: p => [|p [ts [e1 at' it dt]]]; first by exists vs.
have [pd ps] := pairs_direct it iv.
have [ft _] := indep_free it; have [fv _] := indep_free iv.
pose Q (tv : tblock C (tdim m p) * tblock C m) (us : seq (tblock C (tdim m p.+1))) := [/\
  List.Forall (adapted (fun g => tact p.+1 (R g))) us, indep us, (span us <= <<tb_basis tv.1 *t tb_basis tv.2>>)%MS &
  squares -> few_pairs -> dims us = (adim (tb_irrep tv.1) * adim (tb_irrep tv.2))%N].
have [fs [h1 h2]] : exists fs, cmap (raise_pair L around rnd_int atol As) [seq (t, v) | t <- ts, v <- vs] = COk fs /\
    List.Forall2 Q [seq (t, v) | t <- ts, v <- vs] fs.
  apply: cmap_all; apply: Forall_pairs; apply/List.Forall_forall => t ht; apply/List.Forall_forall => v hv.
  move/List.Forall_forall: at' => /(_ t ht) at'; move/List.Forall_forall: av => /(_ v hv) av'.
  move/List.Forall_forall: ft => /(_ t ht) ft; move/List.Forall_forall: fv => /(_ v hv) fv.
  have [us [k1 k2 k3 k4 k5]] := raise_ok at' av' ft fv.
  exists us; split=> //; split=> //=; first by rewrite genmxE.
  by move=> sq fp; apply: k5 => //; apply: fp; [case: at'|case: av'].
exists (flatten fs); rewrite /= e1 /= h1 /=; split=> //.
- by elim: h2 => [|tv us l l' [k1 _ _ _] _ IH] //=; apply/List.Forall_app.
- by apply: indep_flatten pd; apply: Forall2_impl h2 => tv us [_ k2 k3 _].
move=> sq fp dv; rewrite dims_flatten; transitivity (dims ts * dims vs)%N; last by rewrite dv (dt sq fp dv).
rewrite -ps.
by elim: h2 => [|tv us l l' [_ _ _ k4] _ IH]; rewrite ?big_nil // !big_cons IH k4.
Qed.

(** ** The invariant blocks *)
Let triv : arr C := @Arr C 1 (nseq n 1%:M).
Lemma triv_get g : (g < n)%N -> aget triv g = 1%:M.
Proof. by move=> gn; rewrite /aget /triv /= nth_nseq gn. Qed.
Lemma triv_irr : uirr triv.
Proof.
have en := ig_e G.
have cl i j : (i < n)%N -> (j < n)%N -> (mul i j < n)%N.
  by move=> /ssrnat.ltP hi /ssrnat.ltP hj; apply/ssrnat.ltP; exact: (gl_closed _ _ _ G).
split; first split.
- by rewrite /aorder size_nseq.
- by split=> [|i j hi hj]; rewrite ?triv_get ?cl // mulmx1 scale1r.
- by move=> i hi; rewrite triv_get // adj1 mulmx1.
split=> // k W _; have [->|/eqP W0] := W =P 0; [by left|right].
have [j wj] : exists j, W 0 j != 0.
  apply/existsP; apply: contraNT W0; rewrite negb_exists => /forallP h; apply/eqP/matrixP => i j.
  by rewrite !mxE (ord1 i); apply/eqP; have := h j; rewrite negbK.
exists ((W 0 j)^-1 *: delta_mx j 0); apply/matrixP => x y; rewrite (ord1 x) (ord1 y) -scalemxAr !mxE.
rewrite (bigD1 j) //= big1 => [|i ij]; last by rewrite !mxE (negbTE ij) mulr0.
by rewrite !mxE !eqxx mulr1 addr0 mulVf.
Qed.
Lemma char_ones A : aorder A = n -> char_sum (get_character A) (nseq n 1) = icip n (aget A) (aget triv).
Proof.
move=> sA; rewrite /char_sum (big_nth (0, 0)) size_zip size_map size_nseq -[size _]/(aorder A) sA minnn big_mkord.
apply: eq_bigr => i _; rewrite nth_zip; last by rewrite size_map size_nseq.
rewrite triv_get // mxtrace1 /= nth_nseq ltn_ord (nth_map 0) //.
by rewrite -[size _]/(aorder A) sA.
Qed.
Lemma invariant_cases A : uirr A -> let inv := ~~ (1 < adim A)%N && is_equivalent_irrep around (get_character A) (nseq n 1) in
  if inv then forall g, (g < n)%N -> aget A g = 1%:M else \sum_(g < n) aget A g = 0.
Proof.
move=> uA inv; have [[sA pA uu] iA] := uA; have n0 : (0 < n)%N by exact: leq_ltn_trans (ig_e G).
have nC : n%:R != 0 :> C by rewrite pnatr_eq0 -lt0n.
have [[st pt ut] it] := triv_irr.
have [k kE] := multiplicity_nat G one_fs pt ut pA uu iA.
have rE : around (char_sum (get_character A) (nseq n 1)) = icip n (aget A) (aget triv).
  by rewrite char_ones // kE -natrM ra.
have sC : size (get_character A) = n by rewrite size_map.
have ieq : is_equivalent_irrep around (get_character A) (nseq n 1) = (icip n (aget A) (aget triv) == n%:R).
  by rewrite /is_equivalent_irrep rE sC.
case: (boolP inv) => [/andP [d1]|ninv].
  rewrite ieq => /eqP s1 g gn.
  have dA : adim A = 1%N by have := iA.1; move: d1; case: (adim A) => [|[]].
  have {}s1 : \sum_(i < n) \tr (aget A i) = n%:R.
    have := congr1 conjC s1; rewrite conjC_nat rmorph_sum /= => <-; apply: eq_bigr => i _.
    by rewrite triv_get // mxtrace1 mulr1 conjCK.
  have nrm i : (i < n)%N -> `|\tr (aget A i)| ^+ 2 = 1.
    move=> hi; have := uu i hi; move: (aget A i); rewrite dA => M /matrixP /(_ 0 0).
    by rewrite !mxE big_ord1 adjE -normCK /mxtrace big_ord1 => ->.
  have z : \sum_(i < n) `|1 - \tr (aget A i)| ^+ 2 = 0.
    have -> : \sum_(i < n) `|1 - \tr (aget A i)| ^+ 2 = \sum_(i < n) (2%:R - \tr (aget A i) - (\tr (aget A i))^*).
      apply: eq_bigr => i _; rewrite normCK rmorphB rmorph1 mulrBl mul1r mulrBr mulr1 -normCK nrm //.
      by rewrite opprB addrACA [- _ - _]addrC addrA -mulr2n.
    rewrite !big_split /= !sumrN sumr_const card_ord s1 -rmorph_sum /= s1 conjC_nat -addrA -opprD.
    by rewrite -natrD addnn -muln2 mulnC natrM mulr_natr subrr.
  have : \tr (aget A g) = 1.
    have := psumr_eq0P (fun i _ => exprn_ge0 2 (normr_ge0 _)) z (i := Ordinal gn) isT => /=.
    by move/eqP; rewrite expf_eq0 /= normr_eq0 subr_eq0 => /eqP.
  move: (aget A g); rewrite dA => M; rewrite /mxtrace big_ord1 => h.
  by apply/matrixP => x y; rewrite (ord1 x) (ord1 y) h mxE eqxx.
have c0 : icip n (aget A) (aget triv) = 0.
  apply/eqP; apply: contraNT ninv => nz.
  have eq : equivalent T (F A) (F triv).
    apply: (cip_neq0_equivalent mufs (pA_ uA) (uA_ uA)).
    - exact/(iirreducibleE G).
    - exact: (pA_ triv_irr).
    - exact/(iirreducibleE G).
    - by rewrite -[cip _ _ _]icipE.
  have dA : adim A = 1%N by exact: (equivalent_dim eq).
  apply/andP; split; first by rewrite -leqNgt dA.
  by rewrite ieq (icipE G) (equivalent_cip (nA_ uA) eq) cT.
apply/matrixP => x y; rewrite summxE [RHS]mxE.
have := ortho_neq mufs (pA_ triv_irr) (uA_ triv_irr) (nA_ triv_irr) (pA_ uA) (uA_ uA) (nA_ uA) _ 0 0 x y.
rewrite -[cip _ _ _]icipE => h; rewrite -[RHS]h.
  rewrite [RHS](eq_bigl predT) => [|g]; last by rewrite inE.
  by apply: eq_bigr => g _; rewrite /F triv_get ?ival_lt // mxE eqxx conjC1 mul1r.
have := congr1 conjC c0; rewrite conjC0 rmorph_sum /= => <-; apply: eq_bigr => i _.
by rewrite rmorphM /= conjCK mulrC.
Qed.

Section Final.
Variables (p : nat) (ts : seq (tblock C (tdim m p))).
Hypotheses (ats : List.Forall (adapted (fun g => tact p (R g))) ts) (its : indep ts).
Local Notation inv := (is_invariant_block around n).
Lemma rows_ok : exists rows, [/\ invariant_tensors around n ts = COk rows,
  forall r, r \in rows -> forall g, (g < n)%N -> tact p (R g) *m r^T = r^T,
  row_free (stack rows) & (span (filter inv ts) :=: stack rows)%MS].
Proof.
have inu := indep_filter inv its.
have fu : List.Forall (fun t => adapted (fun g => tact p (R g)) t /\ inv t) (filter inv ts).
  elim: ats => [|t l h _ IH] //=; case ht: (inv t) => //; by constructor.
rewrite /invariant_tensors; set us := filter inv ts in inu fu *.
have [rows [h1 h2]] : exists rows, cmap (@first_row C (tdim m p)) us = COk rows /\
    List.Forall2 (fun t r => [/\ adim (tb_irrep t) = 1%N, (spc t :=: r)%MS & forall g, (g < n)%N -> tact p (R g) *m r^T = r^T]) us rows.
  apply: cmap_all; elim: fu => [|t l [[inA tA] ht] _ IH]; constructor=> //.
  have uA := uirr_in inA; have := invariant_cases uA; cbv zeta.
  rewrite [X in if X then _ else _]ht => gA.
  have dA : adim (tb_irrep t) = 1%N.
    by move: ht uA.2.1 => /andP [+ _]; case: (adim _) => [|[]].
  rewrite /first_row; have [o oE] : exists o, (insub 0%N : option 'I_(adim (tb_irrep t))) = Some o.
    have h0 : (0 < adim (tb_irrep t))%N by rewrite dA.
    by exists (Ordinal h0); rewrite insubT.
  rewrite oE; exists (row o (tb_basis t)); split=> //; split=> //.
    apply: eqmx_trans (genmxE _) _; apply/eqmxP; rewrite row_sub andbT.
    apply/row_subP => i; suff -> : i = o by [].
    have ord_lt (j : 'I_(adim (tb_irrep t))) : (j < 1)%N by rewrite -[X in (_ < X)%N]dA ltn_ord.
    by apply/val_inj => /=; have := ord_lt i; have := ord_lt o; lia.
  by move=> g gn; have := tA g gn; rewrite gA // mulmx1 tr_row colE mulmxA => ->.
have sE : (span us :=: stack rows)%MS.
  rewrite /span; elim: h2 => [|t r l l' [_ h _] _ IH]; first by rewrite big_nil; apply: eqmx_sym; apply: eqmx0.
  rewrite big_cons; apply: eqmx_trans (eqmx_sym (stack_cons _ _)); exact: adds_eqmx.
exists rows; split=> //.
  move=> r /inP; elim: h2 => [//|t r' l l' [_ _ h] _ IH] /= [<-|/IH] //.
rewrite /row_free -sE inu; apply/eqP; rewrite muln1 /dims.
by elim: h2 => [|t r l l' [h _ _] _ IH]; rewrite ?big_nil // big_cons h IH.
Qed.

(** Every invariant tensor is a combination of them if the blocks fill the space. *)
Lemma invariant_span (v : 'rV[C]_(tdim m p)) : dims ts = tdim m p ->
  (forall g, (g < n)%N -> tact p (R g) *m v^T = v^T) -> (v <= span (filter inv ts))%MS.
Proof.
move=> full hv; have n0 : (0 < n)%N by exact: leq_ltn_trans (ig_e G).
have nC : n%:R != 0 :> C by rewrite pnatr_eq0 -lt0n.
pose M := n%:R^-1 *: \sum_(g < n) tact p (R g).
have sel : List.Forall (fun t => tb_basis t *m M^T = if inv t then tb_basis t else 0) ts.
  apply: List.Forall_impl ats => t [inA tA].
  have e1 : M *m (tb_basis t)^T = n%:R^-1 *: ((tb_basis t)^T *m \sum_(g < n) aget (tb_irrep t) g).
    rewrite /M -scalemxAl mulmx_suml mulmx_sumr; congr (_ *: _); apply: eq_bigr => g _; exact: tA.
  rewrite -{1}(trmxK (tb_basis t)) -trmx_mul e1; have := invariant_cases (uirr_in inA); cbv zeta.
  rewrite -[_ && _]/(inv t); case: (inv t) => [hA|->]; last by rewrite mulmx0 scaler0 trmx0.
  rewrite (eq_bigr (fun=> 1%:M)) => [|g _]; last exact: hA.
  by rewrite sumr_const card_ord -scaler_nat -scalemxAr mulmx1 scalerA mulVf // scale1r trmxK.
have fu : (v <= span ts)%MS by apply: submx_full; rewrite /row_full its full.
have -> : v = v *m M^T.
  rewrite -{2}(trmxK v) -trmx_mul /M -scalemxAl mulmx_suml (eq_bigr (fun=> v^T)) => [|g _]; last exact: hv.
  by rewrite sumr_const card_ord -scaler_nat scalerA mulVf // scale1r trmxK.
exact: submx_trans (submxMr _ fu) (span_select sel).
Qed.
End Final.
End Tensors.
