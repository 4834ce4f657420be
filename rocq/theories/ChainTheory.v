(** The chain algorithm on the Cayley table of a finite group: one pass of the loop turns
    the complete list of irreps of a subgroup H into the complete list for <H, r>. *)
From Coq Require Import QArith Lia.
From mathcomp Require Import all_ssreflect all_algebra all_fingroup.
From mathcomp.real_closed Require Import mxtens.
From Verif Require Import Py GroupModel RepSpec RepModel CExpSpec ChainModel RepTheory ExtTheory.
Import Order.TTheory GRing.Theory Num.Theory.
Set Implicit Arguments.
Unset Strict Implicit.
Unset Printing Implicit Defensive.
Local Open Scope ring_scope.
Delimit Scope Z_scope with coqZ.

(** * Lists and loops *)
Lemma cmap_ok (T : eqType) B (f : T -> cres B) (g : T -> B) l :
  (forall x, x \in l -> f x = COk (g x)) -> cmap f l = COk (map g l).
Proof.
elim: l => [|a l IH] //= h; rewrite h ?mem_head //= IH // => x xl.
by apply: h; rewrite inE xl orbT.
Qed.
Lemma cmap_inv A B (f : A -> cres B) (Q : Prop) (P : A -> B -> Prop) l :
  (forall x, List.In x l -> (f x = CWarn /\ Q) \/ exists b, f x = COk b /\ P x b) ->
  (cmap f l = CWarn /\ Q) \/ exists bs, cmap f l = COk bs /\ List.Forall2 P l bs.
Proof.
elim: l => [|a l IH] /= h; first by right; exists [::]; split => //; constructor.
case: (h a (or_introl erefl)) => [[-> q]|[b [-> Pb]]]; first by left.
case: IH => [x xl|[-> q] /=|[bs [-> Pbs]] /=]; first by apply: h; right.
- by left.
- by right; exists (b :: bs); split => //; constructor.
Qed.

Section Assign.
Variable (V : eqType) (v0 : V).
Lemma assign_nth (K : seq nat) (f : nat -> V) (es : seq (nat * V)) :
  forall acc, size acc = size K ->
  (forall e, e \in es -> e.1 \in K /\ e.2 = f e.1) ->
  let res := foldl (fun acc e => set_nth v0 acc (index e.1 K) e.2) acc es in
  size res = size K /\
  forall k, k \in K -> nth v0 res (index k K) = if k \in map fst es then f k else nth v0 acc (index k K).
Proof.
elim: es => [|[x M] es IH] /= acc sz h; first by split.
have [xK /= Mx] := h (x, M) (mem_head _ _).
have sz' : size (set_nth v0 acc (index x K) M) = size K.
  by rewrite size_set_nth sz; apply/maxn_idPr; rewrite index_mem.
have [e el|s n] := IH _ sz'; first by apply: h; rewrite inE el orbT.
split=> // k kK; rewrite n // inE; case: ifP => kes; first by rewrite orbT.
rewrite nth_set_nth /= orbF; case: eqP => [e|ne].
  have -> : k = x by rewrite -(nth_index 0%N kK) e nth_index.
  by rewrite eqxx.
by case: eqP => // kx; rewrite kx in ne.
Qed.
End Assign.

Section Loops.
Variable C : numClosedFieldType.
Lemma assign_allP K d (es : seq (nat * 'M[C]_d)) (f : nat -> 'M[C]_d) : uniq K ->
  (forall e, e \in es -> e.1 \in K /\ e.2 = f e.1) ->
  (forall k, k \in K -> k \in map fst es) ->
  assign_all K es = [seq f k | k <- K].
Proof.
move=> uK h cov; have [s nn] := @assign_nth _ 0 K f es (nseq (size K) (0 : 'M[C]_d)) (size_nseq _ _) h.
apply: (@eq_from_nth _ 0); first by rewrite size_map.
move=> i; rewrite s => iK; rewrite (nth_map 0%N) // -[in LHS](index_uniq 0%N iK uK).
by rewrite nn ?mem_nth // cov ?mem_nth.
Qed.

Lemma assign_blocks_nth K p d (F : nat -> nat -> nat -> 'M[C]_d) (es : seq (nat * (nat * nat * 'M[C]_d))) :
  forall acc : seq 'M[C]_(p * d), size acc = size K ->
  (forall e, e \in es -> e.1 \in K /\ e.2.2 = F e.1 e.2.1.1 e.2.1.2) ->
  let res := foldl (fun acc e => let k := index e.1 K in
           set_nth 0 acc k (set_block (nth 0 acc k) e.2.1.1 e.2.1.2 e.2.2)) acc es in
  size res = size K /\
  forall k (x y : 'I_(p * d)), k \in K -> nth 0 res (index k K) x y =
    if (k, (val (mxtens_unindex x).1, val (mxtens_unindex y).1)) \in [seq (e.1, e.2.1) | e <- es]
    then F k (mxtens_unindex x).1 (mxtens_unindex y).1 (mxtens_unindex x).2 (mxtens_unindex y).2
    else nth 0 acc (index k K) x y.
Proof.
elim: es => [|[k0 [[i j] M]] es IH] /= acc sz h; first by split.
have [xK /= Mx] := h (k0, ((i, j), M)) (mem_head _ _).
set acc' := set_nth _ _ _ _.
have sz' : size acc' = size K.
  by rewrite size_set_nth sz; apply/maxn_idPr; rewrite index_mem.
have [e el|s n] := IH acc' sz'; first by apply: h; rewrite inE el orbT.
split=> // k x y kK; rewrite n // inE; case: ifP => kes; first by rewrite orbT.
rewrite orbF /acc' nth_set_nth /=; case: eqP => [e|ne].
  have -> : k = k0 by rewrite -(nth_index 0%N kK) e nth_index.
  by rewrite mxE Mx !xpair_eqE eqxx /=; case: andP => [[/eqP <- /eqP <-]|//].
by rewrite !xpair_eqE; case: eqP => // kx; rewrite kx in ne.
Qed.
Lemma assign_blocksP K p d (es : seq (nat * (nat * nat * 'M[C]_d))) F : uniq K ->
  (forall e, e \in es -> e.1 \in K /\ e.2.2 = F e.1 e.2.1.1 e.2.1.2) ->
  (forall k i j, k \in K -> (i < p)%N -> (j < p)%N ->
     (k, (i, j)) \in [seq (e.1, e.2.1) | e <- es] \/ F k i j = 0) ->
  @assign_blocks C K p d es =
  [seq \matrix_(x, y) F k (mxtens_unindex x).1 (mxtens_unindex y).1 (mxtens_unindex x).2 (mxtens_unindex y).2 | k <- K].
Proof.
move=> uK h cov.
have [s nn] := @assign_blocks_nth K p d F es (nseq (size K) 0) (size_nseq _ _) h.
apply: (@eq_from_nth _ 0); first by rewrite size_map.
move=> i; rewrite s => iK; rewrite (nth_map 0%N) // -[in LHS](index_uniq 0%N iK uK).
apply/matrixP => x y; rewrite nn ?mem_nth // mxE.
case: ifP => // ne; case: (cov (nth 0%N K i) (mxtens_unindex x).1 (mxtens_unindex y).1); rewrite ?mem_nth //.
  by rewrite ne.
by move=> ->; rewrite nth_nseq index_mem mem_nth // !mxE.
Qed.
End Loops.

(** * Roots of unity from the exponential *)
Section Exp.
Variables (C : numClosedFieldType) (cexp : Q -> C).
Hypothesis es : exp_spec cexp.
Lemma ce_zero : cexp (Qmake 0 1) = 1.
Proof. by apply/(ce_int es); exists Z0. Qed.
Lemma ce_opp a : cexp (Qopp a) = (cexp a)^-1.
Proof.
have a0 : cexp a != 0 by apply: norm1_neq0 (ce_norm es a).
by apply: (mulfI a0); rewrite -(ce_add es) divff // -ce_zero; apply: (ce_eq es); exact: Qplus_opp_r.
Qed.
Lemma ce_frac q p : cexp (qfrac q p) = cexp (qfrac 1 p) ^+ q.
Proof.
elim: q => [|q IH]; first by rewrite expr0 -ce_zero; apply: (ce_eq es).
rewrite exprS -IH -(ce_add es); apply: (ce_eq es).
rewrite /qfrac /Qeq /Qplus; cbn [Qnum Qden]; rewrite Pos2Z.inj_mul Nat2Z.inj_succ; lia.
Qed.
Lemma posE p : (0 < p)%N -> Zpos (Pos.of_nat p) = Z.of_nat p.
Proof. by move=> p0; rewrite -[LHS]positive_nat_Z Nat2Pos.id //; case: p p0. Qed.
Lemma ce_prim p : (0 < p)%N -> p.-primitive_root (cexp (qfrac 1 p)).
Proof.
move=> p0; apply/andP; split => //; apply/forallP => i; apply/eqP.
rewrite unity_rootE -ce_frac; apply/eqP/eqP.
  move/(ce_int es) => [z]; rewrite /qfrac /Qeq /inject_Z; cbn [Qnum Qden]; rewrite posE // => h.
  have ip : (i.+1 <= p)%N by [].
  move/ssrnat.leP: ip => ip; move/ssrnat.ltP: p0 => p0.
  move: h ip; move: (nat_of_ord i) => i0 h ip; rewrite Z.mul_1_r in h.
  have [z1|z1] : (z <= 0 \/ 1 <= z)%coqZ by lia.
    by nia.
  have [z2|z2] : (z = 1 \/ 2 <= z)%coqZ by lia.
    by rewrite z2 Z.mul_1_l in h; lia.
  by nia.
move=> ->; apply/(ce_int es); exists (Zpos xH); rewrite /qfrac /Qeq /inject_Z; cbn [Qnum Qden].
by rewrite posE //; lia.
Qed.
End Exp.

(** * One pass of the loop *)
Section Step.
Variables (C : numClosedFieldType) (gT : finGroupType) (idx : gT -> nat) (n : nat).
Hypotheses (idx_inj : injective idx) (idx_lt : forall g, (idx g < n)%N) (idx_card : #|gT| = n).
Variables (t : table) (mu : nat -> nat -> C).
Hypothesis tE : forall x y, tget t (idx x) (idx y) = idx (x * y)%g.
Definition muG x y := mu (idx x) (idx y).
Hypothesis mufs : factor_system muG.

Variables (around : C -> C) (cpowinv nroot : C -> nat -> C) (rnd : nat -> forall d, 'M[C]_d) (cexp : Q -> C).
Variables (atol : C) (max_num : nat).
Hypothesis around_nat : forall m, around m%:R = m%:R.
Hypothesis cpowinvP : forall z m, (0 < m)%N -> cpowinv z m ^+ m = z.
Hypothesis nrootP : forall z m, (0 < m)%N -> nroot z m ^+ m = z.
Hypothesis ceP : exp_spec cexp.
Hypothesis atol0 : 0 <= atol.

Lemma idx_surj x : (x < n)%N -> exists g, idx g = x.
Proof.
move=> xn; have u : uniq [seq idx g | g <- enum gT] by rewrite map_inj_uniq // enum_uniq.
have s : {subset [seq idx g | g <- enum gT] <= iota 0 n}.
  by move=> y /mapP [g _ ->]; rewrite mem_iota idx_lt.
have [|_ e] := uniq_min_size u s; first by rewrite size_map size_iota -cardE idx_card.
have : x \in iota 0 n by rewrite mem_iota.
by rewrite -e => /mapP [g _ ->]; exists g.
Qed.
Definition elt (x : nat) : gT := if [pick g | idx g == x] is Some g then g else 1%g.
Lemma idxK g : elt (idx g) = g.
Proof. by rewrite /elt; case: pickP => [h /eqP /idx_inj //|/(_ g)]; rewrite eqxx. Qed.
Lemma eltK x : (x < n)%N -> idx (elt x) = x.
Proof. by case/idx_surj => g <-; rewrite idxK. Qed.

(** A list of group elements and the set it denotes. *)
Definition wf (H : seq nat) := uniq H && all (fun x => x < n)%N H.
Definition S (H : seq nat) : {set gT} := [set g | idx g \in H].
Lemma inS H g : (g \in S H) = (idx g \in H). Proof. by rewrite inE. Qed.
Lemma wf_elt H x : wf H -> x \in H -> idx (elt x) = x.
Proof. by case/andP=> _ /allP h /h; exact: eltK. Qed.
Lemma perm_S H : wf H -> perm_eq H [seq idx g | g <- enum (S H)].
Proof.
move=> w; have /andP [u a] := w.
apply: uniq_perm => //; first by rewrite map_inj_uniq // enum_uniq.
move=> x; apply/idP/mapP => [xH|[g]]; last by rewrite mem_enum inS => gH ->.
by exists (elt x); rewrite ?mem_enum ?inS (wf_elt w).
Qed.
Lemma big_S (V : zmodType) H (F : nat -> V) : wf H -> \sum_(x <- H) F x = \sum_(g in S H) F (idx g).
Proof. by move=> w; rewrite (perm_big _ (perm_S w)) /= big_map big_enum. Qed.
Lemma card_S H : wf H -> #|S H| = size H.
Proof. by move=> w; rewrite (perm_size (perm_S w)) size_map -cardE. Qed.

(** Arrays aligned with a list of elements. *)
Definition rep_of (H : seq nat) d (ms : seq 'M[C]_d) (g : gT) : 'M[C]_d := nth 0 ms (index (idx g) H).
Definition ms_of (H : seq nat) d (F : gT -> 'M[C]_d) : seq 'M[C]_d := [seq F (elt x) | x <- H].
Lemma rep_ms H d (F : gT -> 'M[C]_d) g : g \in S H -> rep_of H (ms_of H F) g = F g.
Proof. by rewrite inS => gH; rewrite /rep_of (nth_map 0%N) ?index_mem // nth_index // idxK. Qed.
Lemma ms_rep H d (ms : seq 'M[C]_d) : wf H -> size ms = size H -> ms_of H (rep_of H ms) = ms.
Proof.
move=> w sz; apply: (@eq_from_nth _ 0); first by rewrite size_map sz.
move=> i; rewrite size_map => iH; rewrite (nth_map 0%N) // /rep_of (wf_elt w) ?mem_nth //.
by rewrite index_uniq //; case/andP: w.
Qed.
Lemma at_eltE H d (ms : seq 'M[C]_d) g : g \in S H -> at_elt H ms (idx g) = COk (rep_of H ms g).
Proof. by rewrite inS /at_elt => ->. Qed.
Lemma char_sumE H d1 d2 (F : gT -> 'M[C]_d1) (G : gT -> 'M[C]_d2) : wf H ->
  char_sum (get_character_mats (ms_of H F)) (get_character_mats (ms_of H G)) = cip (S H) F G.
Proof.
move=> w; rewrite /char_sum /get_character_mats /ms_of -!map_comp zip_map big_map /=.
by rewrite big_S //; apply: eq_bigr => g _; rewrite /= idxK.
Qed.
Lemma intertwiner_sumE H d (F G : gT -> 'M[C]_d) R (gH : group_set (S H)) : wf H ->
  intertwiner_sum (ms_of H F) (ms_of H G) R = avg (Group gH) F G R.
Proof.
move=> w; rewrite /intertwiner_sum /ms_of zip_map big_map /= big_S //.
by apply: eq_bigr => g _; rewrite idxK.
Qed.

(** Equivalence test on unitary irreducible characters. *)
Lemma is_equivalentE H d1 d2 (F : gT -> 'M[C]_d1) (G : gT -> 'M[C]_d2) : wf H ->
  cip (S H) F G = 0 \/ cip (S H) F G = #|S H|%:R -> (0 < #|S H|)%N ->
  is_equivalent_irrep around (get_character_mats (ms_of H F)) (get_character_mats (ms_of H G))
   = (cip (S H) F G != 0).
Proof.
move=> w h c0; rewrite /is_equivalent_irrep char_sumE // !size_map -card_S //.
have nz : (#|S H|%:R : C) != 0 by rewrite pnatr_eq0 -lt0n.
case: h => ->; last by rewrite around_nat eqxx nz.
by have := around_nat 0; rewrite mulr0n => ->; rewrite eq_sym (negbTE nz) eqxx.
Qed.

(** What is maintained about each array and about the list. *)
Definition goodrep (H : seq nat) (A : arr C) : Prop :=
  [/\ size (amats A) = size H, projrep muG (S H) (rep_of H (amats A)),
      unirep (S H) (rep_of H (amats A)) &
      cip (S H) (rep_of H (amats A)) (rep_of H (amats A)) = #|S H|%:R].
Definition cov (H : seq nat) (l : seq (arr C)) m (B : gT -> 'M[C]_m) :=
  exists2 A, List.In A l & cip (S H) (rep_of H (amats A)) B != 0.
Definition orth (H : seq nat) (A A' : arr C) : Prop :=
  cip (S H) (rep_of H (amats A)) (rep_of H (amats A')) = 0.
Record good (H : seq nat) (l : seq (arr C)) : Prop := Good {
  g_rep : forall A, List.In A l -> goodrep H A;
  g_orth : List.ForallOrdPairs (orth H) l;
  g_cov : forall m (B : gT -> 'M[C]_m), (0 < m)%N -> projrep muG (S H) B -> cov H l B }.

(** ** Removing duplicates *)
Lemma good_dich H (gH : group_set (S H)) A B : goodrep H A -> goodrep H B ->
  cip (S H) (rep_of H (amats A)) (rep_of H (amats B)) = 0 \/
  (cip (S H) (rep_of H (amats A)) (rep_of H (amats B)) = #|S H|%:R /\
   equivalent (S H) (rep_of H (amats A)) (rep_of H (amats B))).
Proof.
case=> sA pA uA nA [sB pB uB nB].
by case: (cip_dich mufs (H := Group gH) pA uA nA pB uB nB) => [[-> _]|[-> h]]; [left|right].
Qed.
Lemma good_test H (gH : group_set (S H)) A B : wf H -> goodrep H A -> goodrep H B ->
  is_equivalent_irrep around (get_character A) (get_character B) =
  (cip (S H) (rep_of H (amats A)) (rep_of H (amats B)) != 0).
Proof.
move=> w gA gB; rewrite /get_character.
have [sA _ _ _] := gA; have [sB _ _ _] := gB.
rewrite -[in LHS](ms_rep w sA) -[in LHS](ms_rep w sB) is_equivalentE ?rep_ms //.
  by case: (good_dich gH gA gB) => [->|[-> _]]; [left|right].
exact: (cardG_gt0 (Group gH)).
Qed.
Lemma cip_equiv H (gH : group_set (S H)) d1 d2 m (D1 : gT -> 'M[C]_d1) (D2 : gT -> 'M[C]_d2) (B : gT -> 'M[C]_m) :
  equivalent (S H) D1 D2 -> cip (S H) D1 B = cip (S H) D2 B.
Proof. by move=> e; apply: eq_bigr => s sH; rewrite (equivalent_char (H := Group gH) e sH). Qed.

Lemma fop_rcons (P : arr C -> arr C -> Prop) l x : List.ForallOrdPairs P l ->
  (forall y, List.In y l -> P y x) -> List.ForallOrdPairs P (rcons l x).
Proof.
elim: l => [|a l IH] h hx /=; first by constructor; [constructor|constructor].
inversion_clear h; constructor.
  apply/List.Forall_forall => y; rewrite -cats1 List.in_app_iff /= => -[yl|[<-|//]].
    by move/List.Forall_forall: H; apply.
  by apply: hx; left.
by apply: IH => // y yl; apply: hx; right.
Qed.
Lemma In_rcons (x : arr C) l y : List.In x (rcons l y) <-> List.In x l \/ y = x.
Proof. by rewrite -cats1 List.in_app_iff /=; tauto. Qed.
Lemma hasP_In (p : arr C -> bool) l : has p l <-> exists2 x, List.In x l & p x.
Proof.
elim: l => [|a l IH] /=; first by split=> // -[].
split=> [/orP [pa|/IH [x xl px]]|[x [<-|xl] px]]; first by exists a; [left|].
- by exists x; [right|].
- by rewrite px.
- by apply/orP; right; apply/IH; exists x.
Qed.

Lemma unique_good K (gK : group_set (S K)) l : wf K -> (forall A, List.In A l -> goodrep K A) ->
  (forall m (B : gT -> 'M[C]_m), (0 < m)%N -> projrep muG (S K) B -> cov K l B) ->
  good K (unique_irreps around l).
Proof.
move=> w hl hc; rewrite /unique_irreps.
suff : forall acc, (forall A, List.In A acc -> goodrep K A) -> List.ForallOrdPairs (orth K) acc ->
   let res := foldl (fun acc A => if has (fun B => is_equivalent_irrep around (get_character A) (get_character B)) acc
                      then acc else rcons acc A) acc l in
   [/\ (forall A, List.In A res -> goodrep K A), List.ForallOrdPairs (orth K) res &
       forall m (B : gT -> 'M[C]_m), cov K l B \/ cov K acc B -> cov K res B].
  move=> /(_ [::]) [||h1 h2 h3]; [by []|by constructor|].
  by split=> // m B m0 pB; apply: h3; left; apply: hc.
elim: l hl {hc} => [|A l IH] hl acc ha ho /=.
  by split=> // m B [[?]|].
have gA : goodrep K A by apply: hl; left.
have hl' : forall A0, List.In A0 l -> goodrep K A0 by move=> A0 A0l; apply: hl; right.
case: ifP => [/hasP_In [A' A'acc t1]|/negP ne].
  have [h1 h2 h3] := IH hl' acc ha ho; split=> // m B c; apply: h3.
  case: c => [[A0 [<-|A0l] cB]|]; [right|by left; exists A0|by right].
  exists A' => //; move: t1; rewrite (good_test gK) //; last exact: ha.
  case: (good_dich gK gA (ha _ A'acc)) => [->|[_ e] _]; first by rewrite eqxx.
  by rewrite -(cip_equiv gK _ e).
have ha' : forall A0, List.In A0 (rcons acc A) -> goodrep K A0.
  by move=> A0 /In_rcons [/ha //|<-].
have ho' : List.ForallOrdPairs (orth K) (rcons acc A).
  apply: fop_rcons => // A' A'acc.
  case: (good_dich gK (ha _ A'acc) gA) => [//|[_ e]].
  exfalso; apply: ne; apply/hasP_In; exists A' => //; rewrite (good_test gK) //; last exact: ha.
  case: (good_dich gK gA (ha _ A'acc)) => [z|[-> _]]; last by rewrite (cardH_neq0 C (Group gK)).
  move: z; rewrite (cip_equiv gK _ (equivalent_sym (H := Group gK) e)); case: (ha _ A'acc) => _ _ _ -> /eqP.
  by rewrite (negbTE (cardH_neq0 C (Group gK))).
have [h1 h2 h3] := IH hl' _ ha' ho'.
split=> // m B c; apply: h3.
case: c => [[A0 [<-|A0l] cB]|[A0 A0a cB]].
- by right; exists A => //; apply/In_rcons; right.
- by left; exists A0.
- by right; exists A0 => //; apply/In_rcons; left.
Qed.

(** ** Arrays of the extended group *)
Lemma goodrep_ms K (gK : group_set (S K)) d (F : gT -> 'M[C]_d) : wf K ->
  projrep muG (S K) F -> unirep (S K) F -> cip (S K) F F = #|S K|%:R -> goodrep K (Arr (ms_of K F)).
Proof.
move=> w pF uF nF; split=> /=; first by rewrite size_map.
- split; first by rewrite rep_ms ?(pr_one pF) // (group1 (Group gK)).
  move=> x y xK yK; rewrite !rep_ms ?(pr_mul pF) //; exact: (groupM (G := Group gK)).
- by move=> x xK; rewrite rep_ms // uF.
- by rewrite -nF; apply: eq_bigr => s sK; rewrite rep_ms.
Qed.
Lemma cip_ms K d (F : gT -> 'M[C]_d) m (B : gT -> 'M[C]_m) :
  cip (S K) (rep_of K (ms_of K F)) B = cip (S K) F B.
Proof. by apply: eq_bigr => s sK; rewrite rep_ms. Qed.

Lemma search_some d (rep1 rep2 : seq 'M[C]_d) k i T :
  intertwiner_search cpowinv rnd atol rep1 rep2 k i = Some T ->
  exists R, ~~ allclose0 atol (intertwiner_sum rep1 rep2 R) /\
    T = (cpowinv (\det (intertwiner_sum rep1 rep2 R)) d)^-1 *: intertwiner_sum rep1 rep2 R.
Proof.
elim: k i => [|k IH] i //=; case: ifP => [_|ne]; first exact: IH.
by case=> <-; exists (rnd i d); rewrite ne.
Qed.
Lemma search_none d (rep1 rep2 : seq 'M[C]_d) k i :
  intertwiner_search cpowinv rnd atol rep1 rep2 k i = None ->
  forall j, (i <= j < i + k)%N -> allclose0 atol (intertwiner_sum rep1 rep2 (rnd j d)).
Proof.
elim: k i => [|k IH] i /=; first by move=> _ j; rewrite addn0; case: ltngtP.
case: ifP => // c /IH h j /andP [ij]; rewrite addnS -addSn => jk.
by case: (ltngtP i j) ij => // [ij _|<- //]; apply: h; rewrite ij jk.
Qed.
Lemma allclose00 m1 m2 : allclose0 atol (0 : 'M[C]_(m1, m2)).
Proof. by apply/forallP => i; apply/forallP => j; rewrite mxE normr0. Qed.

Section Pass.
Variables (H : seq nat) (r : gT) (p : nat) (KG : {group gT}).
Hypotheses (wH : wf H) (gH : group_set (S H)) (cx0 : cext (Group gH) KG r p) (p2 : (1 < p)%N).
Let p0 : (0 < p)%N := ltnW p2.
Let rm := powers t (idx 1%g) (idx r) p.
Let rinvm := powers t (idx 1%g) (idx r^-1%g) p.
Let K := extend_group t rm H.

Lemma powersE x m q : (m < q)%N -> nth 0%N (powers t (idx 1%g) (idx x) q) m = idx (x ^+ m)%g.
Proof.
move=> mp; rewrite /powers (set_nth_default (idx 1%g)) ?size_traject // nth_traject //.
by elim: m {mp} => [|m IH] //=; rewrite IH tE expgSr.
Qed.
Lemma rmE m : (m < p)%N -> nth 0%N rm m = idx (r ^+ m)%g.
Proof. exact: powersE. Qed.
Lemma rinvmE m : (m < p)%N -> nth 0%N rinvm m = idx (r ^+ m)^-1%g.
Proof. by move=> mp; rewrite /rinvm powersE // expgVn. Qed.

Lemma mem_rm x : x \in rm -> exists2 m, (m < p)%N & x = idx (r ^+ m)%g.
Proof.
move/(nthP 0%N) => [m]; rewrite size_traject => mp <-; exists m => //; exact: rmE.
Qed.
Lemma memK x : (x \in K) <-> exists m s, [/\ (m < p)%N, s \in S H & x = idx (r ^+ m * s)%g].
Proof.
rewrite /K /extend_group mem_sort mem_undup; split.
  case/flattenP => l /mapP [y /mem_rm [m mp ->] ->] /mapP [s sH ->].
  by exists m, (elt s); split=> //; rewrite ?inS -?tE (wf_elt wH).
case=> m [s [mp sH ->]]; apply/flattenP; exists [seq tget t (idx (r ^+ m)%g) s | s <- H].
  by apply: map_f; rewrite -(rmE mp) mem_nth // size_traject.
by rewrite -tE; apply: map_f; rewrite -inS.
Qed.
Lemma wK : wf K.
Proof.
apply/andP; split; first by rewrite sort_uniq undup_uniq.
by apply/allP => x /memK [m [s [_ _ ->]]].
Qed.
Lemma eK : S K = KG.
Proof.
apply/setP => g; rewrite inS; apply/idP/idP.
  case/memK => m [s [_ sH /idx_inj ->]]; rewrite groupM ?groupX ?(cx_r cx0) //.
  exact: (subsetP (cx_sub cx0)).
by move/(cx_cover cx0) => [m [s [mp sH ->]]]; apply/memK; exists m, s.
Qed.
Lemma gK : group_set (S K).
Proof. by rewrite eK; exact: groupP. Qed.
Lemma cx : cext (Group gH) (Group gK) r p.
Proof. by have -> : Group gK = KG by apply: val_inj; exact: eK. Qed.

Section OneRep.
Variable A : arr C.
Hypothesis gA : goodrep H A.
Let d := adim A.
Let D := rep_of H (amats A).
Let pD : projrep muG (Group gH) D. Proof. by case: gA. Qed.
Let uD : unirep (Group gH) D. Proof. by case: gA. Qed.
Let nD : cip (Group gH) D D = #|Group gH|%:R. Proof. by case: gA. Qed.
Let d0 : (0 < d)%N. Proof. exact: (norm1_dim (H := Group gH) nD). Qed.

Lemma conj_idxE j s : (j < p)%N -> conj_idx t rm rinvm j (idx s) = idx (s ^ (r ^+ j))%g.
Proof. by move=> jp; rewrite /conj_idx rmE // rinvmE // !tE. Qed.
Lemma conj_in j s : s \in S H -> (s ^ (r ^+ j))%g \in S H.
Proof. exact: (norm_pow cx). Qed.
Lemma conj_subE j : (j < p)%N ->
  conj_sub_irrep t mu H rm rinvm (amats A) j = COk (ms_of H (conjrep muG D (r ^+ j)%g)).
Proof.
move=> jp; apply: cmap_ok => x xH.
have sH : elt x \in S H by rewrite inS (wf_elt wH).
by rewrite -[in LHS](wf_elt wH xH) /= conj_idxE // at_eltE ?conj_in //= rmE.
Qed.
Lemma conjsE : cmap (conj_sub_irrep t mu H rm rinvm (amats A)) (iota 0 p) =
  COk [seq ms_of H (conjrep muG D (r ^+ j)%g) | j <- iota 0 p].
Proof. by apply: cmap_ok => j; rewrite mem_iota => /andP [_ jp]; apply: conj_subE. Qed.

Let D1 := conjrep muG D r.
Let pD1 : projrep muG (Group gH) D1.
Proof. exact: (conjrep_projrep mufs (H := Group gH) (cx_norm cx) pD). Qed.
Let uD1 : unirep (Group gH) D1.
Proof. exact: (conjrep_unirep mufs (H := Group gH) (cx_norm cx) uD). Qed.
Let nD1 : cip (Group gH) D1 D1 = #|Group gH|%:R.
Proof. exact: (conj_norm1 mufs nD (cx_norm cx)). Qed.
Lemma conj0E s : conjrep muG D (r ^+ 0)%g s = D s.
Proof. by rewrite expg0 /conjrep conjg1 (cj1 mufs) scale1r. Qed.
Lemma ms_eq F G : (forall s, s \in S H -> F s = G s) -> ms_of H F = ms_of H G :> seq 'M[C]_d.
Proof. by move=> e; apply/eq_in_map => x xH; apply: e; rewrite inS (wf_elt wH). Qed.
Lemma c0E : ms_of H (conjrep muG D (r ^+ 0)%g) = amats A.
Proof. by case: gA => sA _ _ _; rewrite -[RHS](ms_rep wH sA); apply: ms_eq => s _; exact: conj0E. Qed.
Lemma c1E : ms_of H (conjrep muG D (r ^+ 1)%g) = ms_of H D1.
Proof. by rewrite expg1. Qed.

(** The intertwiner found by the random search. *)
Lemma found_intertwiner T :
  get_intertwiner_mats cpowinv rnd atol max_num (amats A) (ms_of H D1) = Some T ->
  T != 0 /\ forall s, s \in S H -> D s *m T = T *m D1 s.
Proof.
have sA : size (amats A) = size H by case: gA.
rewrite /get_intertwiner_mats -{1}(ms_rep wH sA) => /search_some [R [nz ->]].
move: nz; rewrite (intertwiner_sumE _ _ _ gH) //; set M := avg _ _ _ _ => nz.
have hM : forall s, s \in S H -> D s *m M = M *m D1 s.
  exact: (avg_intertwines mufs (H := Group gH) R pD pD1 uD1).
have M0 : M != 0 by apply: contraNneq nz => ->; exact: allclose00.
have [e|[a [a0 h1 h2]]] := intertwiner_scalar mufs (H := Group gH) pD uD nD pD1 uD1 nD1 hM.
  by rewrite e eqxx in M0.
have dM : \det M != 0.
  have : \det (M *m adj M) != 0 by rewrite h1 det_scalar expf_neq0 // (gt_eqF a0).
  by rewrite det_mulmx mulf_eq0 negb_or => /andP [].
have c0 : cpowinv (\det M) d != 0.
  by apply: contraNneq dM => e; rewrite -(cpowinvP (\det M) d0) e expr0n; case: (d) d0.
split; first by rewrite scaler_eq0 invr_eq0 (negbTE c0).
by move=> s sH; rewrite -scalemxAr hM // -scalemxAl.
Qed.

Lemma missed_intertwiner : equivalent (S H) D D1 ->
  get_intertwiner_mats cpowinv rnd atol max_num (amats A) (ms_of H D1) = None ->
  unlucky_samples n rnd atol max_num.
Proof.
move=> [T [T' [h1 h2 h3]]].
have sA : size (amats A) = size H by case: gA.
rewrite /get_intertwiner_mats -{1}(ms_rep wH sA) => /search_none none.
have T0 : T != 0.
  apply: contraTneq d0 => T0; move: h1; rewrite T0 mul0mx => /(congr1 mxtrace).
  by rewrite mxtrace0 mxtrace1 => /eqP; rewrite eq_sym pnatr_eq0 -eqn0Ngt.
have [e|[a [a0 g1 g2]]] := intertwiner_scalar mufs (H := Group gH) pD uD nD pD1 uD1 nD1 h3.
  by rewrite e eqxx in T0.
have c0 : sqrtC a != 0 by rewrite sqrtC_eq0 gt_eqF.
have cc : (sqrtC a)^* = sqrtC a by rewrite conj_Creal // realE sqrtC_ge0 ltW.
pose U := (sqrtC a)^-1 *: T.
have UU : U *m adj U = 1%:M.
  rewrite /U adjZ fmorphV cc -scalemxAl -scalemxAr g1 scalerA scale_scalar_mx; congr (_%:M).
  by rewrite -invfM -expr2 sqrtCK mulVf // gt_eqF.
have hU s : s \in S H -> D s *m U = U *m D1 s by move=> sH; rewrite -scalemxAr h3 // -scalemxAl.
exists (size H), d, U; split=> //.
- have := cardG_gt0 (Group gH); rewrite card_S // => -> /=.
  by rewrite -card_S // -idx_card max_card.
- by rewrite expn_gt0 d0 -card_S // (norm1_dim2 (H := Group gH) pD nD).
- move=> tr i j trm; have := none tr; rewrite add0n => /(_ trm).
  rewrite (intertwiner_sumE _ _ _ gH) // => /forallP /(_ i) /forallP /(_ j).
  have -> : avg (Group gH) D D1 (rnd tr d) = (#|Group gH|%:R / d%:R * \tr (rnd tr d *m adj U)) *: U.
    have U2 : adj U *m U = 1%:M by apply: mulmx1C.
    rewrite -mul_scalar_mx -(avg_self mufs (H := Group gH) pD uD nD) /avg mulmx_suml; apply: eq_bigr => s sH.
    have -> : D1 s = adj U *m D s *m U by rewrite -mulmxA hU // mulmxA U2 mul1mx.
    by rewrite !adjM adjK !mulmxA.
  by rewrite mxE !normrM normfV !normr_nat card_S.
Qed.

Section SelfCase.
Variable T : 'M[C]_d.
Hypotheses (T0 : T != 0) (hT : forall s, s \in S H -> D s *m T = T *m D1 s).
Let kappa := \tr (mxpow p T) / d%:R.
Let P : C := \prod_(m < p) muG r (r ^+ m)%g.
Let w : C := nroot P p / cpowinv kappa p.
Let R := w *: T.
Let z : C := (cexp (qfrac 1 p))^-1.

Lemma entry00_scalar (a : C) : entry00 (a%:M : 'M[C]_d) = a.
Proof. by rewrite /entry00; case: insubP => [i _ _|]; rewrite ?d0 // mxE eqxx. Qed.
Lemma powT : iter p.-1 (mulmx T) T = kappa%:M.
Proof.
rewrite -(pow_p_scalar mufs cx pD uD nD hT) /mxpow -[in RHS](prednK p0) iterSr mulmx1 //.
Qed.
Lemma P_prod : \prod_(m <- iota 1 p.-1) mu (idx r) (nth 0%N rm m) = P.
Proof.
rewrite /P -(big_mkord predT (fun m => muG r (r ^+ m)%g)) /= /index_iota subn0.
rewrite -[in RHS](prednK p0) /= big_cons /= expg0 (mux1 mufs) mul1r.
apply: eq_big_seq => m; rewrite mem_iota add1n prednK // => /andP [_ mp].
by rewrite rmE.
Qed.
Lemma nP : `|P| = 1.
Proof. by rewrite normr_prod big1 // => m _; rewrite (fs_norm mufs). Qed.
Lemma kappa0 : kappa != 0.
Proof. exact: (pow_p_neq0 mufs cx pD uD nD hT T0). Qed.
Lemma wP : w ^+ p * kappa = P.
Proof. by rewrite exprMn exprVn nrootP // cpowinvP // mulfVK // kappa0. Qed.
Lemma delta_rE q : (1 / nroot P p * cexp (qfrac q p))^-1 *: scaled_intertwiner cpowinv T p = z ^+ q *: R.
Proof.
rewrite /scaled_intertwiner powT entry00_scalar /R /w !scalerA; congr (_ *: _).
by rewrite (ce_frac ceP) /z exprVn div1r invfM invrK mulrAC mulrC.
Qed.
Lemma delta_listE (X : 'M[C]_d) m : (m <= p)%N -> delta_list mu (idx r) rm X m = delta muG r X m.
Proof.
elim: m => [|m IH] //= mp; rewrite IH ?rmE // ltnW //.
Qed.
Lemma z_prim : p.-primitive_root z.
Proof.
have h := ce_prim ceP p0; apply/andP; split => //; apply/forallP => i.
have /andP [_ /forallP /(_ i) /eqP e] := h; apply/eqP; rewrite -e !unity_rootE.
by rewrite /z exprVn invr_eq1.
Qed.
Let Rq q := z ^+ q *: R.
Lemma Rq_w q : Rq q = (z ^+ q * w) *: T. Proof. by rewrite /Rq /R scalerA. Qed.
Lemma Rq_P q : (z ^+ q * w) ^+ p * kappa = P.
Proof. by rewrite exprMn -exprM mulnC exprM (prim_expr_order z_prim) expr1n mul1r wP. Qed.
Lemma self_caseE :
  self_conjugate_case cpowinv nroot cexp t mu H K rm (idx r) p (amats A) T =
  COk [seq Arr (ms_of K (extrep muG (Group gH) r p D (Rq q))) | q <- iota 0 p].
Proof.
rewrite /self_conjugate_case P_prod; apply: cmap_ok => q _; cbv zeta; rewrite delta_rE -/(Rq q).
rewrite (cmap_ok (g := fun ms_ : nat * nat => (tget t (nth 0%N rm ms_.1) ms_.2,
   (mu (nth 0%N rm ms_.1) ms_.2)^-1 *: (delta_list mu (idx r) rm (Rq q) ms_.1 *m D (elt ms_.2))))) /=; last first.
  move=> _ /allpairsP [[m s] [/= mp sH ->]].
  by rewrite -{1}(wf_elt wH sH) at_eltE ?inS ?(wf_elt wH) //=.
congr (COk (Arr _)); apply: assign_allP; first by case/andP: wK.
  move=> e /mapP [_ /allpairsP [[m s] [/= + sH ->]] -> /=]; rewrite mem_iota => /andP [_ mp].
  have sS : elt s \in S H by rewrite inS (wf_elt wH).
  rewrite rmE // -(wf_elt wH sH) tE idxK; split; first by apply/memK; exists m, (elt s).
  rewrite idxK delta_listE ?(ltnW mp) //.
  by rewrite /extrep (mofE cx) // mulKg.
move=> k /memK [m [s [mp sS ->]]]; apply/mapP.
exists (tget t (nth 0%N rm m) (idx s),
   (mu (nth 0%N rm m) (idx s))^-1 *: (delta_list mu (idx r) rm (Rq q) m *m D (elt (idx s)))); last first.
  by rewrite /= rmE // tE.
apply/mapP; exists (m, idx s) => //; apply/allpairsP; exists (m, idx s); split=> //=.
  by rewrite mem_iota.
by rewrite -inS.
Qed.
Lemma self_good q : goodrep K (Arr (ms_of K (extrep muG (Group gH) r p D (Rq q)))).
Proof.
have RD : forall s, s \in S H -> D s *m Rq q = Rq q *m conjrep muG D r s.
  by rewrite Rq_w; apply: (scaled_intertwines (H := Group gH)).
have Rp : mxpow p (Rq q) = P *: 1%:M.
  by rewrite Rq_w; apply: (scaled_pow mufs cx pD uD nD hT (Rq_P q)).
have uR : Rq q *m adj (Rq q) = 1%:M.
  by rewrite Rq_w; apply: (scaled_unitary mufs cx pD uD nD hT T0 nP (Rq_P q)).
apply: goodrep_ms; first exact: gK.
- exact: wK.
- exact: (ext_projrep mufs cx pD RD Rp).
- exact: (ext_unirep mufs cx Rp uR uD).
- exact: (ext_norm1 mufs cx pD Rp uD nD uR).
Qed.
Lemma self_cov m (B : gT -> 'M[C]_m) : cip (S H) D B != 0 ->
  cov K [seq Arr (ms_of K (extrep muG (Group gH) r p D (Rq q))) | q <- iota 0 p] B.
Proof.
move=> c0.
have := ext_frobenius mufs cx D R B z_prim => e.
have : \sum_(q < p) cip (S K) (extrep muG (Group gH) r p D (Rq q)) B != 0.
  by rewrite e mulf_neq0 // pnatr_eq0 -lt0n.
move=> nz; have [q cq] : exists q : 'I_p, cip (S K) (extrep muG (Group gH) r p D (Rq q)) B != 0.
  apply/existsP; apply: contraR nz; rewrite negb_exists => /forallP h.
  by apply/eqP; rewrite big1 // => q _; apply/eqP; have := h q; rewrite negbK.
exists (Arr (ms_of K (extrep muG (Group gH) r p D (Rq q)))); last by rewrite cip_ms.
by apply: List.in_map; apply/List.in_seq; split; [lia|apply/ssrnat.ltP; rewrite /= ltn_ord].
Qed.
End SelfCase.

Section IndCase.
Hypothesis prp : prime p.
Hypothesis ineq : cip (S H) D D1 = 0.
Let I := indrep muG (Group gH) r p D.
Lemma blk_support m s i j : (m < p)%N -> s \in S H -> (i < p)%N -> (j < p)%N ->
  ((r ^+ i)^-1 * (r ^+ m * s * r ^+ j))%g \in S H -> i = ((j + m) %% p)%N.
Proof.
move=> mp sH ip jp h.
have e : ((r ^+ i)^-1 * (r ^+ m * s * r ^+ j) = (r ^+ i)^-1 * r ^+ ((j + m) %% p) * (s ^ (r ^+ j)))%g.
  rewrite (pow_mod cx) addnC expgD -!mulgA; congr (_ * _)%g.
  by rewrite -conjgC !mulgA.
move: h; rewrite e => h.
have h' : ((r ^+ i)^-1 * r ^+ ((j + m) %% p))%g \in S H.
  by move: h; rewrite (groupMr (G := Group gH)) // conj_in.
apply: (cx_uniq cx (s := ((r ^+ i)^-1 * r ^+ ((j + m) %% p))%g) (s' := 1%g)) => //.
- by rewrite ltn_mod.
- by rewrite mulKVg mulg1.
Qed.
Lemma blkE m s j : (m < p)%N -> s \in S H -> (j < p)%N ->
  blk muG (Group gH) r D (r ^+ m * s)%g ((j + m) %% p) j =
  (muG (r ^+ m * s)%g (r ^+ j)%g / muG (r ^+ ((j + m) %% p))%g (s ^ (r ^+ j))%g) *: D (s ^ (r ^+ j))%g.
Proof.
move=> mp sH jp; rewrite /blk.
have -> : ((r ^+ ((j + m) %% p))^-1 * (r ^+ m * s * r ^+ j) = s ^ (r ^+ j))%g.
  by rewrite (pow_mod cx) addnC expgD invMg -!mulgA mulKg.
by rewrite (conj_in _ sH).
Qed.
Lemma induced_caseE : induced_case t mu H K rm rinvm p (amats A) = COk [:: Arr (ms_of K I)].
Proof.
rewrite /induced_case.
pose F k i j := blk muG (Group gH) r D (elt k) i j.
rewrite (cmap_ok (g := fun x : nat * nat * nat => (tget t (nth 0%N rm x.1.1) x.1.2,
   ((((x.2 + x.1.1) %% p)%N, x.2), F (tget t (nth 0%N rm x.1.1) x.1.2) ((x.2 + x.1.1) %% p)%N x.2)))) /=; last first.
  move=> _ /allpairsP [[[m s] j] [/= /allpairsP [[m' s'] [/= + sH [-> ->]]] + ->]].
  rewrite !mem_iota => /andP [_ mp] /andP [_ jp].
  have sS : elt s' \in S H by rewrite inS (wf_elt wH).
  rewrite !rmE ?ltn_mod // -(wf_elt wH sH) tE conj_idxE // at_eltE ?conj_in //=.
  by rewrite /F idxK blkE.
congr (COk [:: Arr _]); rewrite (assign_blocksP (F := F)) //; first by case/andP: wK.
- move=> e /mapP [x /allpairsP [[[m s] j] [/= /allpairsP [[m' s'] [/= + sH [-> ->]]] + ->]] -> /=].
  rewrite mem_iota => /andP [_ mp] _; split=> //.
  rewrite rmE // -(wf_elt wH sH) tE; apply/memK; exists m', (elt s'); split=> //.
  by rewrite inS (wf_elt wH).
- move=> k i j /memK [m [s [mp sS ->]]] ip jp.
  case: (eqVneq i ((j + m) %% p)%N) => [->|ne]; [left|right].
    apply/mapP; exists (idx (r ^+ m * s)%g, ((((j + m) %% p)%N, j), F (idx (r ^+ m * s)%g) ((j + m) %% p)%N j)) => //.
    apply/mapP; exists ((m, idx s), j); last by rewrite /= rmE // tE.
    apply/allpairsP; exists ((m, idx s), j); split=> //=; last by rewrite mem_iota.
    by apply/allpairsP; exists (m, idx s); split=> //=; rewrite ?mem_iota // -inS.
  rewrite /F idxK /blk; case: ifP => // h.
  by case/eqP: ne; apply: (blk_support mp sS ip jp h).
Qed.
Lemma ind_good : goodrep K (Arr (ms_of K I)).
Proof.
apply: goodrep_ms; first exact: gK.
- exact: wK.
- exact: (ind_projrep mufs cx pD).
- exact: (ind_unirep mufs cx uD).
- exact: (ind_norm1 mufs cx pD uD nD prp ineq).
Qed.
Lemma ind_cov m (B : gT -> 'M[C]_m) : projrep muG (S K) B -> cip (S H) D B != 0 -> cov K [:: Arr (ms_of K I)] B.
Proof.
move=> pB c0; exists (Arr (ms_of K I)); first by left.
by rewrite cip_ms (ind_frobenius mufs cx D pB) mulf_neq0 // pnatr_eq0 -lt0n.
Qed.
End IndCase.

(** The outcome for one sub-irrep. *)
Definition next_spec (l : seq (arr C)) : Prop :=
  (forall A', List.In A' l -> goodrep K A') /\
  (forall m (B : gT -> 'M[C]_m), projrep muG (S K) B -> cip (S H) D B != 0 -> cov K l B).
Hypothesis prp : prime p \/ S H = [set 1%g].
Lemma next_ok : let f := next_of around cpowinv nroot rnd cexp t mu atol max_num H K rm rinvm (idx r) p A in
  (f = CWarn /\ unlucky_samples n rnd atol max_num) \/ exists l, f = COk l /\ next_spec l.
Proof.
have [tl etl] : exists tl, [seq ms_of H (conjrep muG D (r ^+ j)) | j <- iota 0 p] =
    amats A :: ms_of H D1 :: tl.
  rewrite -c0E -c1E; move: p2; case: (p) => [|[|q]] // _.
  by exists [seq ms_of H (conjrep muG D (r ^+ j)) | j <- iota 2 q].
rewrite /next_of conjsE etl /=.
have sA : size (amats A) = size H by case: gA.
have di := cip_dich mufs (H := Group gH) pD uD nD pD1 uD1 nD1.
have ev : is_equivalent_irrep around (get_character_mats (amats A)) (get_character_mats (ms_of H D1)) =
    (cip (S H) D D1 != 0).
  rewrite -{1}(ms_rep wH sA) is_equivalentE //; last exact: (cardG_gt0 (Group gH)).
  by case: di => [[-> _]|[-> _]]; [left|right].
rewrite ev; case: ifP => [ne|/negbFE /eqP eq0].
  case E: get_intertwiner_mats => [T|]; [right|left; split=> //; apply: missed_intertwiner E].
    2: by case: di => [[z _]|[_ //]]; move: ne; rewrite z eqxx.
  have [T0 hT] := found_intertwiner E.
  exists [seq Arr (ms_of K (extrep muG (Group gH) r p D
    ((cexp (qfrac 1 p))^-1 ^+ q *: (nroot (\prod_(m < p) muG r (r ^+ m)%g) p / cpowinv (\tr (mxpow p T) / d%:R) p *: T))))
    | q <- iota 0 p].
  split; first exact: self_caseE.
  split; last by move=> m B _; exact: self_cov.
  by move=> A' /List.in_map_iff [k [<- _]]; exact: self_good.
right; exists [:: Arr (ms_of K (indrep muG (Group gH) r p D))]; split; first exact: induced_caseE.
have pp : prime p.
  case: prp => // e1; exfalso; move: eq0; rewrite /cip e1 big_set1.
  rewrite /D1 /conjrep conj1g (pr_one pD) mxtraceZ mxtrace1 /cj conj1g (mu1x mufs) (mux1 mufs) divr1 mul1r.
  by move/eqP; rewrite mulf_eq0 conjC_eq0 orbb pnatr_eq0 -leqn0 leqNgt -/d d0.
split; last by move=> m B; exact: ind_cov.
by move=> A' [<-|//]; exact: ind_good.
Qed.
End OneRep.

Hypothesis prp : prime p \/ S H = [set 1%g].
Hypotheses (ordE : get_order t (idx r) = p) (invE : get_inverse_index t (idx r) = Ret (idx r^-1%g)).
Lemma step_ok l : good H l ->
  let f := chain_step around cpowinv nroot rnd cexp t mu atol max_num (idx 1%g) (idx r) (H, l) in
  (f = CWarn /\ unlucky_samples n rnd atol max_num) \/ exists l', f = COk (K, l') /\ good K l'.
Proof.
move=> gl; rewrite /chain_step ordE invE (gtn_eqF p0) /=.
have := @cmap_inv _ _ (next_of around cpowinv nroot rnd cexp t mu atol max_num H K rm rinvm (idx r) p)
   (unlucky_samples n rnd atol max_num) next_spec l.
case=> [A Al|[-> q]|[ls [-> F2]]]; first by apply: next_ok => //; exact: (g_rep gl).
  by left.
right; exists (unique_irreps around (flatten ls)); split=> //.
have inF A' : List.In A' (flatten ls) <-> exists2 l', List.In l' ls & List.In A' l'.
  elim: (ls) => [|a ls' IH] /=; first by split=> // -[].
  rewrite List.in_app_iff IH; split=> [[h|[l' h1 h2]]|[l' [<-|h1] h2]].
  - by exists a; [left|].
  - by exists l'; [right|].
  - by left.
  - by right; exists l'.
apply: unique_good; [exact: gK|exact: wK| |].
  move=> A' /inF [l' l'ls A'l']; elim: F2 l'ls => [//|A0 l0 l1 ls1 [h _] _ IH [e|/IH //]].
  by apply: h; rewrite e.
move=> m B m0 pB.
have pBH : projrep muG (S H) B.
  split; first exact: (pr_one pB).
  by move=> x y xH yH; apply: (pr_mul pB); apply: (subHK cx).
have [A Al cA] := g_cov gl m0 pBH.
have [l' l'ls [A' A'l' c']] : exists2 l', List.In l' ls & cov K l' B.
  elim: F2 Al {gl inF} => [//|A0 l0 l1 ls1 [_ h] _ IH [e|/IH [l' h1 h2]]]; last by exists l'; [right|].
  by exists l0; [left|apply: h => //; rewrite e].
by exists A' => //; apply/inF; exists l'.
Qed.
End Pass.
End Step.
