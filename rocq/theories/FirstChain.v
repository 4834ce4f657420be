(** The chain method puts the identity representation first. *)
From Coq Require Import Lia ZArith QArith Znumtheory.
From mathcomp Require Import all_ssreflect all_algebra all_fingroup.
From Verif Require Import Py GroupModel GroupSpec GroupProofs RepSpec RepModel CExpSpec ChainSpec ChainModel RepTheory
  ExtTheory IsoTheory ChainTheory IndexRepSpec IndexGroup CompleteTheory ChainLoop FirstSpec.
Import Order.TTheory GRing.Theory Num.Theory.
Set Implicit Arguments.
Unset Strict Implicit.
Unset Printing Implicit Defensive.
Local Open Scope ring_scope.

Lemma unique_head (C : numClosedFieldType) (around : C -> C) (A : arr C) l :
  exists l', unique_irreps around (A :: l) = A :: l'.
Proof.
pose f (acc : seq (arr C)) B := if has (fun B' => is_equivalent_irrep around (get_character B) (get_character B')) acc then acc else rcons acc B.
have h : forall s acc, exists l', foldl f (A :: acc) s = A :: l'.
  elim=> [|B s IH] acc; first by exists acc.
  rewrite [foldl _ _ _]/(foldl f (f (A :: acc) B) s) /f -/f; case: ifP => _; first exact: IH.
  by rewrite rcons_cons; exact: IH.
exact: (h l [::]).
Qed.

Section Step.
Variables (C : numClosedFieldType) (gT : finGroupType) (idx : gT -> nat) (n : nat).
Hypotheses (idx_inj : injective idx) (idx_lt : forall g, (idx g < n)%N) (idx_card : #|gT| = n).
Variables (t : table) (mu : nat -> nat -> C).
Hypothesis tE : forall x y, tget t (idx x) (idx y) = idx (x * y)%g.
Hypothesis mufs : factor_system (muG idx mu).
Hypothesis mu1 : forall i j, (i < n)%N -> (j < n)%N -> mu i j = 1.
Variables (around : C -> C) (cpowinv nroot : C -> nat -> C) (rnd : nat -> forall d, 'M[C]_d) (cexp : Q -> C).
Variables (atol : C) (max_num : nat).
Hypothesis around_nat : forall m, around m%:R = m%:R.
Hypothesis cpowinvP : forall z m, (0 < m)%N -> cpowinv z m ^+ m = z.
Hypothesis nrootP : forall z m, (0 < m)%N -> nroot z m ^+ m = z.
Hypothesis ceP : exp_spec cexp.
Hypothesis atol0 : 0 <= atol.
Hypothesis root1 : forall m, (0 < m)%N -> cpowinv 1 m = 1 /\ nroot 1 m = 1.
Local Notation S := (@ChainTheory.S gT idx).
Local Notation wf := (ChainTheory.wf n).

Lemma muG1 x y : muG idx mu x y = 1. Proof. by apply: mu1. Qed.
Lemma rep_unit H g : g \in S H -> rep_of idx H (nseq (size H) (1%:M : 'M[C]_1)) g = 1%:M.
Proof. by rewrite inE => h; rewrite /rep_of nth_nseq index_mem h. Qed.

Variables (H : seq nat) (r : gT) (p : nat) (KG : {group gT}).
Hypotheses (wH : wf H) (gH : group_set (S H)) (cx0 : cext (Group gH) KG r p) (p2 : (1 < p)%N).
Let p0 : (0 < p)%N := ltnW p2.
Let rm := powers t (idx 1%g) (idx r) p.
Let rinvm := powers t (idx 1%g) (idx r^-1%g) p.
Let K := extend_group t rm H.
Hypothesis gA : goodrep idx mu H (unit_arr C (size H)).

Lemma next_first l : next_of around cpowinv nroot rnd cexp t mu atol max_num H K rm rinvm (idx r) p (unit_arr C (size H)) = COk l ->
  exists l', l = unit_arr C (size K) :: l'.
Proof.
set A := unit_arr C (size H); pose D := rep_of idx H (amats A).
pose D1 := conjrep (muG idx mu) D r.
have cx : cext (Group gH) (Group (gK idx_inj idx_lt idx_card tE wH cx0)) r p := cx idx_inj idx_lt idx_card tE wH cx0.
have D_1 s : s \in S H -> D s = 1%:M by exact: rep_unit.
have D1_1 s : s \in S H -> D1 s = 1%:M.
  move=> sH; rewrite /D1 /conjrep /cj !muG1 divr1 scale1r; apply: D_1.
  by have := norm_pow cx 1 sH; rewrite expg1.
have msD : ms_of idx H D1 = amats A.
  rewrite /ms_of /A /=; apply: (@eq_from_nth _ 0); rewrite size_map ?size_nseq // => i hi.
  rewrite (nth_map 0%N) // nth_nseq hi D1_1 // inE (wf_elt idx_inj idx_lt idx_card wH) // mem_nth //.
have [tl etl] : exists tl, [seq ms_of idx H (conjrep (muG idx mu) D (r ^+ j)) | j <- iota 0 p] =
    amats A :: ms_of idx H D1 :: tl.
  rewrite -(c0E idx_inj idx_lt idx_card mufs r wH gA) -(c1E idx mu H r A).
  by move: p2; case: (p) => [|[|q]] // _; exists [seq ms_of idx H (conjrep (muG idx mu) D (r ^+ j)) | j <- iota 2 q].
rewrite /next_of (conjsE idx_inj idx_lt idx_card mu tE wH cx0 A) etl /=.
have cardH : (0 < size H)%N by rewrite -(card_S idx_inj idx_lt idx_card wH); exact: (cardG_gt0 (Group gH)).
have -> : is_equivalent_irrep around (get_character_mats (nseq (size H) (1%:M : 'M[C]_1))) (get_character_mats (ms_of idx H D1)).
  rewrite msD -[nseq (size H) _]/(amats A) -[amats A](ms_rep idx_inj idx_lt idx_card wH (ms := amats A)) ?size_nseq //.
  have eA : cip (S H) (rep_of idx H (amats A)) (rep_of idx H (amats A)) = #|S H|%:R by case: gA.
  have cH : (0 < #|S H|)%N := cardG_gt0 (Group gH).
  rewrite (is_equivalentE idx_inj idx_lt idx_card around_nat wH); [by rewrite eA pnatr_eq0 -lt0n|by right|by []].
case ET: get_intertwiner_mats => [T|//].
have [T0 hT] := found_intertwiner idx_inj idx_lt idx_card tE mufs cpowinvP atol0 wH cx0 gA ET.
have T1 : T = 1%:M.
  move: ET; rewrite /get_intertwiner_mats => /search_some [R [nz eT]]; move: T0; rewrite eT; set M := intertwiner_sum _ _ _.
  have eM : M = (M 0 0)%:M by apply/matrixP => i j; rewrite !ord1 [RHS]mxE eqxx.
  rewrite eM det_scalar expr1 -[cpowinv _ 1]expr1 cpowinvP // scale_scalar_mx => m0.
  by rewrite mulVf //; apply: contraNneq m0 => ->; rewrite mulr0 -scalemx1 scale0r.
rewrite (self_caseE idx_inj idx_lt idx_card tE mufs cpowinv nroot ceP wH cx0 p2 gA hT) => -[<-].
rewrite -[in iota 0 p](prednK p0) /= expr0 scale1r T1.
have -> : mxpow p (1%:M : 'M[C]_1) = 1%:M by rewrite /mxpow; elim: (p) => //= q ->; rewrite mulmx1.
rewrite mxtrace1 divr1 big1 => [|m _]; last exact: muG1.
have [-> ->] := root1 p0; rewrite divr1 scale1r.
eexists; congr (_ :: _); rewrite /unit_arr; congr Arr; rewrite -/rm -/K.
have dl m : delta (muG idx mu) r (1%:M : 'M[C]_1) m = 1%:M.
  by elim: m => //= m ->; rewrite muG1 invr1 scale1r mulmx1.
have wKK : wf K := wK idx_inj idx_lt idx_card tE r p wH.
apply: (@eq_from_nth _ 0); rewrite size_map ?size_nseq // => i hi.
rewrite (nth_map 0%N) // nth_nseq hi /extrep muG1 invr1 scale1r dl mul1mx.
have /(memK idx_inj idx_lt idx_card tE r p wH) [m [s [mp sH ->]]] : nth 0%N K i \in K by exact: mem_nth.
by rewrite idxK // (mofE cx) // mulKg; exact: D_1.
Qed.

Hypotheses (ordE : get_order t (idx r) = p) (invE : get_inverse_index t (idx r) = Ret (idx r^-1%g)).
Lemma step_first l K' l' :
  chain_step around cpowinv nroot rnd cexp t mu atol max_num (idx 1%g) (idx r) (H, unit_arr C (size H) :: l) = COk (K', l') ->
  exists l1, l' = unit_arr C (size K') :: l1.
Proof.
rewrite /chain_step ordE invE (gtn_eqF p0) /=.
case E: next_of => [a|||] //=; case: cmap => [ls|||] //= [<- <-].
have [l1 ->] := next_first E; exact: unique_head.
Qed.
End Step.

Section Loop.
Variables (n : nat) (t : table) (e : nat).
Hypotheses (W : wf_table n t) (G : group_law n (tget t) e).
Local Notation gT := (igT G).
Local Notation idx := (@ival _ _ _ G).
Variables (C : numClosedFieldType) (mu : nat -> nat -> C).
Hypothesis imufs : ifactor_system n (tget t) e mu.
Hypothesis mu1 : forall i j, (i < n)%N -> (j < n)%N -> mu i j = 1.
Variables (around : C -> C) (cpowinv nroot : C -> nat -> C) (rnd : nat -> forall d, 'M[C]_d) (cexp : Q -> C).
Variables (atol : C) (max_num : nat).
Hypothesis around_nat : forall m, around m%:R = m%:R.
Hypothesis cpowinvP : forall z m, (0 < m)%N -> cpowinv z m ^+ m = z.
Hypothesis nrootP : forall z m, (0 < m)%N -> nroot z m ^+ m = z.
Hypothesis ceP : exp_spec cexp.
Hypothesis atol0 : 0 <= atol.
Hypothesis root1 : forall m, (0 < m)%N -> cpowinv 1 m = 1 /\ nroot 1 m = 1.
Let mufs : factor_system (muG idx mu) := ifs_fs G imufs.
Local Notation S := (@ChainTheory.S gT idx).
Local Notation wf := (ChainTheory.wf n).

Lemma loop_first rs F H' : normal_series n (tget t) e H' rs F -> forall H l,
  S H = S H' -> wf H -> sorted leq H -> good idx mu H (unit_arr C (size H) :: l) -> group_set (S H) ->
  forall K l', chain_loop around cpowinv nroot rnd cexp t mu atol max_num e rs (H, unit_arr C (size H) :: l) = COk (K, l') ->
  exists l1, l' = unit_arr C (size K) :: l1.
Proof.
elim=> [H1|H1 r K' rs' F' ce _ IH] H l eS wH sH gl gH K l'; first by case=> <- <-; exists l.
rewrite [chain_loop _ _ _ _ _ _ _ _ _ _ _ _]/(cbind (chain_step around cpowinv nroot rnd cexp t mu atol max_num e r
  (H, unit_arr C (size H) :: l)) (chain_loop around cpowinv nroot rnd cexp t mu atol max_num e rs')).
have gH' : group_set (S H1) by rewrite -eS.
have gK' : group_set (S K') by apply: subgroup_set; case: ce.
have [rr [p [er cx p1 op prp]]] := cyclic_cext gH' gK' ce.
have cx' : cext (Group gH) (Group gK') rr p.
  by have -> : Group gH = Group gH' by apply: val_inj.
have rn : (idx rr < n)%N := ival_lt rr.
have ordE : get_order t (idx rr) = p.
  rewrite -er; apply: (@order_uniq t e r) => //.
  by rewrite er; have [] := get_order_correct n t e (idx rr) W G (elimT ssrnat.ltP rn).
have invE : get_inverse_index t (idx rr) = Ret (idx rr^-1%g).
  have [i [-> [ni [h1 h2]]]] := inverse_index_correct n t e (idx rr) W G (elimT ssrnat.ltP rn).
  have [g eg] := ival_surj G (introT ssrnat.ltP ni); congr Ret; rewrite -eg; congr ival.
  apply: (mulgI rr); rewrite mulgV; apply: (@ival_inj _ _ _ G); by rewrite ivalM eg.
rewrite er.
have := @step_ok C gT idx n (@ival_inj _ _ _ G) (@ival_lt _ _ _ G) (@ival_card _ _ _ G) t mu
  (fun x y => erefl) mufs around cpowinv nroot rnd cexp atol max_num around_nat cpowinvP nrootP ceP atol0
  H rr p (Group gK') wH gH cx' p1 _ ordE invE _ gl.
rewrite eS => /(_ prp); cbv zeta.
have := @step_first C gT idx n (@ival_inj _ _ _ G) (@ival_lt _ _ _ G) (@ival_card _ _ _ G) t mu
  (fun x y => erefl) mufs mu1 around cpowinv nroot rnd cexp atol max_num around_nat cpowinvP ceP atol0 root1
  H rr p (Group gK') wH gH cx' p1 (g_rep gl (or_introl erefl)) ordE invE l.
move=> hd [[E q]|[l0 [E gl']]]; first by rewrite -{1}(ival1 G) E.
 rewrite -{1}(ival1 G) E; move/hd: E => [l1 El]; subst l0.
set K0 := extend_group _ _ _ in gl' *.
apply: IH => //.
- exact: (eK (@ival_inj _ _ _ G) (@ival_lt _ _ _ G) (@ival_card _ _ _ G) (fun x y => erefl) wH cx').
- exact: (wK (@ival_inj _ _ _ G) (@ival_lt _ _ _ G) (@ival_card _ _ _ G) (fun x y => erefl) rr p wH).
- by apply: sort_sorted; exact: leq_total.
- have -> // : S K0 = S K'.
  exact: (eK (@ival_inj _ _ _ G) (@ival_lt _ _ _ G) (@ival_card _ _ _ G) (fun x y => erefl) wH cx').
Qed.

Lemma chain_first gens L : chain_of_group n (tget t) e gens ->
  enumerate_unitary_irreps_from_solvable_group_chain around cpowinv nroot rnd cexp t mu atol max_num gens = COk (L, true) ->
  exists L', L = unit_arr C n :: L'.
Proof.
move=> [F [ns Fall]]; rewrite /enumerate_unitary_irreps_from_solvable_group_chain.
rewrite (identity_index_correct n t e W G) /=.
have eS : S [:: e] = [set 1%g] by apply/setP => g; rewrite !inE -(inj_eq (@ival_inj _ _ _ G)) ival1.
have -> : seq.rev gens = List.rev gens.
  elim: gens {ns} => [|a l IH] //=; rewrite rev_cons IH -cats1 //.
have c1 : const_mx 1 = 1%:M :> 'M[C]_1 by apply/matrixP => i j; rewrite !ord1 !mxE eqxx.
have bg := base_good G imufs.
rewrite c1 in bg *; case E: chain_loop => [[K l]|||] //=; case: ifP => // /eqP eK [<-].
have := @loop_first _ _ _ ns [:: e] [::] (erefl _) _ _ bg _ K l E.
have -> : wf [:: e] by rewrite /ChainTheory.wf /= (ig_e G).
rewrite eS => /(_ isT isT (group_set_one gT)) [l1 ->]; exists l1.
have st : size t = n by case: W.
by rewrite eK size_iota st.
Qed.
End Loop.
