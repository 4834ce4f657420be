(** The whole loop of the chain algorithm, and its result at index level. *)
From Coq Require Import QArith Lia Znumtheory.
From mathcomp Require Import all_ssreflect all_algebra all_fingroup.
From Verif Require Import Py GroupModel GroupSpec GroupProofs ChainSpec RepSpec RepModel CExpSpec ChainModel
  RepTheory ExtTheory IsoTheory ChainTheory IndexRepSpec IndexGroup CompleteTheory.
Import Order.TTheory GRing.Theory Num.Theory.
Set Implicit Arguments.
Unset Strict Implicit.
Unset Printing Implicit Defensive.
Local Open Scope ring_scope.

Lemma InP (T : eqType) (x : T) s : reflect (List.In x s) (x \in s).
Proof.
elim: s => [|a s IH]; first by constructor.
rewrite inE; apply: (iffP orP) => [[/eqP ->|/IH]|[->|/IH]]; [by left|by right|by left|by right].
Qed.
Lemma NoDup_uniq (T : eqType) (s : seq T) : List.NoDup s -> uniq s.
Proof. by elim=> [//|a l na _ IH] /=; rewrite IH andbT; apply/negP => /InP. Qed.
Lemma prime_Zprime p : Znumtheory.prime (Z.of_nat p) -> prime p.
Proof.
move=> pp; have p2 := prime_ge_2 _ pp; apply/primeP; split; first by apply/ssrnat.ltP; lia.
move=> k /dvdnP [q e].
have dv : (Z.of_nat k | Z.of_nat p)%coqZ by exists (Z.of_nat q); rewrite e -Nat2Z.inj_mul.
have h := prime_divisors _ pp _ dv; have : k = 1%N \/ k = p by lia.
by case=> ->; rewrite eqxx ?orbT.
Qed.

Section Loop.
Variables (n : nat) (t : table) (e : nat).
Hypotheses (W : wf_table n t) (G : group_law n (tget t) e).
Local Notation gT := (igT G).
Local Notation idx := (@ival _ _ _ G).
Variables (C : numClosedFieldType) (mu : nat -> nat -> C).
Hypothesis imufs : ifactor_system n (tget t) e mu.
Variables (around : C -> C) (cpowinv nroot : C -> nat -> C) (rnd : nat -> forall d, 'M[C]_d) (cexp : Q -> C).
Variables (atol : C) (max_num : nat).
Hypothesis around_nat : forall m, around m%:R = m%:R.
Hypothesis cpowinvP : forall z m, (0 < m)%N -> cpowinv z m ^+ m = z.
Hypothesis nrootP : forall z m, (0 < m)%N -> nroot z m ^+ m = z.
Hypothesis ceP : exp_spec cexp.
Hypothesis atol0 : 0 <= atol.

Let mufs : factor_system (muG idx mu) := ifs_fs G imufs.
Local Notation S := (@ChainTheory.S gT idx).
Local Notation wf := (ChainTheory.wf n).

Lemma mpowE g m : mpow (tget t) e (idx g) m = idx (g ^+ m)%g.
Proof. by elim: m => [|m IH] //=; rewrite IH expgSr. Qed.

Lemma subgroup_set H : ChainSpec.subgroup n (tget t) e H -> group_set (S H).
Proof.
case=> _ _ h1 h2; apply/group_setP; split; first by rewrite inE; apply/InP.
by move=> x y; rewrite !inE => /InP hx /InP hy; apply/InP; exact: h2.
Qed.

Lemma cyclic_cext H r K (gH : group_set (S H)) (gK : group_set (S K)) :
  cyclic_extension n (tget t) e H r K ->
  exists rr p, [/\ r = idx rr, cext (Group gH) (Group gK) rr p, (1 < p)%N,
     is_element_order (tget t) e r p & (prime p \/ S H = [set 1%g])].
Proof.
case=> sH sK rK nK [p [op [p2 [pr [cK mK]]]]].
have rn : (r < n)%N by apply/ssrnat.ltP; apply: (su_lt _ _ _ _ sK).
have [rr err] := ival_surj G rn; exists rr, p.
have wfl l : ChainSpec.subgroup n (tget t) e l -> wf l.
  case=> nd lt _ _; apply/andP; split; first exact: NoDup_uniq.
  by apply/allP => x /InP /lt /ssrnat.ltP.
have cS l : ChainSpec.subgroup n (tget t) e l -> #|S l| = size l.
  move=> sl; apply: (card_S (n := n)); [exact: ival_inj|exact: ival_lt|exact: ival_card|exact: wfl].
have rrK : rr \in S K by rewrite inE err; apply/InP.
have powp : (rr ^+ p = 1)%g.
  by case: op => _ [h _]; apply: (@ival_inj _ _ _ G); rewrite -mpowE err h.
have cov g : g \in S K <-> exists m s, [/\ (m < p)%N, s \in S H & g = (rr ^+ m * s)%g].
  rewrite inE; split.
    move/InP/mK => [m [s [mp [sH' ge]]]].
    have sn : (s < n)%N by apply/ssrnat.ltP; apply: (su_lt _ _ _ _ sH).
    have [ss ess] := ival_surj G sn; exists m, ss; split; first exact/ssrnat.ltP.
      by rewrite inE ess; apply/InP.
    by apply: (@ival_inj _ _ _ G); rewrite ge -err -ess mpowE.
  case=> m [s [mp sS ->]]; apply/InP; apply/mK; exists m, (idx s); split; first exact/ssrnat.ltP.
  split; first by apply/InP; rewrite inE in sS.
  by rewrite -err mpowE.
split=> //.
- split.
  + by move/ssrnat.leP: p2 => /ltnW.
  + apply/subsetP => g gS; apply/cov; exists 0%N, g; split=> //; last by rewrite expg0 mul1g.
    by move/ssrnat.leP: p2 => /ltnW.
  + exact: rrK.
  + move=> s sS.
    have rV : (rr^-1)%g \in S K by rewrite -[S K]/(gval (Group gK)) groupV.
    have [||s' [s'H h]] := nK (idx rr^-1%g) (idx s); [by apply/InP; move: rV; rewrite inE|by apply/InP; move: sS; rewrite inE|].
    have s'n : (s' < n)%N by apply/ssrnat.ltP; apply: (su_lt _ _ _ _ sH).
    have [ss ess] := ival_surj G s'n.
    have -> : (s ^ rr)%g = ss.
      have : (rr^-1 * s = ss * rr^-1)%g by apply: (@ival_inj _ _ _ G); rewrite !ivalM ess.
      by move=> h'; rewrite /conjg mulgA h' mulgKV.
    by rewrite inE ess; apply/InP.
  + exact: powp.
  + by move=> g /cov.
  + move=> m m' s s' mp mp' sS sS' eq.
    pose f (x : 'I_p * gT) := (rr ^+ x.1 * x.2)%g.
    pose X := setX [set: 'I_p] (S H).
    have fX : f @: X = S K.
      apply/setP => g; apply/imsetP/idP => [[[k h] /= ]|/cov [k [h [kp hS ->]]]].
        rewrite !inE /= => hH ->; rewrite /f /=.
        have : (rr ^+ k * h)%g \in S K by apply/cov; exists (nat_of_ord k), h; rewrite ltn_ord inE.
        by rewrite inE.
      by exists (Ordinal kp, h) => //; move: hS; rewrite !inE /=.
    have : {in X &, injective f}.
      apply/imset_injP; rewrite fX cardsX cardsT card_ord !cS //.
      by rewrite -[size K]/(length K) cK.
    move=> /(_ (Ordinal mp, s) (Ordinal mp', s')).
    rewrite /f /= => h; suff [] : (Ordinal mp, s) = (Ordinal mp', s') by [].
    by apply: h => //; rewrite in_setX in_setT.
- by move/ssrnat.leP: p2.
- case: pr => [/prime_Zprime|->]; [by left|right].
  by apply/setP => g; rewrite !inE -(inj_eq (@ival_inj _ _ _ G)) ival1.
Qed.

Lemma order_uniq r p q : is_element_order (tget t) e r p -> is_element_order (tget t) e r q -> p = q.
Proof.
move=> [h1 [h2 h3]] [k1 [k2 k3]]; case: (ltngtP p q) => // h.
  by case: (k3 p); [lia|exact/ssrnat.ltP|].
by case: (h3 q); [lia|exact/ssrnat.ltP|].
Qed.

Lemma loop_ok rs F H' : normal_series n (tget t) e H' rs F -> forall H l,
  S H = S H' -> wf H -> sorted leq H -> good idx mu H l -> group_set (S H) ->
  let f := chain_loop around cpowinv nroot rnd cexp t mu atol max_num e rs (H, l) in
  (f = CWarn /\ unlucky_samples n rnd atol max_num) \/ exists K l', [/\ f = COk (K, l'), S K = S F, wf K, sorted leq K & good idx mu K l'].
Proof.
elim=> [H1|H1 r K' rs' F' ce _ IH] H l eS wH sH gl gH /=; first by right; exists H, l.
have gH' : group_set (S H1) by rewrite -eS.
have gK' : group_set (S K') by apply: subgroup_set; case: ce.
have [rr [p [er cx p1 op prp]]] := cyclic_cext gH' gK' ce.
have cx' : cext (Group gH) (Group gK') rr p.
  by have -> : Group gH = Group gH' by apply: val_inj.
have rn : (idx rr < n)%N := ival_lt rr.
have ordE : get_order t (idx rr) = p.
  rewrite -er; apply: (@order_uniq r) => //.
  by rewrite er; have [] := get_order_correct n t e (idx rr) W G (elimT ssrnat.ltP rn).
have invE : get_inverse_index t (idx rr) = Ret (idx rr^-1%g).
  have [i [-> [ni [h1 h2]]]] := inverse_index_correct n t e (idx rr) W G (elimT ssrnat.ltP rn).
  have [g eg] := ival_surj G (introT ssrnat.ltP ni); congr Ret; rewrite -eg; congr ival.
  apply: (mulgI rr); rewrite mulgV; apply: (@ival_inj _ _ _ G); by rewrite ivalM eg.
rewrite er.
have := @step_ok C gT idx n (@ival_inj _ _ _ G) (@ival_lt _ _ _ G) (@ival_card _ _ _ G) t mu
  (fun x y => erefl) mufs around cpowinv nroot rnd cexp atol max_num around_nat cpowinvP nrootP ceP atol0
  H rr p (Group gK') wH gH cx' p1 _ ordE invE l gl.
rewrite eS => /(_ prp) /=.
case=> [[-> q]|[l' [-> gl']]]; first by left.
set K := extend_group _ _ _ in gl' *.
rewrite /=; apply: IH => //.
- exact: (eK (@ival_inj _ _ _ G) (@ival_lt _ _ _ G) (@ival_card _ _ _ G) (fun x y => erefl) wH cx').
- exact: (wK (@ival_inj _ _ _ G) (@ival_lt _ _ _ G) (@ival_card _ _ _ G) (fun x y => erefl) rr p wH).
- by apply: sort_sorted; exact: leq_total.
- have -> // : S K = S K'.
  exact: (eK (@ival_inj _ _ _ G) (@ival_lt _ _ _ G) (@ival_card _ _ _ G) (fun x y => erefl) wH cx').
Qed.
Lemma base_good : good idx mu [:: e] [:: @Arr C 1 [:: const_mx 1]].
Proof.
have eS : S [:: e] = [set 1%g] by apply/setP => g; rewrite !inE -(inj_eq (@ival_inj _ _ _ G)) ival1.
have c1 : const_mx 1 = 1%:M :> 'M[C]_1 by apply/matrixP => i j; rewrite !ord1 !mxE eqxx.
have rE : rep_of idx [:: e] [:: const_mx 1 : 'M[C]_1] 1%g = 1%:M by rewrite /rep_of ival1 /= eqxx.
have mE : muG idx mu 1%g 1%g = 1 by exact: (fs_one mufs).
split.
- move=> A [<-|//]; split=> //=.
  + split=> // x y; rewrite eS !inE => /eqP -> /eqP ->.
    by rewrite mulg1 !rE mulmx1 mE scale1r.
  + by move=> x; rewrite eS !inE => /eqP ->; rewrite rE mul1mx /adj map_mx1 trmx1.
  + by rewrite eS /cip big_set1 !rE mxtrace1 cards1 conjC1 mulr1.
- by constructor; constructor.
- move=> m B m0 [B1 _]; exists (@Arr C 1 [:: const_mx 1]); first by left.
  by rewrite eS /cip big_set1 rE B1 !mxtrace1 conjC1 mul1r pnatr_eq0 -lt0n.
Qed.

Lemma orth_nth (l : seq (arr C)) H i j : List.ForallOrdPairs (orth idx H) l -> (i < j < size l)%N ->
  orth idx H (nth (@Arr C 0 [::]) l i) (nth (@Arr C 0 [::]) l j).
Proof.
move=> F; elim: F i j => [|a l' h _ IH] i j; first by rewrite andbC.
case: j => [|j]; first by rewrite andbC. case: i => [|i] /=; last by exact: IH.
rewrite ltnS => jl; move/List.Forall_forall: h; apply; move: jl; clear.
elim: l' j => [|b l' IH] [|j] //= h; [by left|right; exact: IH].
Qed.

Lemma nth_In (T : Type) (x0 : T) (l : seq T) i : (i < size l)%N -> List.In (nth x0 l i) l.
Proof. by elim: l i => [|a l IH] [|i] //= h; [left|right; exact: IH]. Qed.
Lemma In_nth (T : Type) (x0 : T) (l : seq T) a : List.In a l -> exists2 i, (i < size l)%N & nth x0 l i = a.
Proof. by elim: l => [|b l IH] //= [<-|/IH [i h1 h2]]; [exists 0%N|exists i.+1]. Qed.

(** The i-th array of a list. *)
Definition lget (l : seq (arr C)) (i : nat) : arr C := nth (@Arr C 0 [::]) l i.

Theorem chain_result gens : chain_of_group n (tget t) e gens ->
  let f := enumerate_unitary_irreps_from_solvable_group_chain around cpowinv nroot rnd cexp t mu atol max_num gens in
  (f = CWarn /\ unlucky_samples n rnd atol max_num) \/ exists L, [/\ f = COk (L, true),
    forall k, (k < size L)%N -> aorder (lget L k) = n &
    complete_irreps n (tget t) e mu (size L) (fun k => aget (lget L k))].
Proof.
move=> [F [ns Fall]]; rewrite /enumerate_unitary_irreps_from_solvable_group_chain.
rewrite (identity_index_correct n t e W G) /=.
have eS : S [:: e] = [set 1%g] by apply/setP => g; rewrite !inE -(inj_eq (@ival_inj _ _ _ G)) ival1.
have := loop_ok ns (H := [:: e]) (erefl _) _ _ base_good _.
have -> : ChainTheory.wf n [:: e] by rewrite /ChainTheory.wf /= (ig_e G).
rewrite eS => /(_ isT isT (group_set_one gT)) /=.
have -> : seq.rev gens = List.rev gens.
  elim: gens {ns} => [|a l IH] //=; rewrite rev_cons IH -cats1 //.
case=> [[-> q]|[K [l [-> KF wK sK gl]]]]; [by left|right].
have FT : S F = [set: gT].
  by apply/setP => g; rewrite !inE; apply/InP/Fall; apply/ssrnat.ltP; exact: ival_lt.
rewrite FT in KF.
have KE : K = iota 0 n.
  case/andP: wK => uK aK; apply: (sorted_eq leq_trans anti_leq) => //; first exact: iota_sorted.
  apply: uniq_perm => //; first exact: iota_uniq.
  move=> x; rewrite mem_iota /= add0n; apply/idP/idP => [xK|xn]; first by move/allP: aK; apply.
  by have [g <-] := ival_surj G xn; have : g \in S K by [rewrite KF inE]; rewrite inE.
have st : size t = n by case: W.
exists l; split.
- by rewrite /= st KE eqxx.
- move=> k kl; have [sz _ _ _] := g_rep gl (nth_In (@Arr C 0 [::]) kl).
  by rewrite /aorder -/(lget l k) sz KE size_iota.
have rE A g : rep_of idx K (amats A) g = aget A (idx g).
  by rewrite /rep_of /aget KE; have := index_uniq 0%N (s := iota 0 n) (i := idx g); rewrite size_iota nth_iota ?ival_lt // add0n => ->; rewrite ?iota_uniq.
have cE A B : cip (S K) (rep_of idx K (amats A)) (rep_of idx K (amats B)) = icip n (aget A) (aget B).
  by rewrite (icipE G) KF; apply: eq_bigr => g _; rewrite !rE.
have gr k : (k < size l)%N -> goodrep idx mu K (lget l k) by move=> kl; apply: (g_rep gl); exact: nth_In.
apply: (complete_from_orth G imufs) => [k /gr [_ pk _ _]|k /gr [_ _ uk _]|k k' kl kl'|m B m0 pB].
- apply/(iprojrepE G); rewrite -KF; case: pk => h1 h2; split=> [|x y xK yK]; rewrite -?rE //.
  exact: h2.
- by apply/(iunitaryE G) => x _; rewrite -!rE; apply: uk; rewrite KF inE.
- rewrite -cE; case: (ltngtP k k') => [lt|lt|<-].
  + by apply: (orth_nth (g_orth gl)); rewrite lt.
  + have := orth_nth (g_orth gl) (i := k') (j := k); rewrite lt kl => /(_ isT) z.
    apply: (can_inj (@conjCK C)); rewrite conjC0 -[RHS]z /cip rmorph_sum; apply: eq_bigr => g _ /=.
    by rewrite rmorphM /= conjCK mulrC.
  + by case: (gr k kl) => _ _ _ ->; rewrite KF cardsT ival_card.
- have [|A Al] := g_cov gl (B := fun g => B (idx g)) m0.
    by move/(iprojrepE G): pB; rewrite KF.
  have [k kl <-] := In_nth (@Arr C 0 [::]) Al => nz.
  exists k; split=> //; move: nz; apply: contraNneq => z; rewrite -{}z (icipE G) KF; apply/eqP.
  by apply: eq_bigr => g _; rewrite rE.
Qed.
End Loop.
