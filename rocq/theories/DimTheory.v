(** Dimensions of irreducible representations along a normal series. *)
From Coq Require Import QArith Lia Znumtheory List.
From mathcomp Require Import all_ssreflect all_algebra all_fingroup.
From Verif Require Import Py GroupModel GroupSpec GroupProofs ChainSpec RepSpec RepModel CExpSpec ChainModel
  RepTheory ExtTheory IsoTheory ChainTheory IndexRepSpec IndexGroup CompleteTheory ChainProofs ChainLoop ExpInstance.
Import Order.TTheory GRing.Theory Num.Theory.
Set Implicit Arguments.
Unset Strict Implicit.
Unset Printing Implicit Defensive.
Local Open Scope ring_scope.

(** ** Elements that commute with everything act by scalars *)
Section Central.
Variables (C : numClosedFieldType) (gT : finGroupType) (mu : gT -> gT -> C) (H : {group gT}) (d : nat) (A : gT -> 'M[C]_d).
Hypotheses (mufs : factor_system mu) (pA : projrep mu H A) (uA : unirep H A) (nA : cip H A A = #|H|%:R).
Lemma central_dim (Z : {set gT}) : Z \subset H ->
  (forall z x, z \in Z -> x \in H -> (z * x = x * z)%g /\ mu z x = mu x z) ->
  (d ^ 2 * #|Z| <= #|H|)%N.
Proof.
move=> ZH com; have d0 : (0 < d)%N := norm1_dim nA.
have sz z : z \in Z -> (\tr (A z))^* * \tr (A z) = d%:R ^+ 2.
  move=> zZ; have zH := subsetP ZH z zZ.
  have cm x : x \in H -> A x *m A z = A z *m A x.
    by move=> xH; have [e1 e2] := com z x zZ xH; rewrite !(pr_mul pA) // e1 e2.
  have := schur_scalar mufs pA uA nA cm; set c := _ / _ => ec.
  have := uA zH; rewrite ec adj_scalar -scalar_mxM => /(congr1 (fun M : 'M[C]_d => M (Ordinal d0) (Ordinal d0))).
  rewrite !mxE !eqxx !mulr1n => cc; rewrite !mxtrace_scalar rmorphMn /=.
  by rewrite mulrnAl mulrnAr -mulrnA [c^* * c]mulrC cc expr2 -natrM.
have : (d ^ 2 * #|Z|)%:R <= #|H|%:R :> C.
  rewrite -nA /cip (big_setID Z) /= (setIidPr ZH) -[leLHS]addr0 ler_add //.
    by rewrite (eq_bigr _ sz) sumr_const natrM natrX -[leRHS]mulr_natr lexx.
  by apply: sumr_ge0 => x _; rewrite mulrC -normCK exprn_ge0.
by rewrite ler_nat.
Qed.
(** A representation whose central generator r acts by a scalar stays irreducible on H. *)
Lemma central_restrict (H0 : {group gT}) r p : cext H0 H r p -> (forall x, x \in H -> (r * x = x * r)%g /\ mu r x = mu x r) ->
  cip H0 A A = #|H0|%:R.
Proof.
move=> cx com; have d0 : (0 < d)%N := norm1_dim nA; have rH := cx_r cx.
have cm x : x \in H -> A x *m A r = A r *m A x.
  by move=> xH; have [e1 e2] := com x xH; rewrite !(pr_mul pA) // e1 e2.
have := schur_scalar mufs pA uA nA cm; set c := _ / _ => ec; clearbody c.
have c1 : `|c| = 1.
  have := uA rH; rewrite ec adj_scalar -scalar_mxM => /(congr1 (fun M : 'M[C]_d => M (Ordinal d0) (Ordinal d0))).
  rewrite !mxE !eqxx !mulr1n => cc; apply/eqP; rewrite -(@eqr_expn2 _ 2) ?normr_ge0 ?ler01 // normCK cc expr1n //.
have tr x : x \in H -> `|\tr (A (r * x)%g)| = `|\tr (A x)|.
  move=> xH; have := pr_mul pA rH xH; rewrite ec mul_scalar_mx => /(congr1 (fun M => `|\tr M|)).
  by rewrite !mxtraceZ !normrM c1 mul1r (fs_norm mufs) mul1r.
have trm m s : s \in H0 -> `|\tr (A (r ^+ m * s)%g)| = `|\tr (A s)|.
  move=> sH; have sH' : s \in H := subsetP (cx_sub cx) s sH.
  elim: m => [|m IH]; first by rewrite expg0 mul1g.
  by rewrite expgS -mulgA tr ?IH // groupM ?groupX.
have sq x : (\tr (A x))^* * \tr (A x) = `|\tr (A x)| ^+ 2 by rewrite mulrC -normCK.
have e1 := nA; rewrite /cip (sum_ext cx) in e1.
have cK := card_ext cx.
have : p%:R * cip H0 A A = p%:R * #|H0|%:R.
  rewrite -natrM -cK -[RHS]e1 /cip mulr_natl -{1}[p]card_ord -sumr_const; apply: eq_bigr => m _.
  by apply: eq_bigr => s sH; rewrite !sq trm.
by apply: mulfI; rewrite pnatr_eq0 -lt0n (cx_p cx).
Qed.
End Central.

(** ** Dimensions along a series *)
Section Dims.
Variables (n : nat) (mul : nat -> nat -> nat) (e : nat).
(** [sym z x]: the factor system is known to satisfy mu(z, x) = mu(x, z). *)
Variable sym : nat -> nat -> bool.
Definition centre (K : list nat) : list nat :=
  List.filter (fun z => List.forallb (fun x => Nat.eqb (mul z x) (mul x z) && sym z x) K) K.
Definition dim_ok (K : list nat) (d : nat) : bool := Nat.leb (Nat.mul (Nat.mul d d) (List.length (centre K))) (List.length K).
Definition next_dims (K : list nat) (r p : nat) (ds : list nat) : list nat :=
  List.filter (dim_ok K) (if memb r (centre K) then ds else ds ++ List.map (Nat.mul p) ds).
Inductive dim_series : list nat -> list nat -> list nat -> list nat -> list nat -> Prop :=
| dm_done : forall H ds, dim_series H [::] H ds ds
| dm_step : forall H r K p rs F ds ds', cyclic_extension n mul e H r K -> is_element_order mul e r p ->
    dim_series K rs F (next_dims K r p ds) ds' -> dim_series H (r :: rs) F ds ds'.

Lemma dim_series_exists H rs F : normal_series n mul e H rs F -> forall ds, exists ds', dim_series H rs F ds ds'.
Proof.
elim=> [H1|H1 r K rs' F' ce _ IH] ds; first by exists ds; constructor.
have [p [op _]] := ce_order _ _ _ _ _ _ ce.
by have [ds' h] := IH (next_dims K r p ds); exists ds'; apply: dm_step ce op h.
Qed.
Lemma dim_series_normal H rs F ds ds' : dim_series H rs F ds ds' -> normal_series n mul e H rs F.
Proof. by elim=> [H1 ds1|H1 r K p rs1 F1 ds1 ds1' ce op _ IH]; [constructor|apply: ns_step ce IH]. Qed.
Lemma dim_series_divides H rs F ds ds' : dim_series H rs F ds ds' ->
  (forall d, List.In d ds -> (d %| size H)%N) -> forall d, List.In d ds' -> (d %| size F)%N.
Proof.
elim=> [//|H1 r K p rs1 F1 ds1 ds1' ce op _ IH h]; apply: IH => d /List.filter_In [hd _].
have [q [oq [_ [_ [lK _]]]]] := ce_order _ _ _ _ _ _ ce.
have pq : p = q.
  case: op oq => h1 [h2 h3] [k1 [k2 k3]]; case: (ltngtP p q) => // lt.
    by case: (k3 p); [lia|exact/ssrnat.ltP|].
  by case: (h3 q); [lia|exact/ssrnat.ltP|].
rewrite -[size K]/(length K) lK -pq -[length H1]/(size H1) multE.
have {}hd : List.In d (ds1 ++ List.map (Nat.mul p) ds1) by move: hd; case: ifP => // _ hd; apply/List.in_app_iff; left.
case/List.in_app_iff: hd => [/h hd|/List.in_map_iff [d' [<- /h hd]]]; first by rewrite dvdn_mull.
by rewrite multE dvdn_mul.
Qed.

(** Computing the dimensions together with the check of the series. *)
Fixpoint dims_run (H rs ds : list nat) : list nat :=
  if rs is r :: rs' then
    let p := order_of n mul e r in let K := extend mul e r p H in dims_run K rs' (next_dims K r p ds)
  else ds.
Lemma dims_run_sound rs : forall H ds, ChainSpec.subgroup n mul e H -> chain_check n mul e H rs = true ->
  exists F, dim_series H rs F ds (dims_run H rs ds) /\ (forall x, (x < n)%coq_nat <-> List.In x F).
Proof.
elim: rs => [|r rs IH] H ds SH /=.
  move=> /List.forallb_forall HF; exists H; split; first by constructor.
  move=> x; split=> [xn|]; last exact: (su_lt _ _ _ _ SH).
  by apply/memb_In/HF/List.in_seq; split; [exact: Peano.le_0_n|].
set p := order_of _ _ _ _; set K := extend _ _ _ _ _.
case/andP=> /andP [/andP [/andP [/andP [h1 h2] h3] h4] h5] h6.
have p2 : (2 <= p)%coq_nat by apply (proj1 (Nat.leb_le _ _)).
have sK := subgroupb_sound _ _ _ _ h3.
have [F [dF Fx]] := IH K (next_dims K r p ds) sK h6; exists F; split=> //.
have h7 : cyclic_extension n mul e H r K.
  split=> //; first by apply/memb_In.
  - move=> g s gK sH; move/List.forallb_forall: h5 => /(_ g gK) /List.forallb_forall /(_ s sH) /List.existsb_exists [s' [h8 h9]].
    by exists s'; split=> //; apply/Nat.eqb_eq.
  - exists p; split; first by apply: (order_of_sound n) => //; lia.
    split; first exact: p2.
    split; [|split].
    + case/orP: h2 => [/primeb_sound|h2]; [by left|right].
      by case: (H) h2 => [|x [|y l]] // /Nat.eqb_eq ->.
    + have L s : length (List.flat_map (fun m => List.map (mul (mpow mul e r m)) H) (List.seq s p)) = (p * length H)%coq_nat.
        by elim: (p) s => [|q IHq] s //=; rewrite List.app_length List.map_length IHq.
      exact: L.
    + move=> x; rewrite List.in_flat_map; split.
        move=> [m [/List.in_seq hm /List.in_map_iff [s [<- hs]]]]; exists m, s; split; first by lia.
        by [].
      by move=> [m [s [hm [hs ->]]]]; exists m; split; [apply/List.in_seq; lia|apply: List.in_map].
apply: dm_step h7 _ dF; apply: (order_of_sound n) => //; lia.
Qed.
End Dims.

(** ** The dimensions of the arrays made by the chain algorithm *)
Section ModelDims.
Variables (C : numClosedFieldType) (around : C -> C) (cpowinv nroot : C -> nat -> C)
  (rnd : nat -> forall d, 'M[C]_d) (cexp : Q -> C) (t : table) (mu : nat -> nat -> C) (atol : C) (max_num : nat).
Lemma cmap_In A B (f : A -> cres B) l r : cmap f l = COk r -> forall y, List.In y r -> exists2 x, List.In x l & f x = COk y.
Proof.
elim: l r => [|a l IH] r /=; first by move=> [<-].
case E: (f a) => [b|||] //=; case E2: (cmap f l) => [bs|||] //= [<-] y /= [<-|h]; first by exists a => //; left.
by have [x h1 h2] := IH _ E2 y h; exists x => //; right.
Qed.
Lemma next_of_dims H K rm rinvm r p (A : arr C) l A' :
  next_of around cpowinv nroot rnd cexp t mu atol max_num H K rm rinvm r p A = COk l -> List.In A' l ->
  adim A' = adim A \/ adim A' = (p * adim A)%N.
Proof.
rewrite /next_of; case: (cmap _ _) => [[|c0 [|c1 cs]]|||] //=.
case: ifP => _; last first.
  by rewrite /induced_case; case: (cmap _ _) => [es|||] //= [<-] [<-|//]; right.
case: (get_intertwiner_mats _ _ _ _ _) => [T|] //; rewrite /self_conjugate_case => e h; left.
by have [q _] := cmap_In e h; case: (cmap _ _) => [es|||] //= [<-].
Qed.
Lemma unique_irreps_In (l : seq (arr C)) A : List.In A (unique_irreps around l) -> List.In A l.
Proof.
rewrite /unique_irreps.
have gen l0 acc : (forall B, List.In B l0 -> List.In B l) -> (forall B, List.In B acc -> List.In B l) ->
  List.In A (foldl (fun (acc : seq (arr C)) A0 => if has (fun B : arr C =>
     is_equivalent_irrep around (get_character A0) (get_character B)) acc then acc else rcons acc A0) acc l0) -> List.In A l.
  elim: l0 acc => [|a l0 IH] acc sub ok /=; first exact: ok.
  apply: IH => [B h|B]; first by apply: sub; right.
  case: ifP => _; first exact: ok.
  rewrite -cats1 => /(proj1 (List.in_app_iff _ _ _)) [/ok //|[<-|//]]; by apply: sub; left.
exact: gen.
Qed.
Lemma chain_step_dims e r H l K l' A' :
  chain_step around cpowinv nroot rnd cexp t mu atol max_num e r (H, l) = COk (K, l') -> List.In A' l' ->
  exists2 A, List.In A l & adim A' = adim A \/ adim A' = (get_order t r * adim A)%N.
Proof.
rewrite /chain_step; case: ifP => // _; case: (clift _) => [rinv|||] //=.
case E: (cmap _ l) => [nexts|||] //= [_ <-] /unique_irreps_In h.
have [nx nxs A'nx] : exists2 nx, List.In nx nexts & List.In A' nx.
  elim: (nexts) h => [//|a l0 IH] /=; rewrite List.in_app_iff => -[h|/IH [nx h1 h2]].
    by exists a => //; left.
  by exists nx => //; right.
have [A Al e1] := cmap_In E nxs; exists A => //; exact: next_of_dims e1 A'nx.
Qed.
End ModelDims.

Section DimLoop.
Variables (n : nat) (t : table) (e : nat).
Hypotheses (W : wf_table n t) (G : group_law n (tget t) e).
Local Notation gT := (igT G).
Local Notation idx := (@ival _ _ _ G).
Variables (C : numClosedFieldType) (mu : nat -> nat -> C).
Hypothesis imufs : ifactor_system n (tget t) e mu.
Variable sym : nat -> nat -> bool.
Hypothesis symP : forall z x, (z < n)%N -> (x < n)%N -> sym z x -> mu z x = mu x z.
Variables (around : C -> C) (cpowinv nroot : C -> nat -> C) (rnd : nat -> forall d, 'M[C]_d) (cexp : Q -> C).
Variables (atol : C) (max_num : nat).
Hypothesis around_nat : forall m, around m%:R = m%:R.
Hypothesis cpowinvP : forall z m, (0 < m)%N -> cpowinv z m ^+ m = z.
Hypothesis nrootP : forall z m, (0 < m)%N -> nroot z m ^+ m = z.
Hypothesis ceP : exp_spec cexp.
Hypothesis atol0 : 0 <= atol.
Let mufs : factor_system (muG idx mu) := ifs_fs G imufs.
Local Notation S := (@ChainTheory.S gT idx).
Local Notation wf := (ChainTheory.wf n).

Lemma sub_wf l : ChainSpec.subgroup n (tget t) e l -> wf l.
Proof.
case=> nd lt _ _; apply/andP; split; first exact: NoDup_uniq.
by apply/allP => x /InP /lt /ssrnat.ltP.
Qed.
Lemma sub_card l : ChainSpec.subgroup n (tget t) e l -> #|S l| = size l.
Proof.
move=> sl; apply: (card_S (n := n)); [exact: ival_inj|exact: ival_lt|exact: ival_card|exact: sub_wf].
Qed.

Lemma centreP K z : wf K -> List.In z (centre (tget t) sym K) -> z \in K /\
    (forall x, x \in K -> tget t z x = tget t x z /\ sym z x).
Proof.
move=> _ /List.filter_In [/InP zK /List.forallb_forall h]; split=> // x /InP /h /andP [/Nat.eqb_eq h1 h2].
by [].
Qed.
Lemma good_dim_ok K K' A : ChainSpec.subgroup n (tget t) e K' -> S K = S K' -> goodrep idx mu K A ->
  dim_ok (tget t) sym K' (adim A).
Proof.
move=> sK' eS [_ pA uA nA].
have gK' : group_set (S K') := subgroup_set G sK'.
pose KG := Group gK'; rewrite eS -[S K']/(gval KG) in pA uA nA.
have cn : ChainTheory.wf n (centre (tget t) sym K').
  case/andP: (sub_wf sK') => u a; rewrite /centre.
  have fE (p : nat -> bool) l : List.filter p l = [seq x <- l | p x] by elim: l => //= x l ->.
  apply/andP; split; first by rewrite fE filter_uniq.
  by apply/allP => x; rewrite fE mem_filter => /andP [_ xK]; move/allP: a; apply.
have := central_dim mufs pA uA nA (Z := S (centre (tget t) sym K')).
rewrite /= (card_S (@ival_inj _ _ _ G) (@ival_lt _ _ _ G) (@ival_card _ _ _ G) cn) (sub_card sK').
have cP z : z \in S (centre (tget t) sym K') -> idx z \in K' /\
    (forall x, x \in K' -> tget t (idx z) x = tget t x (idx z) /\ sym (idx z) x).
  rewrite inE => /InP /List.filter_In [/InP zK /List.forallb_forall h]; split=> // x /InP /h /andP [/Nat.eqb_eq h1 h2].
  by [].
move=> h; apply: (introT (Nat.leb_spec0 _ _)); apply/ssrnat.leP; rewrite !multE; rewrite -mulnn in h; apply: h.
  by apply/subsetP => z /cP [zK _]; rewrite inE.
move=> z x /cP [zK h]; rewrite inE => xK; have [h1 h2] := h _ xK; split.
  by apply: (@ival_inj _ _ _ G); rewrite !ivalM.
by apply: symP => //; exact: ival_lt.
Qed.

Lemma loop_dims rs F H' ds ds' : dim_series n (tget t) e sym H' rs F ds ds' -> forall H l,
  S H = S H' -> wf H -> sorted leq H -> good idx mu H l -> group_set (S H) -> (forall A, List.In A l -> List.In (adim A) ds) ->
  forall K l', chain_loop around cpowinv nroot rnd cexp t mu atol max_num e rs (H, l) = COk (K, l') ->
  forall A, List.In A l' -> List.In (adim A) ds'.
Proof.
elim=> [H1 ds1|H1 r K' p' rs' F' ds1 ds1' ce op' _ IH] H l eS wH sH gl gH dl K0 l0 /=.
  by move=> [_ <-].
have gH' : group_set (S H1) by rewrite -eS.
have sK' : ChainSpec.subgroup n (tget t) e K' by case: ce.
have gK' : group_set (S K') by apply: (subgroup_set G).
have [rr [p [er cx p1 op prp]]] := cyclic_cext gH' gK' ce.
have pp : p' = p by apply: (@order_uniq t e r).
have cx' : cext (Group gH) (Group gK') rr p.
  by have -> : Group gH = Group gH' by apply: val_inj.
have rn : (idx rr < n)%N := ival_lt rr.
have ordE : get_order t (idx rr) = p.
  rewrite -er; apply: (@order_uniq t e r) => //.
  by rewrite er; have [] := get_order_correct n t e (idx rr) W G (elimT ssrnat.ltP rn).
have invE : get_inverse_index t (idx rr) = Ret (idx rr^-1%g).
  have [i [-> [ni [h1 h2]]]] := inverse_index_correct n t e (idx rr) W G (elimT ssrnat.ltP rn).
  have [g eg] := ival_surj G (introT ssrnat.ltP ni); congr Ret; rewrite -eg; congr ival.
  apply: (mulgI rr); rewrite mulgV; apply: (@ival_inj _ _ _ G); by rewrite ivalM eg.
rewrite er.
have := @step_ok C gT idx n (@ival_inj _ _ _ G) (@ival_lt _ _ _ G) (@ival_card _ _ _ G) t mu
  (fun x y => erefl) mufs around cpowinv nroot rnd cexp atol max_num around_nat cpowinvP nrootP ceP atol0
  H rr p (Group gK') wH gH cx' p1 _ ordE invE l gl.
rewrite eS => /(_ prp) /=.
case=> [[-> q]|[l' [E gl']]]; first by [].
rewrite E /=; set K := extend_group _ _ _ in gl' E *.
have SK : S K = S K'.
  exact: (eK (@ival_inj _ _ _ G) (@ival_lt _ _ _ G) (@ival_card _ _ _ G) (fun x y => erefl) wH cx').
apply: IH => //.
- exact: (wK (@ival_inj _ _ _ G) (@ival_lt _ _ _ G) (@ival_card _ _ _ G) (fun x y => erefl) rr p wH).
- by apply: sort_sorted; exact: leq_total.
- by rewrite SK.
move=> A Al; apply/List.filter_In; split; last by apply: (good_dim_ok sK' SK); exact: (g_rep gl').
case: ifP => [/memb_In rc|_]; last first.
  have [B Bl dB] := chain_step_dims E Al; rewrite ordE -pp in dB.
  apply/List.in_app_iff; case: dB => ->; [left; exact: dl|right].
  by apply/List.in_map_iff; exists (adim B); split=> //; exact: dl.
have [_ com] := centreP (sub_wf sK') rc.
have [_ pA uA nA] := g_rep gl' Al; rewrite SK in pA uA nA.
have cm x : x \in S K' -> (rr * x = x * rr)%g /\ muG idx mu rr x = muG idx mu x rr.
  rewrite inE => xK; have [h1 h2] := com _ xK; rewrite er in h1 h2; split.
    by apply: (@ival_inj _ _ _ G); rewrite !ivalM.
  by apply: symP => //; exact: ival_lt.
have nH := central_restrict mufs (H := Group gK') pA uA nA cx' cm.
have sHK : {subset S H <= S K'} := subsetP (cx_sub cx').
have d0 : (0 < adim A)%N := norm1_dim (H := Group gK') nA.
have pAH : projrep (muG idx mu) (Group gH) (rep_of idx K (amats A)).
  by case: pA => h1 h2; split=> // x y xH yH; apply: h2; apply: sHK.
have uAH : unirep (Group gH) (rep_of idx K (amats A)) by move=> x xH; apply: uA; apply: sHK.
have [B Bl nz] := g_cov gl d0 pAH.
have [_ pB uB nB] := g_rep gl Bl.
case: (cip_dich mufs (H := Group gH) pB uB nB pAH uAH nH) => [[z _]|[_ [T [T' [h1 h2 _]]]]]; first by rewrite z eqxx in nz.
suff -> : adim A = adim B by exact: dl.
by apply/eqP; rewrite eqn_leq (mulmx1_min h1) (mulmx1_min h2).
Qed.

(** The dimensions returned by the chain algorithm lie in the list computed along the series. *)
Theorem chain_dims gens F ds' L b : dim_series n (tget t) e sym [:: e] (List.rev gens) F [:: 1%N] ds' ->
  enumerate_unitary_irreps_from_solvable_group_chain around cpowinv nroot rnd cexp t mu atol max_num gens = COk (L, b) ->
  forall k, (k < size L)%N -> List.In (adim (lget L k)) ds'.
Proof.
move=> dF; rewrite /enumerate_unitary_irreps_from_solvable_group_chain (identity_index_correct n t e W G) /=.
have eS : S [:: e] = [set 1%g] by apply/setP => g; rewrite !inE -(inj_eq (@ival_inj _ _ _ G)) ival1.
have -> : seq.rev gens = List.rev gens.
  elim: gens {dF} => [|a l IH] //=; rewrite rev_cons IH -cats1 //.
case E: chain_loop => [[K l]|||] //=; case: ifP => _ [<- _] k kL; last by [].
have := loop_dims dF (H := [:: e]) (erefl _) _ _ (base_good G imufs) _ _ E.
have -> : ChainTheory.wf n [:: e] by rewrite /ChainTheory.wf /= (ig_e G).
rewrite eS => /(_ isT isT (group_set_one gT)) h; apply: h; last exact: nth_In.
by move=> A [<-|//]; left.
Qed.
End DimLoop.

(** ** A run of the algorithm that finds every intertwiner *)
Section Lucky.
Variable C : numClosedFieldType.
(** The trial-th matrix unit. *)
Definition unit_draw (trial : nat) (d : nat) : 'M[C]_d := \matrix_(i, j) ((i * d + j == trial)%N)%:R.
Lemma unit_draw_lucky n : ~ @unlucky_samples C n unit_draw 0 n.
Proof.
move=> [m [d [U [/andP [m0 mn] /andP [d2 dm] uU h]]]].
have d0 : (0 < d)%N by move: d2; rewrite expn_gt0 orbF.
have [i [j Uij]] : exists i j, U i j != 0.
  case: (pickP (fun x : 'I_d * 'I_d => U x.1 x.2 != 0)) => [[i j] hij|no]; first by exists i, j.
  have U0 : U = 0 by apply/matrixP => i j; rewrite mxE; apply/eqP; have := no (i, j) => /= /negbFE.
  move: uU; rewrite U0 mul0mx => /(congr1 mxtrace); rewrite mxtrace0 mxtrace1 => /eqP.
  by rewrite eq_sym pnatr_eq0 gtn_eqF.
have tr : (i * d + j < n)%N.
  apply: leq_trans mn; apply: leq_trans dm; rewrite -mulnn.
  apply: (@leq_trans (i * d + d)); first by rewrite ltn_add2l.
  by rewrite addnC -mulSn leq_mul2r ltn_ord orbT.
have := h (i * d + j)%N i j tr.
have -> : \tr (unit_draw (i * d + j) d *m adj U) = (U i j)^*.
  rewrite /mxtrace (bigD1 i) //= mxE (bigD1 j) //= !mxE eqxx mul1r big1 ?addr0 => [|j' jj].
    rewrite big1 ?addr0 // => i' ii; rewrite mxE big1 // => j' _; rewrite mxE.
    have -> : (i' * d + j' == i * d + j)%N = false; last by rewrite mul0r.
    apply/negbTE; move: ii; apply: contraNneq => /(congr1 (divn^~ d)).
    by rewrite !divnMDl // !divn_small // !addn0 => /val_inj ->.
  by rewrite mxE eqn_add2l; have -> : (j' == j :> nat) = false by [apply/negbTE]; rewrite mul0r.
rewrite norm_conjC -mulrA => le0.
have : 0 < m%:R / d%:R * (`|U i j| * `|U i j|).
  by rewrite mulr_gt0 ?mulr_gt0 ?normr_gt0 ?invr_gt0 ?ltr0n.
by move/lt_le_trans => /(_ _ le0); rewrite ltxx.
Qed.
Lemma root_oracle (z : C) m : (0 < m)%N -> (m.-root z) ^+ m = z. Proof. by move=> m0; rewrite rootCK. Qed.

(** The dimension of every irreducible representation lies in the computed list. *)
Theorem irrep_dims n t e mu (sym : nat -> nat -> bool) gens F ds' : wf_table n t -> group_law n (tget t) e -> @ifactor_system C n (tget t) e mu ->
  (forall z x, (z < n)%N -> (x < n)%N -> sym z x -> mu z x = mu x z) ->
  dim_series n (tget t) e sym [:: e] (List.rev gens) F [:: 1%N] ds' -> (forall x, (x < n)%coq_nat <-> List.In x F) ->
  forall d (D : nat -> 'M[C]_d), iprojrep n (tget t) e mu D -> iirreducible n D -> List.In d ds'.
Proof.
move=> W G fs symP dF Fx d D pD iD.
have ch : chain_of_group n (tget t) e gens by exists F; split=> //; exact: dim_series_normal dF.
have [] := @chain_result n t e W G C mu fs id (fun z m => m.-root z) (fun z m => m.-root z) unit_draw (@cexp_inst C) 0 n
  (fun m => erefl) root_oracle root_oracle (cexp_inst_spec C) (lexx 0) gens ch.
  by case=> _ /unit_draw_lucky.
move=> [L [h sz ci]]; have [k [kL [T [T' [h1 h2 _]]] _]] := ci_complete ci pD iD.
have := @chain_dims n t e W G C mu fs sym symP id (fun z m => m.-root z) (fun z m => m.-root z) unit_draw (@cexp_inst C) 0 n
  (fun m => erefl) root_oracle root_oracle (cexp_inst_spec C) (lexx 0) gens F ds' L true dF h k kL.
suff -> : d = adim (lget L k) by [].
apply/eqP; rewrite eqn_leq; apply/andP; split.
  by have := mulmx1_min h2.
by have := mulmx1_min h1.
Qed.
End Lucky.
