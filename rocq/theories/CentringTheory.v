(** Going back from the primitive to the conventional cell keeps the small representations. *)
From Coq Require Import QArith ZArith List Lia Sorted Setoid Field.
From mathcomp Require Import all_ssreflect all_algebra.
From Verif Require Import FieldTac Py Mat3 MatQ GroupModel GroupSpec GroupProofs GroupProofs2 SpaceGroupProofs TransformModel TransformSpec
  TransformProofs RepSpec RepModel CExpSpec RepTheory IndexRepSpec ChainModel SmallModel PurifyTheory SmallSpec GaugeTheory
  SmallTheory CentringModel CentringSpec CentringProofs.
Import Order.TTheory GRing.Theory Num.Theory.
Set Implicit Arguments.
Unset Strict Implicit.
Unset Printing Implicit Defensive.
Local Open Scope ring_scope.

Section Transfer.
Variables (C : numClosedFieldType) (E : numpy C) (zeta : mat -> mat -> C).
Local Notation cexp := (np_exp E).
Hypothesis ce : exp_spec cexp.
Add Field cenC : (fth C).
(** All operations, with the little group selected by lm. *)
Variables (rots : list mat) (trans : list vec) (k : vec) (lm : list nat).
Let R a := List.nth (List.nth a lm 0%N) rots mid.
Let w a := List.nth (List.nth a lm 0%N) trans vzero.
Let q := size lm.
(** The primitive little group. *)
Variables (lr : list mat) (lt : list vec) (mul : nat -> nat -> nat) (e : nat).
Let n := size lr.
Let u x := List.nth x lt vzero.
Let r x := List.nth x lr mid.
Hypotheses (SG : lists_space_group lr lt) (FK : forall s, In s lr -> fixes_kpoint k s).
Hypotheses (M : multiplication lr mul e) (U0 : veq (u e) vzero).
Variable pi : nat -> nat.
Hypothesis pi_lt : forall a, (a < q)%N -> (pi a < n)%N.
Hypothesis pi_r : forall a, (a < q)%N -> r (pi a) = R a.
Hypothesis pi_onto : forall x, (x < n)%N -> exists2 a, (a < q)%N & pi a = x.
Hypothesis pi_int : forall a, (a < q)%N -> vint (vsub (w a) (u (pi a))).
Hypothesis zeta1 : forall x, (x < n)%N -> zeta (r x) mid = 1.
Let c a := cexp (Qopp (vdot k (vsub (w a) (u (pi a))))).
Let nu x y := zeta (r x) (r y) * bloch_factor cexp lr lt k mul x y.
Let LG := sg_rots _ _ SG.

Lemma cn a : `|c a| = 1. Proof. exact: ce_norm ce _. Qed.
Lemma c0 a : c a != 0. Proof. by apply: norm1_neq0; exact: cn. Qed.
Lemma pi_mul a b x : (a < q)%N -> (b < q)%N -> (x < q)%N -> R x = mmul (R a) (R b) -> mul (pi a) (pi b) = pi x.
Proof.
move=> ha hb hx h; apply: (nth_rots_inj LG); [apply: (mt_lt M)| |]; try exact: pi_lt.
by rewrite (mt_mul M); try exact: pi_lt; rewrite -/(r _) -/(r _) -/(r _) !pi_r.
Qed.
Lemma pi_e a : (a < q)%N -> R a = mid -> pi a = e.
Proof.
move=> ha h; apply: (nth_rots_inj LG); [exact: pi_lt|exact: mt_e M|].
by rewrite (mt_id M) -/(r _) pi_r.
Qed.
(** The phase identity: (R^T k - k) is integral and so is the shift. *)
Lemma phase_shift (s : mat) (v : vec) : fixes_kpoint k s -> vint v -> cexp (vdot k (mvec s v)) = cexp (vdot k v).
Proof.
move=> fx vi; apply: (cexp_diff ce); have [z hz] := qint_dot _ _ fx vi; exists z; rewrite -hz.
by rewrite vdot_sub_l vdot_mtvec.
Qed.
Lemma cexp_int (v : Q) : qint v -> cexp v = 1.
Proof. by move=> [z hz]; apply/(ce_int ce); exists z. Qed.
Lemma FKr x : (x < n)%N -> fixes_kpoint k (r x).
Proof. by move=> /ssrnat.ltP hx; apply: FK; apply: nth_In. Qed.
Lemma phase_law a b x : (a < q)%N -> (b < q)%N -> (x < q)%N -> R x = mmul (R a) (R b) ->
  c a * c b * bloch_factor cexp lr lt k mul (pi a) (pi b) =
  cexp (Qopp (vdot k (vsub (vadd (mvec (R a) (w b)) (w a)) (w x)))) * c x.
Proof.
move=> ha hb hx h; rewrite /bloch_factor /lattice_shift (pi_mul ha hb hx h) /c -!(ce_add ce).
apply: (cexp_diff ce); rewrite -/(r _) pi_r //.
have fa : fixes_kpoint k (R a) by rewrite -pi_r //; apply: FKr; apply: pi_lt.
have [z hz] := qint_dot _ _ fa (pi_int hb); exists z; rewrite -hz.
rewrite !(vdot_sub_l, vdot_sub_r, vdot_add_r, vdot_mtvec) -/(u _) -/(u _) -/(u _).
ring.
Qed.

Section One.
Variables (d : nat) (D : nat -> 'M[C]_d).
Let D' a := c a *: D (pi a).
Lemma transfer_law : iprojrep n mul e nu D -> op_law cexp zeta rots trans k lm D'.
Proof.
move=> [h1 h2]; split=> [a ha ea|a b x ha hb hx h].
  rewrite /D' (pi_e ha ea) h1 /c (pi_e ha ea); congr (_ *: _); apply: (ce_eq ce).
  rewrite vdot_sub_r U0 /vdot /w /=; ring.
rewrite /D' -scalemxAl -scalemxAr h2 ?pi_lt // (pi_mul ha hb hx h) !scalerA /nu !pi_r //.
congr (_ *: _); rewrite -/(R a) -/(R b) -/(R x) -/(w a) -/(w b) -/(w x) -[RHS]mulrA -(phase_law ha hb hx h).
by to_field C; ring.
Qed.
Lemma transfer_unitary : iunitary n D -> iunitary q D'.
Proof.
by move=> h a ha; rewrite adjZ -scalemxAl -scalemxAr h ?pi_lt // scalerA norm1_mul_conj ?scale1r // cn.
Qed.
Lemma transfer_irr : iirreducible n D -> iirreducible q D'.
Proof.
move=> [d0 h]; split=> // m W inv; apply: h => x /pi_onto [a ha <-]; have [Y hY] := inv a ha.
by exists ((c a)^-1 *: Y); rewrite -scalemxAr -hY -scalemxAl scalerA mulVf ?c0 // scale1r.
Qed.
End One.
Lemma transfer_equiv d1 d2 (D1 : nat -> 'M[C]_d1) (D2 : nat -> 'M[C]_d2) :
  iequivalent q (fun a => c a *: D1 (pi a)) (fun a => c a *: D2 (pi a)) <-> iequivalent n D1 D2.
Proof.
split=> -[T [T' [h1 h2 h3]]]; exists T, T'; split=> //.
  move=> x /pi_onto [a ha <-]; have := h3 a ha; rewrite -scalemxAl -scalemxAr => /(congr1 (fun A => (c a)^-1 *: A)).
  by rewrite !scalerA mulVf ?c0 // !scale1r.
by move=> a ha; rewrite -scalemxAl -scalemxAr h3 // pi_lt.
Qed.

(** Every representation of the operations comes from one of the primitive little group. *)
Lemma transfer_back d (F : nat -> 'M[C]_d) : op_law cexp zeta rots trans k lm F ->
  exists D, iprojrep n mul e nu D /\ forall a, (a < q)%N -> F a = c a *: D (pi a).
Proof.
move=> [h1 h2].
pose s x := find (fun a => (pi a == x)%B) (iota 0 q).
have sP x : (x < n)%N -> (s x < q)%N /\ pi (s x) = x.
  move=> hx; have hh : has (fun a => (pi a == x)%B) (iota 0 q).
    by have [a ha e'] := pi_onto hx; apply/hasP; exists a; rewrite ?mem_iota //= e' eqxx.
  have /= /eqP := nth_find 0%N hh; have := hh; rewrite has_find size_iota -/(s x) => hf.
  by rewrite nth_iota.
pose D x := (c (s x))^-1 *: F (s x).
have FE a b : (a < q)%N -> (b < q)%N -> pi a = pi b -> F a = (c a / c b) *: F b.
  move=> ha hb e'; have [ae _] := sP e (mt_e M); have [_ pe] := sP e (mt_e M).
  have rae : R (s e) = mid by rewrite -pi_r // pe; exact: mt_id M.
  have rab : R b = mmul (R a) (R (s e)) by rewrite rae mmul_1r -!pi_r // e'.
  have := h2 a (s e) b ha ae hb rab; rewrite -/(R a) -/(R (s e)) -/(w _) -/(w _) -/(w _).
  rewrite (h1 (s e) ae rae) -scalemxAr mulmx1 rae -[R a]pi_r // zeta1 ?pi_lt // mul1r => /(congr1 (fun A => (cexp (Qopp (vdot k (w (s e)))))^-1 *: A)).
  have nz : cexp (Qopp (vdot k (w (s e)))) != 0 by apply: norm1_neq0; exact: ce_norm ce _.
  rewrite !scalerA mulVf // scale1r => ->; congr (_ *: _).
  apply: (mulfI nz); rewrite mulVKf //; apply: (mulIf (c0 b)); rewrite !mulrA mulfVK ?c0 //.
  rewrite /c -!(ce_add ce) e'; apply: (cexp_diff ce).
  have fa : fixes_kpoint k (R a) by rewrite -pi_r //; apply: FKr; apply: pi_lt.
  have vi : vint (w (s e)).
    apply: vint_eq (pi_int ae); rewrite pe; move: U0 => [x1 [x2 x3]]; rewrite /vsub; split; [|split] => /=.
    - by rewrite x1 /=; ring. - by rewrite x2 /=; ring. - by rewrite x3 /=; ring.
  have [z hz] := qint_dot _ _ fa vi; exists (Z.opp z); rewrite inject_Z_opp -hz -e' pi_r //.
  rewrite !(vdot_sub_l, vdot_sub_r, vdot_add_r, vdot_mtvec); ring.
exists D; split; last first.
  by move=> a ha; have [ls ps] := sP _ (pi_lt ha); rewrite /D scalerA -FE.
split=> [|x y hx hy].
  have [le pe] := sP e (mt_e M); have rae : R (s e) = mid by rewrite -pi_r // pe; exact: mt_id M.
  rewrite /D (h1 _ le rae) scalerA [X in X *: _](_ : _ = 1) ?scale1r //.
  apply: (mulfI (c0 (s e))); rewrite mulVKf ?c0 // mulr1; apply: (ce_eq ce).
  rewrite /c /u pe vdot_sub_r; change (List.nth e lt vzero) with (u e); rewrite U0 /vdot /w /=; ring.
have [lx px] := sP x hx; have [ly py] := sP y hy; have [lxy pxy] := sP _ (mt_lt M hx hy).
have rxy : R (s (mul x y)) = mmul (R (s x)) (R (s y)) by rewrite -(pi_r lx) -(pi_r ly) -(pi_r lxy) px py pxy; apply: (mt_mul M).
rewrite /D -scalemxAl -scalemxAr (h2 _ _ _ lx ly lxy rxy) !scalerA; congr (_ *: _).
have := phase_law lx ly lxy rxy; rewrite px py /nu -/(R _) -/(R _) -/(R _) -(pi_r lx) -(pi_r ly) px py => PL.
have nx := c0 (s x); have ny := c0 (s y); have nxy := c0 (s (mul x y)).
set X := cexp _ in PL *.
have -> : X = c (s x) * c (s y) * bloch_factor cexp lr lt k mul x y / c (s (mul x y)) by rewrite PL mulfK.
move: nx ny nxy => /eqP nx /eqP ny /eqP nxy.
by to_field C; field.
Qed.

Lemma transfer_complete N dim (D : forall m, nat -> 'M[C]_(dim m)) : complete_irreps n mul e nu N D ->
  centred_irreps cexp zeta rots trans k lm N (fun m a => c a *: D m (pi a)).
Proof.
case=> h1 h2 h3 h4 _ h6 h7; split.
- by move=> m hm; apply: transfer_law (h1 m hm).
- by move=> m hm; apply: transfer_unitary (h2 m hm).
- by move=> m hm; apply: transfer_irr (h3 m hm).
- by move=> m l hm hl ne /transfer_equiv; apply: h4.
- move=> d F lF [d0 iF]; have [D0 [pD FE]] := transfer_back lF.
  have iD : iirreducible n D0.
    split=> // m W inv; apply: iF => a ha; have [Y hY] := inv _ (pi_lt ha).
    by exists (c a *: Y); rewrite FE // -scalemxAl hY scalemxAr.
  have [m [hm eqm un]] := h6 d D0 pD iD.
  have tr l : iequivalent q (fun a => c a *: D l (pi a)) F <-> iequivalent n (D l) D0.
    rewrite -transfer_equiv; split=> -[T [T' [e1 e2 e3]]]; exists T, T'; split=> // a ha.
      by rewrite e3 // FE.
    by rewrite e3 // FE.
  exists m; split=> //; first by apply/tr.
  by move=> l hl /tr; apply: un.
exists lr; split=> //; first exact: lg_nodup LG.
move=> s; split=> [hs|[a ha <-]].
  have [x [/ssrnat.ltP hx <-]] := In_nth_lt _ _ mid hs.
  by have [a ha e'] := pi_onto hx; exists a => //; rewrite -[LHS]pi_r // e'.
by rewrite -[List.nth _ rots _]pi_r //; apply: nth_In; apply/ssrnat.ltP; apply: pi_lt.
Qed.
End Transfer.

Section Near.
Variables (C : numClosedFieldType) (E : numpy C).
Hypothesis ce : exp_spec (np_exp E).
Local Notation small := (qC C atol_default).
Lemma small_ge0 : 0 <= small. Proof. by rewrite qC_inv invr_ge0 ler0n. Qed.
Lemma small_third : small <= 3%:R^-1.
Proof. have h : Qle atol_default (Qmake 1 3) by []. by have := qC_le C h; rewrite qC_inv. Qed.
Lemma near_trans (A B D : arr C) a b : near a A B -> near b B D -> near (a + b) A D.
Proof.
move=> [d [ms [ns [-> -> sz h]]]] [d' [ms' [ns' [e -> sz' h']]]].
have ed : d = d' := congr1 (@adim C) e.
move: ms' ns' e sz' h'; case: d' / ed => ms' ns' e sz' h'.
have {e} e : ns = ms'.
  by have /= := congr1 (fun X : arr C => existT (fun n => seq 'M[C]_n) (adim X) (amats X)) e; apply: Eqdep_dec.inj_pair2_eq_dec; apply: PeanoNat.Nat.eq_dec.
rewrite -{}e in sz' h'.
exists d, ms, ns'; split=> //; first by rewrite sz.
move=> g i j; apply: le_trans (ler_dist_add (nth 0 ns g i j) _ _) _; apply: ler_add => //.
Qed.
Lemma near_adjust k sel A B eps : 0 <= eps -> near eps A B -> near eps (adjust_one E k sel A) (adjust_one E k sel B).
Proof.
move=> e0 [d [ms [ns [-> -> sz h]]]].
exists d, [seq np_exp E (Qopp (vdot k x.2.2)) *: nth 0 ms x.2.1 | x <- sel],
  [seq np_exp E (Qopp (vdot k x.2.2)) *: nth 0 ns x.2.1 | x <- sel]; split=> //; first by rewrite !size_map.
elim: sel => [|x sel IH] g i j /=; first by rewrite !nth_nil subrr normr0.
by case: g => [|g] //=; rewrite !mxE -mulrBr normrM (ce_norm ce) mul1r.
Qed.
Lemma near_purify_adjust k sel A B eps : 0 <= eps -> near eps A B ->
  near (small + eps) (purify_irrep_value E small (adjust_one E k sel A)) (adjust_one E k sel B).
Proof.
move=> e0 h; apply: near_trans (near_adjust k sel e0 h).
set B' := adjust_one _ _ _ _; case: B' => d ms; exists d, [seq map_mx (snap small (special_values E)) M | M <- ms], ms; split=> //.
  by rewrite size_map.
move=> g i j; have [hg|hg] := ltnP g (size ms); last by rewrite !nth_default ?size_map // subrr normr0 small_ge0.
by rewrite (nth_map 0) // mxE; apply: (snap_dist (special_sep ce small_third)); exact: small_ge0.
Qed.
End Near.

Section Ext.
Variables (C : numClosedFieldType) (cexp : Q -> C) (zeta : mat -> mat -> C).
Variables (rots : list mat) (trans : list vec) (k : vec) (lm : list nat) (N : nat).
Lemma centred_eq dim (D D' : forall k, nat -> 'M[C]_(dim k)) :
  (forall m a, (m < N)%N -> (a < size lm)%N -> D m a = D' m a) ->
  centred_irreps cexp zeta rots trans k lm N D -> centred_irreps cexp zeta rots trans k lm N D'.
Proof.
move=> Ed [h1 h2 h3 h4 h5 h6]; split=> //.
- move=> m mN; have [a b] := h1 m mN; split=> [x hx|x y z hx hy hz h]; first by rewrite -Ed //; exact: a.
  by rewrite -!Ed //; exact: b.
- by move=> m mN i hi; rewrite -Ed // h2.
- move=> m mN; have [a b] := h3 m mN; split=> // p W inv; apply: b => i hi; rewrite Ed //; exact: inv.
- move=> m l mN lN ml [T [T' [a b c]]]; apply: (h4 m l mN lN ml); exists T, T'; split=> // i hi; rewrite !Ed ?c //.
- move=> d F pF iF; have [m [mN [T [T' [a b c]]] u]] := h5 d F pF iF.
  exists m; split=> //; first by exists T, T'; split=> // i hi; rewrite -Ed // c.
  by move=> l lN [S [S' [x y z]]]; apply: u => //; exists S, S'; split=> // i hi; rewrite Ed // z.
Qed.
Lemma arr_centred (A B : nat -> arr C) : (forall m, (m < N)%N -> A m = B m) ->
  centred_irreps cexp zeta rots trans k lm N (fun m => aget (A m)) -> centred_irreps cexp zeta rots trans k lm N (fun m => aget (B m)).
Proof.
move=> E [h1 h2 h3 h4 h5 h6]; split.
- by move=> m mN; rewrite -E //; apply: h1.
- by move=> m mN; rewrite -E //; apply: h2.
- by move=> m mN; rewrite -E //; apply: h3.
- by move=> m l mN lN; rewrite -!E //; apply: h4.
- move=> d F pF iF; have [m [mN eq u]] := h5 d F pF iF; exists m; split=> //; first by rewrite -E.
  by move=> l lN; rewrite -E //; apply: u.
have [U [u1 u2 u3]] := h6; exists U; split=> //.
by rewrite -[RHS]u3; apply: eq_bigr => m _; rewrite E.
Qed.
End Ext.

(** ** The composition *)
Section Adjust.
Variables (C : numClosedFieldType) (E : numpy C) (zeta : mat -> mat -> C).
Hypothesis ce : exp_spec (np_exp E).
Variables (rots : list mat) (trans : list vec) (k : vec).
Hypothesis CS : centred_space_group rots trans.
Variables (R : list mat) (T : list vec) (M : list nat).
Hypothesis HU : unique_primitive_symmetry rots trans = (R, T, M).
Hypothesis blocks : first_occurrences_first rots.
Variable lm : list nat.
Hypothesis lm_sorted : StronglySorted Nat.lt lm.
Hypothesis lm_iff : forall x, In x lm <-> (x < size R)%N /\ fixes_kpoint k (List.nth x R mid).
Let lr := List.map (fun i => List.nth i R mid) lm.
Let lt := List.map (fun i => List.nth i T vzero) lm.
Hypothesis SGl : lists_space_group lr lt.
Hypothesis zeta1 : forall x, (x < size lr)%N -> zeta (List.nth x lr mid) mid = 1.
Variables (mul : nat -> nat -> nat) (e : nat).
Hypothesis MT : multiplication lr mul e.
Let len : List.length trans = List.length rots := cs_len CS.
Let clo := cs_closed CS.
Lemma clo' : forall i j m, (i < List.length rots)%coq_nat -> (j < List.length rots)%coq_nat -> (m < List.length rots)%coq_nat ->
    List.nth m rots mid = mmul (List.nth i rots mid) (List.nth j rots mid) ->
    vint (vsub (vadd (mvec (List.nth i rots mid) (List.nth j trans vzero)) (List.nth i trans vzero)) (List.nth m trans vzero)).
Proof. by move=> i j m /ssrnat.ltP hi /ssrnat.ltP hj /ssrnat.ltP hm; apply: clo. Qed.
Let sel := select_little trans T M lm.
Let lm2 := List.map fst sel.
Let d0 : nat * (nat * vec) := (0, (0, vzero))%N.
Let pi a := (List.nth a sel d0).2.1.

Lemma sel_nth a : (a < size lm2)%N -> exists m,
  [/\ List.nth_error M (List.nth a lm2 0%N) = Some m, List.nth_error lm (pi a) = Some m &
      (List.nth a sel d0).2.2 = vsub (List.nth (List.nth a lm2 0%N) trans vzero) (List.nth m T vzero)].
Proof.
rewrite /lm2 -[size _]/(List.length _) map_length => /ssrnat.ltP ha.
have h0 : List.nth a (List.map fst sel) 0%N = (List.nth a sel d0).1.
  by rewrite (nth_indep _ 0%N (fst d0)) ?map_length // map_nth.
have := nth_In sel d0 ha; rewrite h0 /pi; case: (List.nth a sel d0) => i [l v] /select_In [m [h1 [h2 h3]]] /=.
exists m; split=> //.
by have := proj1 (remapping_spec _ m l (sorted_NoDup _ lm_sorted)) h2.
Qed.
Lemma M_nth i m : List.nth_error M i = Some m ->
  [/\ (i < size rots)%N, (m < size R)%N & List.nth m R mid = List.nth i rots mid].
Proof.
move=> h; have [_ [_ [lM _]]] := unique_spec rots trans R T M len HU.
have hi : (i < List.length M)%coq_nat by apply: (proj1 (nth_error_Some M i)); rewrite h.
rewrite lM in hi; have [h1 h2] := unique_mapping_blocks rots trans R T M len HU blocks i hi.
have em : List.nth i M 0%N = m by exact: nth_error_nth h.
by rewrite em in h1 h2; split=> //; apply/ssrnat.ltP.
Qed.
Lemma lr_nth a m : List.nth_error lm a = Some m ->
  [/\ (a < size lr)%N, List.nth a lr mid = List.nth m R mid & List.nth a lt vzero = List.nth m T vzero].
Proof.
move=> h; have ha : (a < List.length lm)%coq_nat by apply: (proj1 (nth_error_Some lm a)); rewrite h.
have em : List.nth a lm 0%N = m by exact: nth_error_nth h.
rewrite /lr /lt !nth_map_nth // em; split=> //.
by rewrite -[size _]/(List.length _) map_length; apply/ssrnat.ltP.
Qed.
Lemma lm2_iff i : In i lm2 <-> (i < size rots)%N /\ fixes_kpoint k (List.nth i rots mid).
Proof.
have [_ [_ [lM _]]] := unique_spec rots trans R T M len HU.
rewrite /lm2 in_map_iff; split.
  move=> [[i' [l v]] [/= -> /select_In [m [h1 [h2 _]]]]]; have [h3 h4 h5] := M_nth h1; split=> //.
  have h2' := proj1 (remapping_spec _ _ _ (sorted_NoDup _ lm_sorted)) h2.
  by rewrite -h5; have /lm_iff [] := nth_error_In _ _ h2'.
move=> [/ssrnat.ltP hi fx]; have hM : (i < List.length M)%coq_nat by rewrite lM.
have hn : List.nth_error M i = Some (List.nth i M 0%N) by apply: nth_error_nth'.
have [_ h4 h5] := M_nth hn.
have hin : In (List.nth i M 0%N) lm by apply/lm_iff; split=> //; rewrite h5.
have [l hl] := In_nth_error _ _ hin.
have hr := proj2 (remapping_spec _ _ _ (sorted_NoDup _ lm_sorted)) hl.
exists (i, (l, vsub (List.nth i trans vzero) (List.nth (List.nth i M 0%N) T vzero))); split=> //.
by apply/select_In; exists (List.nth i M 0%N).
Qed.
Lemma pi_facts a : (a < size lm2)%N ->
  [/\ (pi a < size lr)%N, List.nth (pi a) lr mid = List.nth (List.nth a lm2 0%N) rots mid &
      vint (vsub (List.nth (List.nth a lm2 0%N) trans vzero) (List.nth (pi a) lt vzero))].
Proof.
move=> ha; have [m [h1 h2 _]] := sel_nth ha; have [h3 h4 h5] := M_nth h1; have [h6 h7 h8] := lr_nth h2.
split=> //; first by rewrite h7.
rewrite h8; apply: (unique_shift rots trans len (cs_id CS) clo' R T M HU) => //; exact/ssrnat.ltP.
Qed.
Lemma pi_surj x : (x < size lr)%N -> exists2 a, (a < size lm2)%N & pi a = x.
Proof.
move=> hx; have hx' : (x < List.length lm)%coq_nat by move: hx; rewrite -[size _]/(List.length _) map_length => /ssrnat.ltP.
have hn : List.nth_error lm x = Some (List.nth x lm 0%N) by apply: nth_error_nth'.
have /lm_iff [h1 h2] := nth_error_In _ _ hn.
have [i [hi ei]] : exists i, (i < List.length rots)%coq_nat /\ List.nth i rots mid = List.nth (List.nth x lm 0%N) R mid.
  have [_ [_ [_ [_ [hin _]]]]] := unique_spec rots trans R T M len HU.
  have hI : In (List.nth (List.nth x lm 0%N) R mid) rots by apply/hin; apply: nth_In; apply/ssrnat.ltP.
  by have [i [hi ei]] := In_nth_lt _ _ mid hI; exists i.
have hl : In i lm2 by apply/lm2_iff; split; [exact/ssrnat.ltP|rewrite ei].
have [a [ha ea]] := In_nth_lt _ _ 0%N hl; exists a; first exact/ssrnat.ltP.
have [p1 p2 _] := pi_facts (introT ssrnat.ltP ha).
apply: (nth_rots_inj (sg_rots _ _ SGl)) => //; rewrite p2 ea ei.
by have [_ ->] := lr_nth hn.
Qed.
Lemma lt_e : veq (List.nth e lt vzero) vzero.
Proof.
have he : (e < List.length lm)%coq_nat.
  by have := mt_e MT; rewrite -[size _]/(List.length _) map_length => /ssrnat.ltP.
have hn : List.nth_error lm e = Some (List.nth e lm 0%N) by apply: nth_error_nth'.
have [_ h7 h8] := lr_nth hn; have := mt_id MT; rewrite h7 h8 => ei.
have /lm_iff [/ssrnat.ltP h1 _] := nth_error_In _ _ hn.
exact: (unique_identity rots trans len clo' R T M HU) ei.
Qed.
Lemma FKl r : In r lr -> fixes_kpoint k r.
Proof. by rewrite /lr in_map_iff => -[x [<- /lm_iff []]]. Qed.

Let nu x y := zeta (List.nth x lr mid) (List.nth y lr mid) * bloch_factor (np_exp E) lr lt k mul x y.
Lemma adjust_correct L L' eps : 0 <= eps -> complete_list lr mul e nu L' -> near_list eps L L' ->
  exists L2 L2', [/\ adjust_phase_for_centering_translations E trans k T M L lm = (L2, lm2),
    near_list (qC C atol_default + eps) L2 L2',
    forall m, (m < size L2')%N -> aorder (arr_nth L2' m) = size lm2 &
    centred_irreps (np_exp E) zeta rots trans k lm2 (size L2') (fun m => aget (arr_nth L2' m))].
Proof.
move=> e0 [sz ci] [sL nr].
exists [seq purify_irrep_value E (qC C atol_default) (adjust_one E k sel A) | A <- L], [seq adjust_one E k sel A | A <- L'].
have E0 m : (m < size L')%N -> arr_nth [seq adjust_one E k sel A | A <- L'] m = adjust_one E k sel (arr_nth L' m).
  by move=> hm; rewrite /arr_nth (nth_map (@Arr C 0 [::])).
split=> //.
- split; rewrite ?size_map // => m hm; rewrite E0 -?sL // /arr_nth (nth_map (@Arr C 0 [::])) //.
  by apply: near_purify_adjust => //; apply: nr.
- by move=> m; rewrite size_map => hm; rewrite E0 // /aorder /= size_map -[size lm2]/(List.length lm2) map_length.
rewrite size_map.
pose D m a := np_exp E (Qopp (vdot k (vsub (List.nth (List.nth a lm2 0%N) trans vzero) (List.nth (pi a) lt vzero)))) *:
  aget (arr_nth L' m) (pi a).
have DE m a : (m < size L')%N -> (a < size lm2)%N ->
    aget (adjust_one E k sel (arr_nth L' m)) a = D m a.
  move=> hm ha; have ha' : (a < size sel)%N by move: ha; rewrite -[size lm2]/(List.length lm2) map_length.
  rewrite /aget /= (nth_map d0) // /D.
  have nE : nth d0 sel a = List.nth a sel d0 by elim: (sel) (a) => [|x s IH] [|b] //=.
  rewrite nE -/(pi a); have [m' [h1 h2 ->]] := sel_nth ha; have [_ _ ->] := lr_nth h2.
  by [].
have CI : centred_irreps (np_exp E) zeta rots trans k lm2 (size L') D.
  apply: (transfer_complete ce SGl FKl MT lt_e) ci => //.
  - by move=> a /pi_facts [].
  - by move=> a /pi_facts [].
  - exact: pi_surj.
  - by move=> a /pi_facts [].
apply: (arr_centred (A := fun m => adjust_one E k sel (arr_nth L' m))); first by move=> m hm; rewrite E0.
by move: CI; apply: centred_eq => m a hm ha; rewrite DE.
Qed.
End Adjust.
