(** Purification of matrix entries (irreps.py:636-668). *)
From Coq Require Import QArith Field.
From mathcomp Require Import all_ssreflect all_algebra.
From Verif Require Import FieldTac RepSpec RepModel CExpSpec SmallModel.
Import Order.TTheory GRing.Theory Num.Theory.
Set Implicit Arguments.
Unset Strict Implicit.
Unset Printing Implicit Defensive.
Local Open Scope ring_scope.
Delimit Scope Z_scope with coqZ.

Section Snap.
Variables (C : numClosedFieldType) (atol : C) (vs : seq C).
Hypothesis sep : {in vs &, forall u v, u != v -> atol <= `|u - v|}.

Lemma snap_fixed (ws : seq C) y : {subset ws <= vs} -> y \in vs -> snap atol ws y = y.
Proof.
elim: ws => //= v ws IH sub yv; have vv : v \in vs by apply: sub; rewrite inE eqxx.
have subw : {subset ws <= vs} by move=> z zw; apply: sub; rewrite inE zw orbT.
case: ifP => h; last exact: IH.
suff -> : v = y by exact: IH.
apply/eqP; apply: contraTT isT => ne; have := sep yv vv; rewrite eq_sym => /(_ ne) h'.
by have := lt_le_trans h h'; rewrite ltxx.
Qed.
Lemma snapP x : (snap atol vs x = x /\ forall v, v \in vs -> ~~ (`|x - v| < atol)) \/
  exists v, [/\ v \in vs, `|x - v| < atol & snap atol vs x = v].
Proof.
suff: forall ws, {subset ws <= vs} -> (snap atol ws x = x /\ forall v, v \in ws -> ~~ (`|x - v| < atol)) \/
  exists v, [/\ v \in ws, `|x - v| < atol & snap atol ws x = v] by exact.
elim=> [|v ws IH] sub /=; first by left.
have vv : v \in vs by apply: sub; rewrite inE eqxx.
have subw : {subset ws <= vs} by move=> z zw; apply: sub; rewrite inE zw orbT.
case: ifP => h.
  by right; exists v; split=> //; [rewrite inE eqxx|rewrite -/(snap atol ws v) snap_fixed].
case: (IH subw) => [[h1 h2]|[w [h1 h2 h3]]].
  by left; split=> // w; rewrite inE => /orP [/eqP ->|/h2 //]; rewrite h.
by right; exists w; rewrite inE h1 orbT.
Qed.
Lemma snap_moves x : snap atol vs x = x \/ `|x - snap atol vs x| < atol.
Proof. by case: (snapP x) => [[-> _]|[v [_ h ->]]]; [left|right]. Qed.
Lemma snap_dist x : 0 <= atol -> `|snap atol vs x - x| <= atol.
Proof. by move=> a0; case: (snap_moves x) => [->|/ltW]; rewrite ?subrr ?normr0 // distrC. Qed.
Lemma snap_idem x : snap atol vs (snap atol vs x) = snap atol vs x.
Proof. by case: (snapP x) => [[h _]|[v [h1 h2 ->]]]; [rewrite !h|exact: snap_fixed]. Qed.
Lemma snap_value x : x \in vs -> snap atol vs x = x.
Proof. exact: snap_fixed. Qed.
Lemma snap_far x : (forall v, v \in vs -> atol <= `|x - v|) -> snap atol vs x = x.
Proof.
case: (snapP x) => [[-> _ _] //|[v [h1 h2 _]] /(_ v h1) h3].
by have := lt_le_trans h2 h3; rewrite ltxx.
Qed.
Lemma snap_near x v : v \in vs -> `|x - v| < atol -> exists w, [/\ w \in vs, `|x - w| < atol & snap atol vs x = w].
Proof. by move=> vv h; case: (snapP x) => [[_ /(_ v vv)]|//]; rewrite h. Qed.
End Snap.

Section Roots.
Variable C : numClosedFieldType.
Add Field rootsC : (fth C).
Implicit Types z u v : C.

Lemma root_norm z m : (0 < m)%N -> z ^+ m = 1 -> `|z| = 1.
Proof.
move=> m0 h; have := congr1 (fun x : C => `|x|) h; rewrite normrX normr1 => /eqP; rewrite pexpr_eq1 // ?normr_ge0 //.
by move/eqP.
Qed.
Lemma geom_bound z m : `|z| = 1 -> `|1 - z ^+ m| <= m%:R * `|1 - z|.
Proof.
move=> z1; rewrite -[X in X - _](expr1n _ m) subrXX normrM mulrC ler_wpmul2r ?normr_ge0 //.
apply: le_trans (ler_norm_sum _ _ _) _; rewrite (eq_bigr (fun=> 1)).
  by rewrite sumr_const card_ord.
by move=> i _; rewrite expr1n mul1r normrX z1 expr1n.
Qed.
Lemma root12_sep z : z ^+ 12 = 1 -> z != 1 -> 3%:R^-1 <= `|1 - z|.
Proof.
move=> h12 z1; have nz : `|z| = 1 by apply: root_norm h12.
have pos3 : 0 < 3%:R :> C by rewrite ltr0n.
have key m : (0 < m)%N -> z ^+ m = -1 -> (m <= 6)%N -> 3%:R^-1 <= `|1 - z|.
  move=> m0 h m6; have := geom_bound m nz; rewrite h opprK.
  have -> : `|1 + 1 : C| = 2%:R by rewrite -(natrD _ 1 1) normr_nat.
  move=> h2; rewrite -(ler_pmul2l (x := 6%:R)) ?ltr0n //; apply: (@le_trans _ _ 2%:R).
    by rewrite (_ : 6%:R = 2%:R * 3%:R) ?mulfK ?gt_eqF // -natrM.
  by apply: le_trans h2 _; rewrite ler_wpmul2r ?normr_ge0 // ler_nat.
have: (z ^+ 6 == 1) || (z ^+ 6 == -1).
  by rewrite -subr_eq0 -[_ == -1]subr_eq0 -mulf_eq0 opprK -subr_sqr expr1n -exprM h12 subrr.
case/orP=> /eqP h6; last exact: key h6 _.
have: (z ^+ 3 == 1) || (z ^+ 3 == -1).
  by rewrite -subr_eq0 -[_ == -1]subr_eq0 -mulf_eq0 opprK -subr_sqr expr1n -exprM h6 subrr.
case/orP=> /eqP h3; last exact: key h3 _.
have sum0 : 1 + z + z ^+ 2 = 0.
  have: (z - 1) * (1 + z + z ^+ 2) = 0.
    have -> : (z - 1) * (1 + z + z ^+ 2) = z ^+ 3 - 1 by rewrite !exprS expr0; to_field C; ring.
    by rewrite h3 subrr.
  by move/eqP; rewrite mulf_eq0 subr_eq0 (negbTE z1) => /eqP.
have e3 : (1 - z) * (1 - z ^+ 2) = 3%:R.
  have -> : (1 - z) * (1 - z ^+ 2) = 2%:R + z ^+ 3 - (1 + z + z ^+ 2).
    by rewrite mulr2n !exprS expr0; to_field C; ring.
  by rewrite h3 sum0 subr0 -(natrD _ 2 1).
have b2 : `|1 - z ^+ 2| <= 2%:R.
  by apply: le_trans (ler_norm_sub _ _) _; rewrite normr1 normrX nz expr1n -(natrD _ 1 1).
have := congr1 (fun x : C => `|x|) e3; rewrite normrM normr_nat => e3'.
have: 3%:R <= `|1 - z| * 2%:R by rewrite -e3' ler_wpmul2l ?normr_ge0.
move=> h; rewrite -(ler_pmul2r (x := 2%:R)) ?ltr0n //; apply: le_trans h.
rewrite -(ler_pmul2l pos3) mulrA mulfV ?gt_eqF // mul1r -natrM ler_nat //.
Qed.
Lemma roots12_sep u v : u ^+ 12 = 1 -> v ^+ 12 = 1 -> u != v -> 3%:R^-1 <= `|u - v|.
Proof.
move=> hu hv uv; have nu : `|u| = 1 by apply: root_norm hu.
have u0 : u != 0 by rewrite -normr_eq0 nu oner_eq0.
have := @root12_sep (v / u); rewrite expr_div_n hu hv divr1 => /(_ erefl).
have -> : (v / u != 1) by apply: contraNneq uv => h; rewrite -[v](mulfVK u0) h mul1r.
by move=> /(_ isT); rewrite -[1 - _](mulfK u0) mulrBl mul1r mulfVK // normrM normfV nu invr1 mulr1.
Qed.
End Roots.

Section Special.
Variables (C : numClosedFieldType) (E : numpy C).
Hypothesis ce : exp_spec (np_exp E).
Local Notation cexp := (np_exp E).

Lemma cexp0 : cexp (inject_Z 0%coqZ) = 1.
Proof. by apply/(ce_int ce); exists Z0; apply: Qeq_refl. Qed.
Lemma cexpX q m : cexp q ^+ m = cexp (Qmult (inject_Z (Z.of_nat m)) q).
Proof.
elim: m => [|m IH].
  rewrite expr0 -cexp0; apply: (ce_eq ce); ring.
rewrite exprS IH -(ce_add ce); apply: (ce_eq ce); rewrite Nat2Z.inj_succ -Z.add_1_r inject_Z_plus; ring.
Qed.
Lemma cexp_neg q : cexp (Qopp q) = (cexp q)^-1.
Proof.
have nz : cexp q != 0 by rewrite -normr_eq0 (ce_norm ce) oner_eq0.
apply: (mulIf nz); rewrite mulVf // -(ce_add ce) -cexp0; apply: (ce_eq ce); ring.
Qed.
Lemma cexp_diff a b : (exists z : Z, Qeq (Qminus a b) (inject_Z z)) -> cexp a = cexp b.
Proof.
move=> /(ce_int ce) h; rewrite -[RHS]mul1r -h -(ce_add ce); apply: (ce_eq ce); ring.
Qed.
Lemma special12 v : v \in special_values E -> v = 0 \/ v ^+ 12 = 1.
Proof.
rewrite !inE => H.
have hc q : (exists z : Z, Qeq (Qmult (inject_Z 12%coqZ) q) (inject_Z z)) -> cexp q ^+ 12 = 1.
  by move=> [z h]; rewrite cexpX; apply/(ce_int ce); exists z.
repeat (case/orP: H => [/eqP ->|H]; first by
  [left|right; rewrite expr1n|right; apply: hc; eexists; vm_compute; reflexivity
  |right; rewrite -signr_odd /= expr0|right; apply: hc; exists 8%coqZ; vm_compute; reflexivity
  |right; apply: hc; exists 2%coqZ; vm_compute; reflexivity|right; apply: hc; exists 3%coqZ; vm_compute; reflexivity
  |right; apply: hc; exists 4%coqZ; vm_compute; reflexivity|right; apply: hc; exists 9%coqZ; vm_compute; reflexivity
  |right; apply: hc; exists 10%coqZ; vm_compute; reflexivity]).
by move/eqP: H => ->; right; apply: hc; exists 10%coqZ; vm_compute; reflexivity.
Qed.
Lemma special_sep (atol : C) : atol <= 3%:R^-1 ->
  {in special_values E &, forall u v, u != v -> atol <= `|u - v|}.
Proof.
move=> a3 u v /special12 hu /special12 hv uv; apply: le_trans a3 _.
have i3 : 3%:R^-1 <= 1 :> C by rewrite invf_le1 ?ltr0n // ler1n.
case: hu hv uv => [-> [->|h]|h [->|h']]; first by rewrite eqxx.
- by rewrite sub0r normrN (root_norm _ h).
- by rewrite subr0 (root_norm _ h).
- exact: roots12_sep.
Qed.

(** The special values of the real variant. *)
Let s : C := sqrtC 3%:R.
Let s0 : 0 <= s. Proof. by rewrite sqrtC_ge0 ler0n. Qed.
Let ss : s ^+ 2 = 3%:R. Proof. exact: sqrtCK. Qed.
Lemma sqrt3_lo : 3%:R / 2%:R <= s.
Proof.
rewrite -(ler_pexpn2r (n := 2)) ?nnegrE ?divr_ge0 ?ler0n // ss expr_div_n -!natrX ler_pdivr_mulr ?ltr0n // -natrM ler_nat //.
Qed.
Lemma sqrt3_hi : s <= 7%:R / 4%:R.
Proof.
rewrite -(ler_pexpn2r (n := 2)) ?nnegrE ?divr_ge0 ?ler0n // ss expr_div_n -!natrX ler_pdivl_mulr ?ltr0n // -natrM ler_nat //.
Qed.

Let r : C := s / 2%:R.
Let eps : C := 8%:R^-1.
Let eps0 : 0 <= eps. Proof. by rewrite invr_ge0 ler0n. Qed.
Let epsE m k : (k * m = 8)%N -> eps *+ m = k%:R^-1.
Proof.
move=> h; have k0 : k%:R != 0 :> C by rewrite pnatr_eq0; apply: contra_eqN h => /eqP ->.
apply: (mulfI k0); rewrite mulfV // mulrnAr -mulrnAl -mulr_natr -natrM h mulfV // pnatr_eq0 //.
Qed.
Let le_eps m1 m2 : (m1 <= m2)%N -> eps *+ m1 <= eps *+ m2.
Proof. by move=> h; rewrite -[in X in _ <= X](subnK h) mulrnDr ler_addr mulrn_wge0. Qed.
Let r_lo : eps *+ 6 <= r.
Proof.
have -> : eps *+ 6 = 3%:R / 2%:R / 2%:R.
  by rewrite -mulrA -invfM -natrM -(@epsE 2) // mulr_natl -mulrnA.
by rewrite ler_wpmul2r ?invr_ge0 ?ler0n // sqrt3_lo.
Qed.
Let r_hi : r <= eps *+ 7.
Proof.
have -> : eps *+ 7 = 7%:R / 4%:R / 2%:R by rewrite -mulrA -invfM -natrM -(@epsE 1) // mulr1n mulr_natl.
by rewrite ler_wpmul2r ?invr_ge0 ?ler0n // sqrt3_hi.
Qed.
Let R (u v : C) := u + eps <= v.
Let R_trans : transitive R.
Proof. by move=> y x z; rewrite /R => h1 h2; apply: le_trans h2; apply: le_trans h1 _; rewrite ler_addl. Qed.
Let chain := [:: -1; - r; - 2%:R^-1; 0; 2%:R^-1; r; 1 : C].
Let chain_sorted : sorted R chain.
Proof.
have h2 : eps *+ 4 = 2%:R^-1 by exact: epsE. have h1 : eps *+ 8 = 1 by rewrite (@epsE 8 1) // invr1.
have h0 : 0 = eps *+ 0 by rewrite mulr0n. have e1 : eps = eps *+ 1 by rewrite mulr1n.
have neg u v : R u v -> R (- v) (- u) by rewrite /R => h; rewrite -ler_opp2 opprK opprD opprK ler_subr_addr.
have a1 : R r 1 by rewrite /R -h1 (@mulrSr _ eps 7) ler_add2r.
have a2 : R 2%:R^-1 r by rewrite /R -h2 -mulrSr; apply: le_trans r_lo; apply: le_eps.
have a3 : R 0 2%:R^-1 by rewrite /R -h2 add0r {1}e1; apply: le_eps.
by rewrite /= (neg _ _ a1) (neg _ _ a2) a1 a2 a3 -{1}oppr0 (neg _ _ a3).
Qed.
Lemma real_sep (atol : C) : atol <= 8%:R^-1 ->
  {in real_values C &, forall u v, u != v -> atol <= `|u - v|}.
Proof.
move=> a8; have mem v : v \in real_values C -> v \in chain.
  by rewrite /chain !inE -/s -/r; do ![case/orP] => ->; rewrite ?orbT.
have key u v : R u v -> atol <= `|u - v|.
  rewrite /R addrC -ler_subr_addr => h; have h' := h; apply: le_trans a8 _; apply: le_trans h' _; rewrite distrC.
  by rewrite real_ler_norm // realE; apply/orP; left; apply: le_trans h.
move=> u v /mem mu_ /mem mv uv.
have [lt|lt|/eqP] := ltngtP (index u chain) (index v chain).
- apply: key; have := sorted_ltn_nth R_trans 0 chain_sorted.
  by move=> /(_ (index u chain) (index v chain)); rewrite !inE !index_mem !nth_index //; apply.
- rewrite distrC; apply: key; have := sorted_ltn_nth R_trans 0 chain_sorted.
  by move=> /(_ (index v chain) (index u chain)); rewrite !inE !index_mem !nth_index //; apply.
by move/eqP/(congr1 (nth 0 chain)); rewrite !nth_index // => /eqP; rewrite (negbTE uv).
Qed.
End Special.
