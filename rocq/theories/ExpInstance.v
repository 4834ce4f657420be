(** The assumptions made about exp(2 pi i q) are satisfiable in every algebraically closed
    field with conjugation: a compatible system of primitive roots of unity. *)
From Coq Require Import QArith Lia.
From mathcomp Require Import all_ssreflect all_algebra all_fingroup cyclic separable.
From Verif Require Import CExpSpec.
Import Order.TTheory GRing.Theory Num.Theory.
Set Implicit Arguments.
Unset Strict Implicit.
Unset Printing Implicit Defensive.
Local Open Scope ring_scope.
Delimit Scope Z_scope with coqZ.

Lemma separable_Xn_sub_1 (R : idomainType) n : n%:R != 0 :> R -> @separable_poly R ('X^n - 1).
Proof.
case: n => [/eqP// | n nz_n]; rewrite /separable_poly linearB /= derivC subr0.
rewrite derivXn -scaler_nat coprimepZr //= exprS -scaleN1r coprimep_sym.
by rewrite coprimep_addl_mul coprimepZr ?coprimep1 // (signr_eq0 _ 1).
Qed.
Section Inst.
Variable C : numClosedFieldType.

Lemma prim_exists n : (0 < n)%N -> exists z : C, n.-primitive_root z.
Proof.
pose p : {poly C} := 'X^n - 1; have [r Dp] := closed_field_poly_normal p.
move=> n_gt0; rewrite (monicP (monic_Xn_sub_1 C n_gt0)) scale1r in Dp.
have rn1: all n.-unity_root r by apply/allP=> z; rewrite -root_prod_XsubC -Dp.
have sz_r: (n < (size r).+1)%N by rewrite -(size_prod_XsubC r id) -Dp size_Xn_sub_1.
have [|z] := hasP (has_prim_root n_gt0 rn1 _ sz_r); last by exists z.
by rewrite -separable_prod_XsubC -Dp separable_Xn_sub_1 // pnatr_eq0 -lt0n.
Qed.

Lemma lift_coprime N m a : (0 < N)%N -> (0 < m)%N -> coprime a N ->
  exists2 a', a' = a %[mod N] & coprime a' (N * m).
Proof.
move=> N0 m0 co; pose pi := \pi(N); pose m' := (m`_pi^')%N.
have coN : coprime N m' by rewrite (@pnat_coprime pi) ?pnat_pi // part_pnat.
exists (chinese N m' a 1); first exact: chinese_modl.
have c1 : coprime (chinese N m' a 1) N by rewrite -coprime_modl chinese_modl // coprime_modl.
have c2 : coprime (chinese N m' a 1) m' by rewrite -coprime_modl chinese_modr // coprime_modl coprime1n.
move: (chinese N m' a 1) c1 c2 => x c1 c2; rewrite coprimeMr c1 /= -(partnC pi m0) coprimeMr c2 andbT.
case: (posnP x) c1 => [->|x0]; last first.
  rewrite coprime_sym (coprime_pi' N0 x0) => h; rewrite coprime_sym.
  exact: (pnat_coprime (part_pnat pi m) h).
by rewrite /pi /coprime !gcd0n => /eqP ->; rewrite part_p'nat //; apply/pnatP.
Qed.

Lemma lift_root n (z : C) : (n`!).-primitive_root z ->
  exists w, (w ^+ n.+1 == z) && (n.+1`!).-primitive_root w.
Proof.
move=> pz; have [w0 pw] := prim_exists (fact_gt0 n.+1).
have pw1 : (n`!).-primitive_root (w0 ^+ n.+1).
  have := dvdn_prim_root pw (m := n`!); rewrite factS mulnK ?fact_gt0 // => -> //.
  exact: dvdn_mull.
have [a za] := prim_rootP pw1 (prim_expr_order pz).
have co : coprime a n`! by rewrite -(prim_root_exp_coprime _ pw1) -za.
have [a' ma ca] := lift_coprime (fact_gt0 n) (ltn0Sn n) co.
exists (w0 ^+ a'); apply/andP; split.
  by rewrite -exprM mulnC exprM za (eq_prim_root_expr pw1) ma.
by rewrite prim_root_exp_coprime // factS mulnC.
Qed.

Lemma prim_one : (0`!).-primitive_root (1 : C).
Proof. by have [m pm] := prim_order_exists (isT : 0 < 1)%N (expr1n C 1); rewrite dvdn1 => /eqP e; rewrite e in pm. Qed.
Fixpoint root_sys (n : nat) : {z : C | (n`!).-primitive_root z} :=
  match n with
  | O => exist _ 1 prim_one
  | n'.+1 => let: exist z pz := root_sys n' in
     let ex := lift_root pz in exist _ (xchoose ex) (proj2 (andP (xchooseP ex)))
  end.

Definition zr n : C := sval (root_sys n).
Lemma zr_prim n : (n`!).-primitive_root (zr n). Proof. exact: svalP (root_sys n). Qed.
Lemma zrS n : zr n.+1 ^+ n.+1 = zr n.
Proof.
rewrite /zr /=; case: (root_sys n) => z pz /=.
by have /andP [/eqP] := xchooseP (lift_root pz).
Qed.
Lemma zr_le k j : exists2 q, (q * k`! = (j + k)`!)%N & zr (j + k) ^+ q = zr k.
Proof.
elim: j => [|j [q e h]]; first by exists 1%N; rewrite ?mul1n.
exists ((j + k).+1 * q)%N; first by rewrite -mulnA e addSn factS.
by rewrite addSn exprM zrS h.
Qed.
(** The primitive b-th root of the system. *)
Definition ur b := zr b ^+ (b.-1)`!.
Lemma ur_prim b : (0 < b)%N -> b.-primitive_root (ur b).
Proof.
case: b => // b _; have := dvdn_prim_root (zr_prim b.+1) (m := b.+1).
by rewrite factS mulKn // => -> //; apply: dvdn_mulr.
Qed.
Lemma ur_mul b c : (0 < b)%N -> (0 < c)%N -> ur (b * c) ^+ c = ur b.
Proof.
move=> b0 c0; have bc : (b <= b * c)%N by rewrite leq_pmulr.
have [q e h] := zr_le b (b * c - b); rewrite subnK // in e h.
rewrite /ur -h -!exprM; congr (_ ^+ _); apply/eqP; rewrite -(eqn_pmul2r b0) -!mulnA.
have f m : (0 < m)%N -> m`! = (m.-1`! * m)%N by case: m => // m _; rewrite factS mulnC.
by rewrite -(f b) // e [(c * b)%N]mulnC -f // muln_gt0 b0.
Qed.
Lemma modn_Z m k b z : (Z.of_nat m = Z.of_nat k + z * Z.of_nat b)%coqZ -> m = k %[mod b].
Proof.
move=> h; case: (Z_le_gt_dec Z0 z) => z0.
  have -> : m = (Z.to_nat z * b + k)%N by rewrite -plusE -multE; lia.
  by rewrite modnMDl.
have -> : k = (Z.to_nat (- z) * b + m)%N by rewrite -plusE -multE; lia.
by rewrite modnMDl.
Qed.

Definition E (b : nat) (a : Z) : C := ur b ^+ Z.to_nat (Z.modulo a (Z.of_nat b)).
Definition cexp_inst (q : Q) : C := E (Pos.to_nat (Qden q)) (Qnum q).
Lemma E_nat b a k : (0 < b)%N -> (exists z, a = Z.of_nat k + z * Z.of_nat b)%coqZ -> E b a = ur b ^+ k.
Proof.
move=> b0 [z ->]; apply/eqP; rewrite /E (eq_prim_root_expr (ur_prim b0)); apply/eqP.
have b0' : (0 < Z.of_nat b)%coqZ by move/ssrnat.ltP: b0; lia.
have := Z.div_mod (Z.of_nat k + z * Z.of_nat b) (Z.of_nat b) ltac:(lia).
have := Z.mod_pos_bound (Z.of_nat k + z * Z.of_nat b) (Z.of_nat b) ltac:(lia).
set m := (_ mod _)%coqZ; set q := (_ / _)%coqZ => h1 h2.
apply: (@modn_Z _ _ _ (z - q)); rewrite Z2Nat.id; lia.
Qed.
Lemma E_rep b a : (0 < b)%N -> exists k z, a = (Z.of_nat k + z * Z.of_nat b)%coqZ.
Proof.
move=> b0; have b0' : (0 < Z.of_nat b)%coqZ by move/ssrnat.ltP: b0; lia.
exists (Z.to_nat (a mod Z.of_nat b)), (a / Z.of_nat b)%coqZ.
have := Z.div_mod a (Z.of_nat b) ltac:(lia); have := Z.mod_pos_bound a (Z.of_nat b) ltac:(lia); lia.
Qed.
Lemma E_mul b c a : (0 < b)%N -> (0 < c)%N -> E (b * c) (a * Z.of_nat c) = E b a.
Proof.
move=> b0 c0; have [k [z e]] := E_rep a b0.
rewrite (E_nat (b := b) (k := k)) //; last by exists z.
have bc : (0 < b * c)%N by rewrite muln_gt0 b0.
rewrite (E_nat (b := b * c) (k := k * c)) //.
  by rewrite [(k * c)%N]mulnC exprM ur_mul.
exists z; rewrite e -!multE; lia.
Qed.
Lemma E_add b a a' : (0 < b)%N -> E b (a + a') = E b a * E b a'.
Proof.
move=> b0; have [k [z e]] := E_rep a b0; have [k' [z' e']] := E_rep a' b0.
rewrite (E_nat (k := k) (a := a)) //; last by exists z.
rewrite (E_nat (k := k') (a := a')) //; last by exists z'.
rewrite -exprD (E_nat (k := k + k')) //.
by exists (z + z')%coqZ; rewrite -plusE; lia.
Qed.
Lemma pos0 q : (0 < Pos.to_nat q)%N. Proof. by apply/ssrnat.ltP; lia. Qed.
Theorem cexp_inst_spec : exp_spec cexp_inst.
Proof.
split.
- move=> [a b] [a' b']; rewrite /Qeq /cexp_inst /= => h.
  rewrite -(E_mul a (pos0 b) (pos0 b')) -(E_mul a' (pos0 b') (pos0 b)) mulnC; congr E; lia.
- move=> [a b] [a' b']; rewrite /cexp_inst /Qplus /= Pos2Nat.inj_mul multE -!positive_nat_Z.
  rewrite E_add ?muln_gt0 ?pos0 // E_mul ?pos0 //; congr (_ * _).
  by rewrite mulnC E_mul ?pos0.
- move=> [a b]; rewrite /cexp_inst /= /E normrX.
  have -> : `|ur (Pos.to_nat b)| = 1; last by rewrite expr1n.
  apply/eqP; rewrite -(pexpr_eq1 (pos0 b)) // -normrX.
  by rewrite (prim_expr_order (ur_prim (pos0 b))) normr1.
- move=> [a b]; rewrite /cexp_inst /=; have [k [z e]] := E_rep a (pos0 b).
  rewrite (E_nat (k := k)) ?pos0 //; last by exists z.
  rewrite /Qeq /inject_Z /=; split.
    move/eqP; rewrite -(prim_order_dvd (ur_prim (pos0 b))) => /dvdnP [q ek].
    exists (Z.of_nat q + z)%coqZ; rewrite e ek -multE; lia.
  move=> [w]; rewrite Z.mul_1_r e => h; apply/eqP; rewrite -(prim_order_dvd (ur_prim (pos0 b))).
  have := @modn_Z k 0 (Pos.to_nat b) (w - z); rewrite mod0n /dvdn => -> //; lia.
Qed.
End Inst.
