(** When the spin matrices of two commuting operations commute. *)
From Coq Require Import QArith ZArith List Lia Field.
From mathcomp Require Import all_ssreflect all_algebra.
From Verif Require Import FieldTac Py Mat3 GroupModel GroupSpec GroupProofs RepSpec RepTheory Mx2 CExpSpec SmallModel SmallSpec
  SpinorModel SpinorSpec SpinorTheory SpinorProofs SpinorConv TextbookSpec.
Import Order.TTheory GRing.Theory Num.Theory.
Set Implicit Arguments.
Unset Strict Implicit.
Unset Printing Implicit Defensive.
Local Open Scope ring_scope.
Delimit Scope Z_scope with coqZ.

Section Regular.
Variable C : numClosedFieldType.
Add Field FSpinR : (fth C).

Lemma ch2 (A : 'M[C]_2) : A *m A = \tr A *: A - (\det A)%:M.
Proof.
rewrite (mx2_eta A); move: (A _ _) (A _ _) (A _ _) (A _ _) => a b c d.
rewrite mx2M mx2_tr mx2_det mx2Z mx2_s -scaleN1r mx2Z mx2D; congr (mx2 _ _ _ _); to_field C; ring.
Qed.
Lemma pauli_inj v w : pauli v = pauli w :> 'M[C]_2 -> v = w.
Proof.
move/mx2_inj => [e2 e01 e10 _].
have t0 : (2%:R : C) != 0 by rewrite pnatr_eq0.
have e0 : v x0 0 = w x0 0.
  by apply: (mulfI t0); have := congr2 +%R e01 e10 => h; transitivity (v x0 0 - 'i * v x1 0 + (v x0 0 + 'i * v x1 0)); [rewrite mulr2n mulrDl !mul1r; to_field C; ring|rewrite h mulr2n mulrDl !mul1r; to_field C; ring].
have e1 : v x1 0 = w x1 0.
  by apply: (mulfI (neq0Ci C)); move: e10; rewrite e0 => /addrI.
by apply/colP; apply: ord3P.
Qed.
Lemma lift_fun U (R R' : 'M[C]_3) : spin_lift U R -> spin_lift U R' -> R = R'.
Proof.
move=> [_ _ h] [_ _ h']; apply/matrixP => i j.
have e : R *m delta_mx j 0 = R' *m delta_mx j 0 :> 'cV[C]_3 by apply: pauli_inj; rewrite -h -h'.
by move/colP/(_ i): e; rewrite -!colE !mxE.
Qed.
Lemma lift_opp U (R : 'M[C]_3) : spin_lift U R -> spin_lift (- U) R.
Proof.
case=> h1 h2 h3; have aN : adj (- U) = - adj U by rewrite -scaleN1r adjZ rmorphN1 scaleN1r.
split; first by rewrite aN mulmxN mulNmx opprK.
  by rewrite -scaleN1r detZ h2 mulr1 -signr_odd.
by move=> v; rewrite aN mulmxN !mulNmx opprK.
Qed.

(** Anticommuting spin matrices belong to different twofold rotations. *)
Lemma anti_sq U V (R S : 'M[C]_3) : spin_lift U R -> spin_lift V S -> U *m V = - (V *m U) -> U *m U = - 1%:M.
Proof.
move=> [u1 u2 _] [v1 _ _] an.
have t : \tr U = - \tr U.
  rewrite -{1}[U]mulmx1 -v1 mulmxA an mulNmx raddfN /= mxtrace_mulC mulmxA; congr (- _).
  by rewrite (mulmx1C v1) mul1mx.
have t0 : \tr U = 0 by move/eqP: t; rewrite -addr_eq0 -mulr2n mulrn_eq0 /= => /eqP.
by rewrite ch2 t0 u2 scale0r sub0r.
Qed.
Lemma lift_sq_neq U (R : 'M[C]_3) : spin_lift U R -> R <> 1%:M -> U *m U <> 1%:M.
Proof.
move=> l R1 UU; apply: R1; have [_ u2 _] := l.
have e := ch2 U; rewrite u2 UU in e.
have e2 : \tr U *: U = 2%:R%:M.
  have -> : \tr U *: U = \tr U *: U - 1%:M + 1%:M by rewrite subrK.
  by rewrite -e -raddfD.
have t0 : \tr U != 0.
  apply/eqP => t0; move: e2; rewrite t0 scale0r => /matrixP /(_ 0 0); rewrite !mxE eqxx /= mulr1n => /eqP.
  by rewrite eq_sym pnatr_eq0.
have UE : U = (2%:R / \tr U)%:M by apply: (scalerI t0); rewrite e2 scale_scalar_mx mulrC divfK.
move: UE; move: (2%:R / \tr U) => a UE.
have : a ^+ 2 = 1.
  by move: UU; rewrite UE -scalar_mxM => /matrixP /(_ 0 0); rewrite !mxE eqxx /= !mulr1n expr2.
move/eqP; rewrite sqrf_eq1 => /orP [] /eqP a1; apply: (lift_fun l).
  by rewrite UE a1; exact: lift_one.
by rewrite UE a1 raddfN; apply: lift_opp; exact: lift_one.
Qed.

Variable L : 'M[C]_3.
Hypothesis LO : lattice_ok L.
Let LTu : L^T \in unitmx. Proof. by rewrite unitmx_tr; case: LO. Qed.
Lemma mC_inj a b : mC C a = mC C b -> a = b.
Proof.
case: a => a1 a2 a3 a4 a5 a6 a7 a8 a9; case: b => b1 b2 b3 b4 b5 b6 b7 b8 b9 /matrixP h.
have h00 := h x0 x0; have h01 := h x0 x1; have h02 := h x0 x2.
have h10 := h x1 x0; have h11 := h x1 x1; have h12 := h x1 x2.
have h20 := h x2 x0; have h21 := h x2 x1; have h22 := h x2 x2.
move: h00 h01 h02 h10 h11 h12 h20 h21 h22; rewrite !mxE /=.
by do ?[move=> /zC_inj ->].
Qed.
Lemma cart_proper a b : cart_rotation L a = cart_rotation L b <-> proper_part a = proper_part b.
Proof.
split=> [|e]; last by rewrite /cart_rotation e.
rewrite /cart_rotation => h; apply: mC_inj.
have := congr1 (fun X => invmx L^T *m X *m L^T) h; rewrite !mulmxA !mulVmx // !mul1mx.
by rewrite -!mulmxA !mulVmx // !mulmx1.
Qed.
Lemma proper_id a : preserves_metric L a -> proper_part a = mid <-> a = mid \/ a = mneg mid.
Proof.
move=> pa; split=> [|[->|->] //]; rewrite /proper_part; case: ifP => _ h; [by left|right].
by rewrite -[a]mneg_mneg h.
Qed.
Lemma proper_eq a b : preserves_metric L a -> preserves_metric L b -> proper_part a = proper_part b <-> a = b \/ a = mneg b.
Proof.
move=> pa pb; split=> [|[->//|->]].
  rewrite /proper_part; case: ifP => _; case: ifP => _ h; [by left|by right|right|left].
    by rewrite -h mneg_mneg.
  by rewrite -[a]mneg_mneg h mneg_mneg.
by rewrite /proper_part mneg_det; case: (preserves_det LO pb) => -> //=; rewrite mneg_mneg.
Qed.
Lemma proper_sq a : preserves_metric L a -> mmul (proper_part a) (proper_part a) = mmul a a.
Proof. by move=> pa; rewrite /proper_part; case: ifP => // _; rewrite mneg_mul_l mneg_mul_r mneg_mneg. Qed.

Variables (rots : list mat) (S : mat -> 'M[C]_2) (zeta : mat -> mat -> C).
Hypotheses (PM : forall r, List.In r rots -> preserves_metric L r) (SS : spin_system L rots S zeta).
Hypothesis LG : lists_group rots.
Lemma ss_lift r : List.In r rots -> spin_lift (S r) (cart_rotation L r).
Proof.
move=> hr; have ic : is_cartesian L r (L^T *m mC C r *m invmx L^T) by rewrite /is_cartesian mulmxKV.
by rewrite -(cart_is LO (PM hr) ic); exact: (ss_spin SS hr ic).
Qed.
Lemma spin_commute a b : List.In a rots -> List.In b rots -> mmul a b = mmul b a ->
  zeta a b = zeta b a <-> ~ twofold_pair a b.
Proof.
move=> ha hb c; have la := ss_lift ha; have lb := ss_lift hb.
have pa := PM ha; have pb := PM hb.
have ab := ss_mul SS ha hb; have ba := ss_mul SS hb ha; rewrite -c in ba.
have sg x y : List.In x rots -> List.In y rots -> zeta x y = 1 \/ zeta x y = -1 by exact: (ss_sign SS).
have sq x : List.In x rots -> mmul x x = mid -> ~ (x = mid \/ x = mneg mid) -> S x *m S x = - 1%:M.
  move=> hx xx nx; have := ss_mul SS hx hx; rewrite xx (ss_id SS).
  case: (sg x x hx hx) => ->; rewrite ?scale1r ?scaleN1r // => h; exfalso.
  apply: (lift_sq_neq (ss_lift hx) _ h); rewrite -(cart_id LO) => /cart_proper.
  by rewrite [proper_part mid]/= => /(proper_id (PM hx)).
split=> [e tp|ntp].
  have [aa bb [a1 a2] [b1 b2] [ab1 ab2]] := tp.
  have hab := lg_mul _ LG _ _ ha hb.
  have abab : mmul (mmul a b) (mmul a b) = mid.
    by rewrite {2}c mmul_assoc -[mmul (mmul a b) b]mmul_assoc bb mmul_1r.
  have nab : ~ (mmul a b = mid \/ mmul a b = mneg mid).
    move=> h; have : a = b \/ a = mneg b.
      have eq : a = mmul (mmul a b) b by rewrite -mmul_assoc bb mmul_1r.
      by case: h => h; rewrite eq h; [left|right]; rewrite ?mneg_mul_l mmul_1l.
    by case.
  have := sq _ hab abab nab.
  have -> : S (mmul a b) *m S (mmul a b) = S a *m S b *m (S b *m S a).
    rewrite ab ba -scalemxAl -scalemxAr scalerA e.
    by case: (sg b a hb ha) => ->; rewrite ?mulrNN !mulr1 scale1r.
  rewrite -mulmxA [S b *m (S b *m _)]mulmxA (sq b hb bb) //; last by case.
  rewrite mulNmx mul1mx mulmxN (sq a ha aa) //; last by case.
  rewrite opprK => /matrixP /(_ 0 0); rewrite !mxE eqxx /= => /eqP.
  by rewrite -addr_eq0 -mulr2n pnatr_eq0.
case: (eqVneq (zeta a b) (zeta b a)) => // /eqP ne; exfalso; apply: ntp.
have an : S a *m S b = - (S b *m S a).
  rewrite ab ba -scaleNr; congr (_ *: _).
  by case: (sg a b ha hb) (sg b a hb ha) ne => -> [] ->; rewrite ?opprK.
have an' : S b *m S a = - (S a *m S b) by rewrite an opprK.
have two x y : List.In x rots -> List.In y rots -> S x *m S y = - (S y *m S x) ->
    mmul x x = mid /\ ~ (x = mid \/ x = mneg mid).
  move=> hx hy h; have lx := ss_lift hx; have s1 := anti_sq lx (ss_lift hy) h; split.
    have := lift_mul lx lx; rewrite s1 -(cart_mul LO (PM hx) (PM hx)) => l1.
    have := lift_fun l1 (lift_opp (lift_one C)); rewrite -(cart_id LO) => /cart_proper.
    by rewrite (proper_mul LO (PM hx) (PM hx)) (proper_sq (PM hx)).
  move/(proper_id (PM hx)) => e1.
  have lx1 : spin_lift (S x) 1%:M by rewrite -(cart_id LO) (_ : cart_rotation L mid = cart_rotation L x) //; apply/cart_proper.
  move: s1; case: (lift_unique lx1 (lift_one C)) => ->; rewrite ?mulNmx ?mulmxN ?opprK mulmx1 => /matrixP /(_ 0 0);
    rewrite !mxE eqxx /= => /eqP; by rewrite -addr_eq0 -mulr2n pnatr_eq0.
have [aa a1] := two a b ha hb an; have [bb b1] := two b a hb ha an'.
have ab1 : ~ (a = b \/ a = mneg b).
  move/(proper_eq pa pb)/cart_proper => e1; rewrite e1 in la.
  have s1 := anti_sq lb la an'.
  have : S a *m S b = S b *m S a by case: (lift_unique la lb) => ->; rewrite ?mulNmx ?mulmxN.
  rewrite an => /eqP; rewrite eq_sym -addr_eq0 -mulr2n -scaler_nat scaler_eq0 pnatr_eq0 /= => /eqP z0.
  have [_ d1 _] := lb; have [_ d2 _] := la.
  by have := det_mulmx (S b) (S a); rewrite z0 d1 d2 det0 mulr1 => /eqP; rewrite eq_sym oner_eq0.
by split=> //; split=> h; [apply: a1; left|apply: a1; right|apply: b1; left|apply: b1; right|apply: ab1; left|apply: ab1; right].
Qed.
End Regular.
