(** Decisions made by rounding or within a tolerance, on matrices which carry errors. *)
From mathcomp Require Import all_ssreflect all_algebra all_fingroup.
From Verif Require Import Py FieldTac RepSpec RepTheory IndexRepSpec RepModel IndexGroup SmallSpec SmallTheory RandomTheory.
Import Order.TTheory GRing.Theory Num.Theory.
Set Implicit Arguments.
Unset Strict Implicit.
Unset Printing Implicit Defensive.
Local Open Scope ring_scope.

(** What np.around does near a non-negative integer: both parts are rounded to the nearest
    integer. *)
Definition rounds (C : numClosedFieldType) (around : C -> C) : Prop :=
  forall (z : C) (m : nat), `|'Re z - m%:R| < 2%:R^-1 -> `|'Im z| < 2%:R^-1 -> around z = m%:R.
(** np.allclose(X, Y, rtol, atol). *)
Definition np_close (C : numClosedFieldType) (rtol atol : C) (d : nat) (X Y : 'M[C]_d) : bool :=
  [forall i, forall j, `|X i j - Y i j| <= atol + rtol * `|Y i j|].

Section Robust.
Variable C : numClosedFieldType.
Add Field robC : (fth C).
Implicit Types eps : C.

Lemma im_le (z : C) : `|'Im z| <= `|z|.
Proof.
rewrite -(@ler_pexpn2r _ 2) ?nnegrE ?normr_ge0 // [X in _ <= X]normC2_Re_Im.
rewrite -(real_normK (Creal_Im z)) ler_addr; have: 0 <= `|'Re z| ^+ 2 by rewrite exprn_ge0.
by rewrite (real_normK (Creal_Re z)).
Qed.
Lemma re_le (z : C) : `|'Re z| <= `|z|.
Proof. exact: leif_normC_Re_Creal. Qed.
Lemma rounds_near around (z : C) (m : nat) : rounds around -> `|z - m%:R| < 2%:R^-1 -> around z = m%:R.
Proof.
move=> r h; have mr : (m%:R : C) \is Num.real by exact: realn.
apply: r; apply: le_lt_trans h.
  have <- : 'Re (z - m%:R) = 'Re z - m%:R by rewrite raddfB /= (Creal_ReP _ mr).
  exact: re_le.
have -> : 'Im z = 'Im (z - m%:R) by rewrite raddfB /= (Creal_ImP _ mr) subr0.
exact: im_le.
Qed.

Lemma tr_near d (X Y : 'M[C]_d) eps : (forall i j, `|X i j - Y i j| <= eps) -> `|\tr X - \tr Y| <= d%:R * eps.
Proof. by move=> h; rewrite /mxtrace -sumrB; apply: sum_bound => i; apply: h. Qed.
Lemma tr_le d (X : 'M[C]_d) : X *m adj X = 1%:M -> `|\tr X| <= d%:R.
Proof. by move=> u; rewrite -[X in _ <= X]mulr1; apply: sum_bound => i; apply: unitary_entry. Qed.
Lemma prod_near (a b x y : C) (p q eps : C) : 0 <= eps -> 0 <= p -> 0 <= q ->
  `|x| <= p -> `|y| <= q -> `|a - x| <= p * eps -> `|b - y| <= q * eps ->
  `|a^* * b - x^* * y| <= p * q * (2%:R * eps + eps ^+ 2).
Proof.
move=> e0 p0 q0 xp yq ax bx.
have -> : a^* * b - x^* * y = (a - x)^* * (b - y) + (a - x)^* * y + x^* * (b - y).
  by rewrite rmorphB /=; set a' := a^*; set x' := x^*; to_field C; ring.
have -> : p * q * (2%:R * eps + eps ^+ 2) = (p * eps) * (q * eps) + (p * eps) * q + p * (q * eps).
  by rewrite expr2 -[2%:R]/(1 + 1); to_field C; ring.
have pe : 0 <= p * eps by exact: mulr_ge0.
apply: le_trans (ler_norm_add _ _) _; apply: ler_add.
  apply: le_trans (ler_norm_add _ _) _.
  by apply: ler_add; rewrite normrM norm_conjC; apply: ler_pmul.
by rewrite normrM norm_conjC; apply: ler_pmul.
Qed.

Section Chars.
Variables (n d1 d2 : nat) (eps : C) (as_ as' : seq 'M[C]_d1) (bs bs' : seq 'M[C]_d2).
Hypotheses (e0 : 0 <= eps) (sa : size as_ = n) (sb : size bs = n) (sa' : size as' = n) (sb' : size bs' = n).
Hypotheses (ua : iunitary n (nth 0 as_)) (ub : iunitary n (nth 0 bs)).
Hypothesis na : forall g i j, `|nth 0 as' g i j - nth 0 as_ g i j| <= eps.
Hypothesis nb : forall g i j, `|nth 0 bs' g i j - nth 0 bs g i j| <= eps.
Lemma char_sum_near :
  `|char_sum (get_character (Arr as')) (get_character (Arr bs')) - icip n (nth 0 as_) (nth 0 bs)|
    <= (n * (d1 * d2))%:R * (2%:R * eps + eps ^+ 2).
Proof.
rewrite /get_character /get_character_mats /= (char_sumE sa' sb') /icip -sumrB natrM -mulrA.
apply: sum_bound => g; rewrite natrM; apply: prod_near; rewrite ?ler0n //.
- by apply/tr_le/ua.
- by apply/tr_le/ub.
- by apply: tr_near => i j; apply: na.
- by apply: tr_near => i j; apply: nb.
Qed.
Lemma test_near around (k : nat) : rounds around -> (0 < n)%N ->
  (n * (d1 * d2))%:R * (2%:R * eps + eps ^+ 2) < 2%:R^-1 ->
  icip n (nth 0 as_) (nth 0 bs) = (k * n)%:R ->
  is_equivalent_irrep around (get_character (Arr as')) (get_character (Arr bs')) = (k == 1%N).
Proof.
move=> r n0 small E; rewrite /is_equivalent_irrep.
rewrite (@rounds_near _ _ (k * n)%N r); last by rewrite -E; apply: le_lt_trans char_sum_near small.
rewrite /get_character /get_character_mats /= size_map sa' eqr_nat.
by rewrite -[X in _ == X]mul1n eqn_mul2r -[n == 0%N]negbK -lt0n n0.
Qed.
End Chars.

Lemma mul_near d (X Y X' Y' : 'M[C]_d) eps : 0 <= eps ->
  (forall i j, `|X i j| <= 1) -> (forall i j, `|Y i j| <= 1) ->
  (forall i j, `|X' i j - X i j| <= eps) -> (forall i j, `|Y' i j - Y i j| <= eps) ->
  forall i j, `|(X' *m Y') i j - (X *m Y) i j| <= d%:R * (2%:R * eps + eps ^+ 2).
Proof.
move=> e0 x1 y1 hx hy i j; rewrite !mxE -sumrB; apply: sum_bound => k.
have := @prod_near (X' i k)^* (Y' k j) (X i k)^* (Y k j) 1 1 eps e0 ler01 ler01.
rewrite !conjCK norm_conjC !mul1r -rmorphB norm_conjC; apply=> //.
Qed.
End Robust.
