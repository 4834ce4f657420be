(** Rotations of three-dimensional space and their lifts to SU(2). *)
From Coq Require Import Field.
From mathcomp Require Import all_ssreflect all_algebra.
From Verif Require Import FieldTac RepSpec Mx2 SmallModel SpinorModel SpinorSpec.
Import Order.TTheory GRing.Theory Num.Theory.
Set Implicit Arguments.
Unset Strict Implicit.
Unset Printing Implicit Defensive.
Local Open Scope ring_scope.

Section Theory.
Variable C : numClosedFieldType.
Add Field FSpin : (fth C).

Lemma lc2 (L R k1 p1 q1 k2 p2 q2 : C) : p1 = q1 -> p2 = q2 -> L - R = k1 * (p1 - q1) + k2 * (p2 - q2) -> L = R.
Proof. by move=> -> ->; rewrite !subrr !mulr0 addr0 => /eqP; rewrite subr_eq0 => /eqP. Qed.
Lemma lc4 (L R k1 p1 q1 k2 p2 q2 k3 p3 q3 k4 p4 q4 : C) : p1 = q1 -> p2 = q2 -> p3 = q3 -> p4 = q4 ->
  L - R = k1 * (p1 - q1) + k2 * (p2 - q2) + k3 * (p3 - q3) + k4 * (p4 - q4) -> L = R.
Proof. by move=> -> -> -> ->; rewrite !subrr !mulr0 !addr0 => /eqP; rewrite subr_eq0 => /eqP. Qed.

(** ** Entries *)
Lemma ord3P (P : 'I_3 -> Prop) : P x0 -> P x1 -> P x2 -> forall i, P i.
Proof.
move=> h0 h1 h2; case=> [[|[|[|//]]] hi].
- by rewrite (_ : Ordinal hi = x0) //; apply: val_inj.
- by rewrite (_ : Ordinal hi = x1) //; apply: val_inj.
- by rewrite (_ : Ordinal hi = x2) //; apply: val_inj.
Qed.
Lemma sum3 (F : 'I_3 -> C) : \sum_i F i = F x0 + F x1 + F x2.
Proof. by rewrite !big_ord_recl big_ord0 addr0 addrA. Qed.
Lemma mul3E m n (A : 'M[C]_(m, 3)) (B : 'M[C]_(3, n)) i j :
  (A *m B) i j = A i x0 * B x0 j + A i x1 * B x1 j + A i x2 * B x2 j.
Proof. by rewrite mxE sum3. Qed.
Lemma tr3 (A : 'M[C]_3) : \tr A = A x0 x0 + A x1 x1 + A x2 x2.
Proof. by rewrite /mxtrace sum3. Qed.
Lemma det2E (A : 'M[C]_2) : \det A = A ord0 ord0 * A (lift ord0 ord0) (lift ord0 ord0) - A ord0 (lift ord0 ord0) * A (lift ord0 ord0) ord0.
Proof. by rewrite {1}(mx2_eta A) mx2_det. Qed.

(** The entries of the adjugate. *)
Lemma liftE : [/\ lift x0 (ord0 : 'I_2) = x1, lift x0 (lift ord0 ord0 : 'I_2) = x2,
  lift x1 (ord0 : 'I_2) = x0, lift x1 (lift ord0 ord0 : 'I_2) = x2 &
  lift x2 (ord0 : 'I_2) = x0] /\ lift x2 (lift ord0 ord0 : 'I_2) = x1.
Proof. by (split; first split); apply: val_inj. Qed.
Lemma cofE (A : 'M[C]_3) i j : cofactor A i j = (-1) ^+ (i + j) *
  (A (lift i ord0) (lift j ord0) * A (lift i (lift ord0 ord0)) (lift j (lift ord0 ord0))
   - A (lift i ord0) (lift j (lift ord0 ord0)) * A (lift i (lift ord0 ord0)) (lift j ord0)).
Proof. by rewrite /cofactor det2E !mxE. Qed.

Section SO3.
Variable R : 'M[C]_3.
Hypotheses (O1 : R^T *m R = 1%:M) (D1 : \det R = 1).
Lemma so3_adj : \adj R = R^T.
Proof. by rewrite -[\adj R]mul1mx -O1 -mulmxA mul_mx_adj D1 mulmx1. Qed.
Lemma so3_O2 : R *m R^T = 1%:M. Proof. exact: mulmx1C. Qed.
Lemma so3_cof i j : R i j = cofactor R i j.
Proof. by have := congr1 (fun M : 'M[C]_3 => M j i) so3_adj; rewrite !mxE. Qed.

(** With q the quaternion of R: (1 + tr R) is 4 q0^2, and so on. *)
Let a := R x0 x0. Let b := R x0 x1. Let c := R x0 x2.
Let d := R x1 x0. Let e := R x1 x1. Let f := R x1 x2.
Let g := R x2 x0. Let h := R x2 x1. Let k := R x2 x2.
Lemma so3_cofs :
  [/\ a = e * k - f * h, b = f * g - d * k & c = d * h - e * g] /\
  [/\ d = c * h - b * k, e = a * k - c * g & f = b * g - a * h] /\
  [/\ g = b * f - c * e, h = c * d - a * f & k = a * e - b * d].
Proof.
have [[l1 l2 l3 l4 l5] l6] := liftE.
have q i j := etrans (so3_cof i j) (cofE R i j).
rewrite /a /b /c /d /e /f /g /h /k; (split; last split); split; rewrite {1}q ?l1 ?l2 ?l3 ?l4 ?l5 ?l6 /=.
all: rewrite ?addn0 ?add0n ?expr0 ?expr1 ?exprS ?expr0; to_field C; ring.
Qed.
Lemma so3_rows :
  [/\ a * a + b * b + c * c = 1, d * d + e * e + f * f = 1 & g * g + h * h + k * k = 1] /\
  [/\ a * d + b * e + c * f = 0, a * g + b * h + c * k = 0 & d * g + e * h + f * k = 0].
Proof.
have q i j : (R *m R^T) i j = (1%:M : 'M[C]_3) i j by rewrite so3_O2.
by split; split; [have := q x0 x0|have := q x1 x1|have := q x2 x2|have := q x0 x1|have := q x0 x2|have := q x1 x2];
  rewrite mul3E !mxE /=.
Qed.
Lemma so3_cols :
  [/\ a * a + d * d + g * g = 1, b * b + e * e + h * h = 1 & c * c + f * f + k * k = 1] /\
  [/\ a * b + d * e + g * h = 0, a * c + d * f + g * k = 0 & b * c + e * f + h * k = 0].
Proof.
have q i j : (R^T *m R) i j = (1%:M : 'M[C]_3) i j by rewrite O1.
by split; split; [have := q x0 x0|have := q x1 x1|have := q x2 x2|have := q x0 x1|have := q x0 x2|have := q x1 x2];
  rewrite mul3E !mxE /=.
Qed.
Let T := 1 + a + e + k.
Lemma so3_off : [/\ T * (b + d) = (h - f) * (c - g), T * (c + g) = (h - f) * (d - b) & T * (f + h) = (c - g) * (d - b)].
Proof.
have [[ca cb cc] [[cd ce' cf] [cg ch ck]]] := so3_cofs.
have [_ [r1 r2 r3]] := so3_rows; have [_ [k1 k2 k3]] := so3_cols.
split; rewrite /T.
- by apply: (lc4 (k1 := 1) (k2 := 1) (k3 := 1) (k4 := 1) cb cd r1 k1); to_field C; ring.
- by apply: (lc4 (k1 := 1) (k2 := 1) (k3 := 1) (k4 := 1) cc cg r2 k2); to_field C; ring.
- by apply: (lc4 (k1 := 1) (k2 := 1) (k3 := 1) (k4 := 1) cf ch r3 k3); to_field C; ring.
Qed.
Lemma so3_diag : [/\ T * (1 + a - e - k) = (h - f) * (h - f), T * (1 + e - a - k) = (c - g) * (c - g) &
  T * (1 + k - a - e) = (d - b) * (d - b)].
Proof.
have [[ca cb cc] [[cd ce' cf] [cg ch ck]]] := so3_cofs.
have [[s1 s2 s3] _] := so3_rows; have [[k1 k2 k3] _] := so3_cols.
split; rewrite /T.
- by apply: (lc4 (k1 := 1 + 1) (k2 := -1) (k3 := -1) (k4 := 1) ca s2 s3 k1); to_field C; ring.
- by apply: (lc4 (k1 := 1 + 1) (k2 := -1) (k3 := -1) (k4 := 1) ce' s1 s3 k2); to_field C; ring.
- by apply: (lc4 (k1 := 1 + 1) (k2 := -1) (k3 := -1) (k4 := 1) ck s1 s2 k3); to_field C; ring.
Qed.
End SO3.

(** ** The rotation about n with cosine c and sine s, and its lift *)
Definition rodrigues (c s : C) (n : 'cV[C]_3) : 'M[C]_3 :=
  let: (p, q, r) := (n x0 0, n x1 0, n x2 0) in
  mx3 (c + (1 - c) * p * p) ((1 - c) * p * q - s * r) ((1 - c) * p * r + s * q)
      ((1 - c) * p * q + s * r) (c + (1 - c) * q * q) ((1 - c) * q * r - s * p)
      ((1 - c) * p * r - s * q) ((1 - c) * q * r + s * p) (c + (1 - c) * r * r).

Lemma spin_matrix_lift c s (n : 'cV[C]_3) : c \is Num.real -> s \is Num.real -> real_mx n ->
  c ^+ 2 + s ^+ 2 = 1 -> n x0 0 * n x0 0 + n x1 0 * n x1 0 + n x2 0 * n x2 0 = 1 ->
  spin_lift (spin_matrix c s n) (rodrigues (c ^+ 2 - s ^+ 2) (2%:R * c * s) n).
Proof.
move=> /conj_Creal cr /conj_Creal sr nr; rewrite !expr2 => cs nn.
have i2 : @eq (Num.ClosedField.sort C) (fmul C 'i 'i) (fopp C (f1 C)) by rewrite fmulE foppE f1E -expr2 sqrCi.
have /conj_Creal p0 := nr x0 0; have /conj_Creal q0 := nr x1 0; have /conj_Creal r0 := nr x2 0.
rewrite /spin_lift /rodrigues /spin_matrix /pauli.
set p := n x0 0 in nn p0 *; set q := n x1 0 in nn q0 *; set r := n x2 0 in nn r0 *.
have adjE : adj (mx2 (c - 'i * r * s) (s * (- 'i * p - q)) (s * (- 'i * p + q)) (c + 'i * r * s)) =
  mx2 (c + 'i * r * s) (s * ('i * p + q)) (s * ('i * p - q)) (c - 'i * r * s).
  rewrite mx2_adj !(rmorphD, rmorphN, rmorphM) /= conjCi cr sr p0 q0 r0.
  by congr (mx2 _ _ _ _); to_field C; ring.
have two : (2%:R : C) = 1 + 1 by rewrite mulr2n.
have n2 : p * p = 1 - q * q - r * r by rewrite -nn; to_field C; ring.
have c2 : c * c = 1 - s * s by rewrite -cs; to_field C; ring.
have {}n2 : @eq (Num.ClosedField.sort C) (fmul C p p) (fadd C (fadd C (f1 C) (fopp C (fmul C q q))) (fopp C (fmul C r r))) by [].
have {}c2 : @eq (Num.ClosedField.sort C) (fmul C c c) (fadd C (f1 C) (fopp C (fmul C s s))) by [].
rewrite adjE; split.
- by rewrite mx2M mx2_1; congr (mx2 _ _ _ _); to_field C; ring [i2 n2 c2].
- by rewrite mx2_det; to_field C; ring [i2 n2 c2].
- move=> v; rewrite !mx2M !mul3E /mx3 !mxE /= two; congr (mx2 _ _ _ _); to_field C; ring [i2 n2 c2].
Qed.

(** ** Angle and axis of a rotation *)
Lemma mx3P (A B : 'M[C]_3) :
  [/\ A x0 x0 = B x0 x0, A x0 x1 = B x0 x1 & A x0 x2 = B x0 x2] ->
  [/\ A x1 x0 = B x1 x0, A x1 x1 = B x1 x1 & A x1 x2 = B x1 x2] ->
  [/\ A x2 x0 = B x2 x0, A x2 x1 = B x2 x1 & A x2 x2 = B x2 x2] -> A = B.
Proof. by case=> h1 h2 h3 [h4 h5 h6] [h7 h8 h9]; apply/matrixP; apply: ord3P; apply: ord3P. Qed.
Lemma norm2_real n (v : 'cV[C]_n) : real_mx v -> norm2 v ^+ 2 = \sum_i v i 0 * v i 0.
Proof. by move=> vr; rewrite sqrtCK; apply: eq_bigr => i _; rewrite real_normK // expr2. Qed.
Lemma norm2_ge0 n (v : 'cV[C]_n) : 0 <= norm2 v.
Proof. by rewrite sqrtC_ge0; apply: sumr_ge0 => i _; rewrite exprn_ge0. Qed.

Section Angle.
Variable R : 'M[C]_3.
Hypotheses (O1 : R^T *m R = 1%:M) (D1 : \det R = 1) (RR : real_mx R).
Let c := (\tr R - 1) / 2%:R.
Let w := cv3 (R x1 x2 - R x2 x1) (R x2 x0 - R x0 x2) (R x0 x1 - R x1 x0).
Let s := norm2 w / 2%:R.
Let two : (2%:R : C) = 1 + 1. Proof. by rewrite mulr2n. Qed.
Let two0 : (1 + 1 : C) <> 0. Proof. by apply/eqP; rewrite -two pnatr_eq0. Qed.
Lemma real_c : c \is Num.real.
Proof. by rewrite /c tr3 rpredM ?rpredV ?rpredB ?rpredD ?rpred1 ?realn // RR. Qed.
Lemma real_w : real_mx w.
Proof. by apply: ord3P => j; rewrite mxE /= rpredB // RR. Qed.
Lemma sin_ge0 : 0 <= s. Proof. by rewrite divr_ge0 ?norm2_ge0 ?ler0n. Qed.
Lemma two_c : (1 + 1) * c = R x0 x0 + R x1 x1 + R x2 x2 - 1.
Proof. by rewrite /c tr3 -two mulrC divfK // pnatr_eq0. Qed.
Lemma four_s : (1 + 1) * (1 + 1) * (s * s) =
  (R x1 x2 - R x2 x1) * (R x1 x2 - R x2 x1) + (R x2 x0 - R x0 x2) * (R x2 x0 - R x0 x2) + (R x0 x1 - R x1 x0) * (R x0 x1 - R x1 x0).
Proof.
have := norm2_real real_w; rewrite sum3 !mxE /= => <-; rewrite expr2 -/w /s two.
by have n0 := two0; to_field C; field.
Qed.
Lemma mul4I (x y : C) : (1 + 1) * (1 + 1) * x = (1 + 1) * (1 + 1) * y -> x = y.
Proof. by move=> h; apply: (@mulfI _ ((1 + 1) * (1 + 1))) => //; rewrite mulf_neq0 //; apply/eqP. Qed.
Lemma mul2I (x y : C) : (1 + 1) * x = (1 + 1) * y -> x = y.
Proof. by move=> h; apply: (@mulfI _ (1 + 1)) => //; apply/eqP. Qed.
Lemma sin_cos : s ^+ 2 + c ^+ 2 = 1.
Proof.
have [q1 q2 q3] := so3_diag O1 D1; have hs := four_s; have hc := two_c.
have hc2 : (1 + 1) * c * ((1 + 1) * c) = (R x0 x0 + R x1 x1 + R x2 x2 - 1) * (R x0 x0 + R x1 x1 + R x2 x2 - 1) by rewrite hc.
have hq : (R x1 x2 - R x2 x1) * (R x1 x2 - R x2 x1) + (R x2 x0 - R x0 x2) * (R x2 x0 - R x0 x2) + (R x0 x1 - R x1 x0) * (R x0 x1 - R x1 x0)
   = (1 + R x0 x0 + R x1 x1 + R x2 x2) * (1 + 1 + 1 - R x0 x0 - R x1 x1 - R x2 x2).
  by apply: (lc4 (k1 := -1) (k2 := -1) (k3 := -1) (k4 := 0) q1 q2 q3 q1); to_field C; ring.
apply: mul4I; rewrite !expr2.
by apply: (lc4 (k1 := 1) (k2 := 1) (k3 := 1) (k4 := 0) hs hc2 hq hq); to_field C; ring.
Qed.
Lemma no_angle : c = 1 -> R = 1%:M.
Proof.
move=> c1; have s0 : s * s = 0.
  by have := sin_cos; rewrite c1 expr2 expr1n => h; apply: (addIr 1); rewrite h add0r.
have hc := two_c; have hs := four_s; rewrite s0 mulr0 in hs; rewrite c1 mulr1 in hc.
have ge0 (x : C) : x \is Num.real -> 0 <= x * x by move=> xr; rewrite -expr2 real_exprn_even_ge0.
have [p1 p2 p3] : [/\ R x1 x2 - R x2 x1 = 0, R x2 x0 - R x0 x2 = 0 & R x0 x1 - R x1 x0 = 0].
  have g1 := ge0 _ (rpredB (RR x1 x2) (RR x2 x1)); have g2 := ge0 _ (rpredB (RR x2 x0) (RR x0 x2)).
  have g3 := ge0 _ (rpredB (RR x0 x1) (RR x1 x0)); move/esym/eqP: hs.
  rewrite paddr_eq0 ?addr_ge0 // paddr_eq0 // -andbA => /and3P [].
  by rewrite !mulf_eq0 !orbb => /eqP h1 /eqP h2 /eqP h3.
have [q1 q2 q3] := so3_diag O1 D1; have [o1 o2 o3] := so3_off O1 D1.
have T4 : 1 + R x0 x0 + R x1 x1 + R x2 x2 = (1 + 1) * (1 + 1).
  by apply: (lc2 (k1 := -1) (k2 := 0) hc hc); to_field C; ring.
have n1 : R x2 x1 - R x1 x2 = 0 by rewrite -opprB p1 oppr0.
have n2 : R x0 x2 - R x2 x0 = 0 by rewrite -opprB p2 oppr0.
have n3 : R x1 x0 - R x0 x1 = 0 by rewrite -opprB p3 oppr0.
move: q1 q2 q3 o1 o2 o3; rewrite !T4 n1 n2 n3 !mulr0 => q1 q2 q3 o1 o2 o3.
have dg (x y z : C) : (1 + 1) * (1 + 1) * (1 + x - y - z) = 0 -> x + y + z = 1 + 1 + 1 -> x = 1.
  by move=> h1 h2; apply: mul4I; apply: mul2I; apply: (lc2 (k1 := 1) (k2 := (1 + 1) * (1 + 1)) h1 h2); to_field C; ring.
have of' (x y : C) : (1 + 1) * (1 + 1) * (x + y) = 0 -> x - y = 0 -> x = 0.
  by move=> h1 h2; apply: mul4I; apply: mul2I; apply: (lc2 (k1 := 1) (k2 := (1 + 1) * (1 + 1)) h1 h2); to_field C; ring.
have t3 : R x0 x0 + R x1 x1 + R x2 x2 = 1 + 1 + 1 by apply: (lc2 (k1 := -1) (k2 := 0) hc hc); to_field C; ring.
apply: mx3P; split; rewrite !mxE /=.
- exact: dg q1 t3.
- exact: of' o1 p3.
- exact: of' o2 n2.
- by rewrite addrC in o1; exact: of' o1 n3.
- by apply: dg q2 _; rewrite -t3; to_field C; ring.
- exact: of' o3 p1.
- by rewrite addrC in o2; exact: of' o2 p2.
- by rewrite addrC in o3; exact: of' o3 n1.
- by apply: dg q3 _; rewrite -t3; to_field C; ring.
Qed.

Section Generic.
Hypotheses (c1 : c <> -1) (R1 : R <> 1%:M).
Let n := (- 2%:R * s)^-1 *: w.
Lemma sin_neq0 : s <> 0.
Proof.
move=> s0; have := sin_cos; rewrite s0 expr0n add0r => /eqP; rewrite sqrf_eq1 => /orP [] /eqP // h.
by case: R1; apply: no_angle.
Qed.
Lemma axis_s i : (1 + 1) * (s * n i 0) = - w i 0.
Proof.
have -> : n i 0 = (- 2%:R * s)^-1 * w i 0 by rewrite mxE.
rewrite two mulNr invrN; have h := sin_neq0; have n0 := two0; to_field C; field; by split.
Qed.
Lemma real_s : s \is Num.real. Proof. by rewrite realE sin_ge0. Qed.
Lemma real_axis : real_mx n.
Proof. by move=> i j; rewrite mxE rpredM ?real_w // rpredV rpredM ?real_s // rpredN realn. Qed.
Lemma axis_nn i j : (1 + 1) * ((1 - c) * n i 0 * n j 0) * (1 + R x0 x0 + R x1 x1 + R x2 x2) = w i 0 * w j 0.
Proof.
have -> : 1 + R x0 x0 + R x1 x1 + R x2 x2 = (1 + 1) * (1 + c) by rewrite mulrDr two_c; to_field C; ring.
have ss : s * s = (1 - c) * (1 + c) by have := sin_cos; rewrite !expr2 => sc; apply: (lc2 (k1 := 1) (k2 := 0) sc sc); to_field C; ring.
have -> : w i 0 * w j 0 = (- w i 0) * (- w j 0) by rewrite mulrNN.
rewrite -!axis_s; by apply: (lc2 (k1 := - (1 + 1) * (1 + 1) * n i 0 * n j 0) (k2 := 0) ss ss); to_field C; ring.
Qed.
Lemma T_neq0 : 1 + R x0 x0 + R x1 x1 + R x2 x2 != 0.
Proof.
have -> : 1 + R x0 x0 + R x1 x1 + R x2 x2 = (1 + 1) * (1 + c) by rewrite mulrDr two_c; to_field C; ring.
by rewrite mulf_neq0 //; apply/eqP => // h; apply: c1; apply: (addrI 1); rewrite h subrr.
Qed.
Lemma axis_off i j x : (1 + R x0 x0 + R x1 x1 + R x2 x2) * x = w i 0 * w j 0 -> (1 + 1) * ((1 - c) * n i 0 * n j 0) = x.
Proof. by rewrite -axis_nn mulrC => /(mulIf T_neq0). Qed.
Lemma generic_rodrigues : R = rodrigues c s n.
Proof.
have [q1 q2 q3] := so3_diag O1 D1; have [o1 o2 o3] := so3_off O1 D1; have hc := two_c.
have w0 : w x0 0 = R x1 x2 - R x2 x1 by rewrite mxE.
have w1 : w x1 0 = R x2 x0 - R x0 x2 by rewrite mxE.
have w2 : w x2 0 = R x0 x1 - R x1 x0 by rewrite mxE.
have n00 := @axis_off x0 x0 (1 + R x0 x0 - R x1 x1 - R x2 x2); have n11 := @axis_off x1 x1 (1 + R x1 x1 - R x0 x0 - R x2 x2).
have n22 := @axis_off x2 x2 (1 + R x2 x2 - R x0 x0 - R x1 x1).
have n01 := @axis_off x0 x1 (R x0 x1 + R x1 x0); have n02 := @axis_off x0 x2 (R x0 x2 + R x2 x0).
have n12 := @axis_off x1 x2 (R x1 x2 + R x2 x1).
move: n00 n11 n22 n01 n02 n12; rewrite w0 w1 w2 q1 q2 q3 o1 o2 o3 => n00 n11 n22 n01 n02 n12.
have {}n00 := n00 ltac:(by to_field C; ring); have {}n11 := n11 ltac:(by to_field C; ring).
have {}n22 := n22 ltac:(by to_field C; ring); have {}n01 := n01 ltac:(by to_field C; ring).
have {}n02 := n02 ltac:(by to_field C; ring); have {}n12 := n12 ltac:(by to_field C; ring).
have s0 := axis_s x0; have s1 := axis_s x1; have s2 := axis_s x2; move: s0 s1 s2; rewrite w0 w1 w2 => s0 s1 s2.
rewrite /rodrigues; move: n00 n11 n22 n01 n02 n12 s0 s1 s2; move: (n x0 0) (n x1 0) (n x2 0) => p q r n00 n11 n22 n01 n02 n12 s0 s1 s2.
apply: mx3P; split; rewrite !mxE /=; apply: mul2I.
- by apply: (lc2 (k1 := -1) (k2 := -1) n00 hc); to_field C; ring.
- by apply: (lc2 (k1 := -1) (k2 := 1) n01 s2); to_field C; ring.
- by apply: (lc2 (k1 := -1) (k2 := -1) n02 s1); to_field C; ring.
- by apply: (lc2 (k1 := -1) (k2 := -1) n01 s2); to_field C; ring.
- by apply: (lc2 (k1 := -1) (k2 := -1) n11 hc); to_field C; ring.
- by apply: (lc2 (k1 := -1) (k2 := 1) n12 s0); to_field C; ring.
- by apply: (lc2 (k1 := -1) (k2 := 1) n02 s1); to_field C; ring.
- by apply: (lc2 (k1 := -1) (k2 := -1) n12 s0); to_field C; ring.
- by apply: (lc2 (k1 := -1) (k2 := -1) n22 hc); to_field C; ring.
Qed.
Lemma axis_unit : n x0 0 * n x0 0 + n x1 0 * n x1 0 + n x2 0 * n x2 0 = 1.
Proof.
have h := four_s; have sq : s * s != 0 by rewrite mulf_neq0 //; apply/eqP; apply: sin_neq0.
apply: (mulfI sq); apply: mul4I; rewrite mulr1 h.
have w0 : w x0 0 = R x1 x2 - R x2 x1 by rewrite mxE.
have w1 : w x1 0 = R x2 x0 - R x0 x2 by rewrite mxE.
have w2 : w x2 0 = R x0 x1 - R x1 x0 by rewrite mxE.
rewrite -w0 -w1 -w2.
have q i : w i 0 * w i 0 = (- w i 0) * (- w i 0) by rewrite mulrNN.
by rewrite !q -!axis_s; to_field C; ring.
Qed.
End Generic.

Section Twofold.
Hypothesis c1 : c = -1.
Lemma twofold_tr : \tr R = -1.
Proof. by have := two_c; rewrite c1 tr3 => h; apply: (addIr (-1)); rewrite -h; to_field C; ring. Qed.
Lemma twofold_sym : R^T = R.
Proof.
have s0 : s * s = 0.
  by have := sin_cos; rewrite c1 expr2 sqrrN expr1n => h; apply: (addIr 1); rewrite h add0r.
have hs := four_s; rewrite s0 mulr0 in hs.
have ge0 (x : C) : x \is Num.real -> 0 <= x * x by move=> xr; rewrite -expr2 real_exprn_even_ge0.
have g1 := ge0 _ (rpredB (RR x1 x2) (RR x2 x1)); have g2 := ge0 _ (rpredB (RR x2 x0) (RR x0 x2)).
have g3 := ge0 _ (rpredB (RR x0 x1) (RR x1 x0)); move/esym/eqP: hs.
rewrite paddr_eq0 ?addr_ge0 // paddr_eq0 // -andbA => /and3P [].
rewrite !mulf_eq0 !orbb !subr_eq0 => /eqP h1 /eqP h2 /eqP h3.
by apply: mx3P; split; rewrite !mxE.
Qed.
Lemma twofold_sq : R *m R = 1%:M. Proof. by rewrite -{1}twofold_sym. Qed.
Lemma twofold_eigenvalue : eigenvalue R 1.
Proof.
pose S := R + 1%:M; have SR : S *m R = S by rewrite mulmxDl mul1mx twofold_sq addrC.
have S0 : S != 0.
  apply/eqP => h; have := congr1 mxtrace h; rewrite mxtraceD twofold_tr mxtrace1 mxtrace0 => /eqP.
  by rewrite addrC subr_eq0 (eqr_nat C 3 1).
have [i hi] : exists i, row i S != 0.
  by apply/existsP; apply: contraNT S0 => /existsPn h; apply/eqP/row_matrixP => i; rewrite row0; apply/eqP/negPn/h.
by apply/eigenvalueP; exists (row i S); rewrite // scale1r -row_mul SR.
Qed.
Lemma twofold_axis (n : 'cV[C]_3) : real_mx n -> R *m n = n -> n x0 0 * n x0 0 + n x1 0 * n x1 0 + n x2 0 * n x2 0 = 1 ->
  R = 2%:R *: (n *m n^T) - 1%:M.
Proof.
move=> nr Rn nn; pose P := n *m n^T; pose Q := 2%:R^-1 *: (R + 1%:M) - P.
have n11 : n^T *m n = 1%:M by apply/matrixP => i j; rewrite !ord1 mul3E !mxE /= nn.
have PP : P *m P = P by rewrite /P mulmxA -[_ *m n^T *m n]mulmxA n11 mulmx1.
have RP : R *m P = P by rewrite /P mulmxA Rn.
have nR : n^T *m R = n^T by rewrite -{1}twofold_sym -trmx_mul Rn.
have PR : P *m R = P by rewrite /P -mulmxA nR.
have h2 : (2%:R : C) != 0 by rewrite pnatr_eq0.
have QQ : Q *m Q = Q.
  have SS : (R + 1%:M) *m (R + 1%:M) = 2%:R *: (R + 1%:M).
    by rewrite mulmxDl mul1mx mulmxDr twofold_sq mulmx1 [1%:M + R]addrC scaler_nat mulr2n.
  have SP : (R + 1%:M) *m P = 2%:R *: P by rewrite mulmxDl mul1mx RP scaler_nat mulr2n.
  have PS : P *m (R + 1%:M) = 2%:R *: P by rewrite mulmxDr mulmx1 PR scaler_nat mulr2n.
  rewrite /Q mulmxBl !mulmxBr PP -!scalemxAl -!scalemxAr SS SP PS !scalerA mulVf // !scale1r subrr subr0.
  by rewrite mulfVK.
have QT : Q^T = Q by rewrite /Q linearB linearZ /= linearD /= twofold_sym trmx1 /P trmx_mul trmxK.
have tQ : \tr Q = 0.
  rewrite /Q raddfB /= mxtraceZ mxtraceD twofold_tr mxtrace1 /P mxtrace_mulC n11 mxtrace1.
  have -> : -1 + 3%:R = 2%:R :> C by rewrite addrC -(natrB C (isT : (1 <= 3)%N)).
  by rewrite mulVf // subrr.
have Qr i j : Q i j \is Num.real.
  rewrite !mxE big_ord1 !mxE; apply: rpredB; last by rewrite rpredM ?nr.
  by rewrite rpredM ?rpredV ?realn // rpredD ?RR // realn.
have Q0 : Q = 0.
  have h i : 0 <= \sum_j Q i j * Q i j.
    by apply: sumr_ge0 => j _; rewrite -expr2 real_exprn_even_ge0.
  have z : \sum_i \sum_j Q i j * Q i j = 0.
    suff -> : \sum_i \sum_j Q i j * Q i j = \tr (Q *m Q^T) by rewrite QT QQ tQ.
    by rewrite /mxtrace; apply: eq_bigr => i _; rewrite mxE; apply: eq_bigr => j _; rewrite [Q^T j i]mxE.
  apply/matrixP => i j.
  have z1 : \sum_j Q i j * Q i j = 0.
    by move/eqP: z; rewrite psumr_eq0 => [/allP /(_ i)|//]; rewrite mem_index_enum => /(_ isT) /eqP.
  move/eqP: z1; rewrite psumr_eq0 => [/allP /(_ j)|k _]; last by rewrite -expr2 real_exprn_even_ge0.
  by rewrite mem_index_enum => /(_ isT) /=; rewrite mulf_eq0 orbb => /eqP ->; rewrite mxE.
have e : R + 1%:M = 2%:R *: P.
  move/eqP: Q0; rewrite subr_eq0 => /eqP q0; by rewrite -q0 scalerA mulfV // scale1r.
by rewrite -[R](addrK 1%:M) e.
Qed.
Lemma twofold_rodrigues (n : 'cV[C]_3) : real_mx n -> R *m n = n -> n x0 0 * n x0 0 + n x1 0 * n x1 0 + n x2 0 * n x2 0 = 1 ->
  R = rodrigues (-1) 0 n.
Proof.
move=> nr Rn nn; rewrite {1}(twofold_axis nr Rn nn) /rodrigues two.
by apply: mx3P; split; rewrite !mxE big_ord1 !mxE /= ?mulr1n ?mulr0n; to_field C; ring.
Qed.
End Twofold.
End Angle.
End Theory.
