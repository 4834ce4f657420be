(** Trigonometric functions and eigenvectors meeting the hypotheses of the spinor theorems:
    angles are measured by the tangent of their half. *)
From Coq Require Import QArith ZArith List Field.
From mathcomp Require Import all_ssreflect all_algebra.
From Verif Require Import FieldTac Py Mat3 RepSpec RepTheory SmallModel SpinorModel SpinorSpec SpinorTheory SpinorProofs.
Import Order.TTheory GRing.Theory Num.Theory.
Set Implicit Arguments.
Unset Strict Implicit.
Unset Printing Implicit Defensive.
Local Open Scope ring_scope.

Section Trig.
Variable C : numClosedFieldType.
Add Field FEx : (fth C).
Definition half_cos (c : C) : C := sqrtC ((1 + c) / 2%:R).
Definition half_sin (c : C) : C := sqrtC ((1 - c) / 2%:R).
Definition ex_trig : trig C :=
  {| t_cos := fun x => (1 - x * x) / (1 + x * x); t_sin := fun x => (x + x) / (1 + x * x); t_pi := 2%:R;
     t_arctan2 := fun s c => 2%:R * (half_sin c / (1 + half_cos c)) |}.
Lemma ex_trig_ok : trig_ok ex_trig.
Proof.
have two0 : 2%:R != 0 :> C by rewrite pnatr_eq0.
have two : 2%:R = 1 + 1 :> C by rewrite mulr2n.
have t0 : 1 + 1 <> 0 :> C by rewrite -two; apply/eqP.
split; rewrite /ex_trig /=.
- by rewrite mulr0 subr0 addr0 divr1.
- by rewrite addr0 mul0r.
- by rewrite mulVf // mulr1 subrr mul0r.
- by rewrite mulVf // mulr1 -two mulfV.
have hal (x : C) : 2%:R^-1 * (2%:R * x) = x by rewrite mulrA mulVf // mul1r.
move=> s c sr cr s0 h; cbv zeta; rewrite !hal.
have c1 : c ^+ 2 <= 1 by rewrite -h ler_addr real_exprn_even_ge0.
have cn : `|c| <= 1 by rewrite -(@ler_pexpn2r _ 2) ?nnegrE // expr1n real_normK.
have /andP [cl cu] : -1 <= c <= 1 by rewrite -real_ler_norml.
have p0 : 0 <= (1 + c) / 2%:R by rewrite divr_ge0 ?ler0n // -(opprK 1) addrC subr_ge0.
have m0 : 0 <= (1 - c) / 2%:R by rewrite divr_ge0 ?ler0n // subr_ge0.
set ch := half_cos c; set sh := half_sin c.
have ch0 : 0 <= ch by rewrite sqrtC_ge0.
have sh0 : 0 <= sh by rewrite sqrtC_ge0.
have ch2 : ch * ch = (1 + c) / 2%:R by rewrite -expr2 sqrtCK.
have sh2 : sh * sh = (1 - c) / 2%:R by rewrite -expr2 sqrtCK.
have q1 : sh * sh = 1 - ch * ch.
  by rewrite ch2 sh2 two; to_field C; field; repeat split; assumption.
have /eqP d0 : 1 + ch != 0 by rewrite gt_eqF // ltr_paddr // ltr01.
have E1 : 1 + sh / (1 + ch) * (sh / (1 + ch)) = (1 + 1) / (1 + ch).
  rewrite mulf_div q1; to_field C; field; repeat split; assumption.
have cosE : (1 - sh / (1 + ch) * (sh / (1 + ch))) / (1 + sh / (1 + ch) * (sh / (1 + ch))) = ch.
  rewrite E1 mulf_div q1; to_field C; field; repeat split; assumption.
have sinE : (sh / (1 + ch) + sh / (1 + ch)) / (1 + sh / (1 + ch) * (sh / (1 + ch))) = sh.
  rewrite E1; to_field C; field; repeat split; assumption.
rewrite cosE sinE !expr2 q1; split.
- exact: ger0_real.
- exact: ger0_real.
- by rewrite addrC subrK.
- rewrite ch2 two; to_field C; field; repeat split; assumption.
apply/eqP; rewrite -(@eqr_expn2 _ 2) //; last by rewrite !mulr_ge0 // ler0n.
have -> : s ^+ 2 = 1 - c ^+ 2 by rewrite -h addrK.
apply/eqP; have -> : (2%:R * ch * sh) ^+ 2 = 2%:R * 2%:R * (ch * ch) * (sh * sh) by rewrite !expr2; to_field C; ring.
rewrite ch2 sh2 expr2 two; to_field C; field; repeat split; assumption.
Qed.

(** ** Eigenvectors *)
Definition all_real m n (A : 'M[C]_(m, n)) : bool := [forall i, forall j, A i j \is Num.real].
Lemma all_realP m n (A : 'M[C]_(m, n)) : reflect (real_mx A) (all_real A).
Proof.
apply: (iffP idP) => [/forallP h i j|h]; first by have /forallP := h i.
by apply/forallP => i; apply/forallP => j.
Qed.
Definition re_mx m n (A : 'M[C]_(m, n)) : 'M[C]_(m, n) := map_mx (fun z => 'Re z) A.
Definition im_mx m n (A : 'M[C]_(m, n)) : 'M[C]_(m, n) := map_mx (fun z => 'Im z) A.
Definition eigvec n (M : 'M[C]_n) (x : C) : 'cV[C]_n :=
  let v := (nz_row (eigenspace M^T x))^T in
  if all_real M && (x \is Num.real) then (if re_mx v != 0 then re_mx v else im_mx v) else v.
Definition ex_eig n (M : 'M[C]_n) : seq C * 'M[C]_n :=
  let r := sval (closed_field_poly_normal (char_poly M)) in (r, \matrix_(i, j) eigvec M (nth 0 r j) i 0).

Lemma re_mul n (M : 'M[C]_n) (v : 'cV[C]_n) : real_mx M -> re_mx (M *m v) = M *m re_mx v.
Proof.
move=> h; apply/matrixP => i j; rewrite !mxE raddf_sum /=; apply: eq_bigr => k _; rewrite !mxE.
by rewrite ReMl.
Qed.
Lemma im_mul n (M : 'M[C]_n) (v : 'cV[C]_n) : real_mx M -> im_mx (M *m v) = M *m im_mx v.
Proof.
move=> h; apply/matrixP => i j; rewrite !mxE raddf_sum /=; apply: eq_bigr => k _; rewrite !mxE.
by rewrite ImMl.
Qed.
Lemma eigvec_ok n (M : 'M[C]_n) x : root (char_poly M) x ->
  [/\ eigvec M x != 0, M *m eigvec M x = x *: eigvec M x & real_mx M -> x \is Num.real -> real_mx (eigvec M x)].
Proof.
move=> hx; have ev : eigenvalue M^T x.
  by rewrite eigenvalue_root_char /char_poly -[X in \det X]trmxK det_tr /char_poly_mx linearB /= tr_scalar_mx map_trmx trmxK.
rewrite /eigvec; set v := (nz_row _)^T.
have v0 : v != 0 by rewrite /v trmx_eq0 nz_row_eq0.
have vE : M *m v = x *: v.
  by apply: trmx_inj; rewrite trmx_mul trmxK linearZ /= trmxK; apply/eigenspaceP; exact: nz_row_sub.
case: ifP => [/andP [/all_realP h1 h2]|h]; last first.
  by split=> // h1 h2; move: h; rewrite h2 (introT (all_realP M) h1).
have realP : real_mx (re_mx v) /\ real_mx (im_mx v).
  by split=> i j; rewrite mxE ?Creal_Re ?Creal_Im.
have scR : re_mx (x *: v) = x *: re_mx v by apply/matrixP => i j; rewrite !mxE ReMl.
have scI : im_mx (x *: v) = x *: im_mx v by apply/matrixP => i j; rewrite !mxE ImMl.
case: ifPn => [r0|/negbNE /eqP r0]; first by split=> //; [rewrite -re_mul // vE|case: realP].
split=> //; [|by rewrite -im_mul // vE|by case: realP].
apply: contra v0 => /eqP i0; apply/eqP/matrixP => i j; rewrite [LHS]Crect.
by have /matrixP/(_ i j) := r0; have /matrixP/(_ i j) := i0; rewrite !mxE => -> ->; rewrite mulr0 addr0.
Qed.
Lemma ex_eig_ok n (M : 'M[C]_n) : let: (vals, vecs) := ex_eig M in
  [/\ size vals = n, char_poly M = \prod_(x <- vals) ('X - x%:P) &
      forall i : 'I_n, [/\ col i vecs != 0, M *m col i vecs = nth 0 vals i *: col i vecs &
        real_mx M -> nth 0 vals i \is Num.real -> real_mx (col i vecs)]].
Proof.
rewrite /ex_eig; case: closed_field_poly_normal => r /= hr.
have mon := char_poly_monic M; have pE : char_poly M = \prod_(x <- r) ('X - x%:P).
  by rewrite hr (eqP mon) scale1r.
have sz : size r = n by have := size_char_poly M; rewrite pE size_prod_XsubC => -[].
split=> // i; set vecs := \matrix_(_, _) _.
have cE : col i vecs = eigvec M (nth 0 r i) by apply/colP => k; rewrite !mxE.
rewrite cE; apply: eigvec_ok; rewrite pE root_prod_XsubC mem_nth // sz //.
Qed.
End Trig.
