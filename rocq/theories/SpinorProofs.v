(** The SU(2) matrices of get_spinor_unitary_rotation and the spinor factor system. *)
From Coq Require Import QArith ZArith List Lia Field.
From mathcomp Require Import all_ssreflect all_algebra.
From Verif Require Import FieldTac Py Mat3 GroupModel GroupSpec GroupProofs RepSpec RepTheory IndexRepSpec Mx2 CExpSpec ChainLoop SmallModel SmallSpec SmallTheory SpinorModel SpinorSpec SpinorTheory.
Import Order.TTheory GRing.Theory Num.Theory.
Set Implicit Arguments.
Unset Strict Implicit.
Unset Printing Implicit Defensive.
Local Open Scope ring_scope.
Delimit Scope Z_scope with coqZ.

Section Proofs.
Variable C : numClosedFieldType.
Add Field FSpin2 : (fth C).

(** ** Integers in C *)
Lemma zC_nat z : zC C z = (Z.to_nat z)%:R - (Z.to_nat (- z)%coqZ)%:R.
Proof. by case: z => [|p|p] /=; rewrite ?subrr ?subr0 ?sub0r. Qed.
Lemma zC_add a b : zC C (a + b)%coqZ = zC C a + zC C b.
Proof.
rewrite !zC_nat; apply/eqP; rewrite addrACA -opprD -!natrD subr_eq addrAC eq_sym subr_eq -!natrD eqr_nat; apply/eqP.
by rewrite -!plusE; lia.
Qed.
Lemma zC_opp a : zC C (- a)%coqZ = - zC C a.
Proof. by case: a => [|p|p] /=; rewrite ?oppr0 ?opprK. Qed.
Lemma zC_mul a b : zC C (a * b)%coqZ = zC C a * zC C b.
Proof. by case: a b => [|p|p] [|q|q] /=; rewrite ?mul0r ?mulr0 ?Pos2Nat.inj_mul -?multE ?natrM ?mulrN ?mulNr ?opprK. Qed.
Lemma zC1 : zC C 1%coqZ = 1. Proof. by []. Qed.
Lemma zC_inj a b : zC C a = zC C b -> a = b.
Proof.
move=> h; suff : ~ (a < b)%coqZ /\ ~ (b < a)%coqZ by lia.
have key x y : (x < y)%coqZ -> zC C x <> zC C y.
  move=> xy e; have : zC C (x + 1)%coqZ <= zC C y by apply: zC_le; lia.
  by rewrite zC_add e zC1 ger_addl ler10.
by split=> /key; rewrite h.
Qed.
Lemma zC_sep a b : `|zC C a - zC C b| < 1 -> a = b.
Proof.
have key x y : (x < y)%coqZ -> 1 <= zC C y - zC C x.
  by move=> xy; rewrite -zC1 -zC_opp -zC_add; apply: zC_le; lia.
move=> h; suff : ~ (a < b)%coqZ /\ ~ (b < a)%coqZ by lia.
split=> /key h1; have := lt_le_trans h h1.
  by rewrite distrC ger0_norm ?ltxx // (le_trans _ h1).
by rewrite ger0_norm ?ltxx // (le_trans _ h1).
Qed.
Lemma zC_real z : zC C z \is Num.real.
Proof. by rewrite zC_nat rpredB ?realn. Qed.

(** ** Integer matrices *)
Lemma mC_mul a b : mC C (mmul a b) = mC C a *m mC C b.
Proof. by apply: mx3P; split; rewrite mul3E !mxE /= !zC_add !zC_mul. Qed.
Lemma mC_id : mC C mid = 1%:M.
Proof. by apply: mx3P; split; rewrite !mxE. Qed.
Lemma mC_neg a : mC C (mneg a) = - mC C a.
Proof. by apply: mx3P; split; rewrite !mxE /= zC_opp. Qed.
Lemma mC_tr a : \tr (mC C a) = zC C (mtrace a).
Proof. by rewrite tr3 !mxE /= /mtrace !zC_add. Qed.
Lemma det3 (A : 'M[C]_3) : \det A =
  A x0 x0 * (A x1 x1 * A x2 x2 - A x1 x2 * A x2 x1) - A x0 x1 * (A x1 x0 * A x2 x2 - A x1 x2 * A x2 x0)
  + A x0 x2 * (A x1 x0 * A x2 x1 - A x1 x1 * A x2 x0).
Proof.
have [[l1 l2 l3 l4 l5] l6] := liftE.
rewrite (expand_det_row _ x0) sum3 !cofE l1 l2 l3 l4 l5 l6 /= ?addn0 ?add0n ?exprS ?expr0.
by to_field C; ring.
Qed.
Lemma mC_det a : \det (mC C a) = zC C (mdet a).
Proof. by rewrite det3 !mxE /= /mdet !(zC_add, zC_opp, zC_mul). Qed.
Lemma real_mC a : real_mx (mC C a).
Proof. by apply: ord3P => j; case: j => [[|[|[|//]]]] hj; rewrite mxE /= zC_real. Qed.

(** ** Tolerances *)
Lemma eps_le (b : C) : qC C (Qmake 1 100000000) + qC C (Qmake 1 100000) * `|b| <= 16%:R^-1 + 16%:R^-1 * `|b|.
Proof.
have h p : (16 <= p)%positive -> qC C (Qmake 1 p) <= 16%:R^-1.
  move=> hp; have -> : 16%:R^-1 = qC C (Qmake 1 16) by rewrite qC_inv.
  by apply: qC_le; rewrite /Qle /=; lia.
by apply: ler_add; [|apply: ler_wpmul2r; rewrite ?normr_ge0 //]; apply: h; lia.
Qed.
Lemma eps_ge0 (b : C) : 0 <= qC C (Qmake 1 100000000) + qC C (Qmake 1 100000) * `|b|.
Proof.
have h p : 0 <= qC C (Qmake 1 p) by rewrite -(qC0 C); apply: qC_le; rewrite /Qle /=; lia.
by apply: addr_ge0; [exact: h|apply: mulr_ge0; [exact: h|exact: normr_ge0]].
Qed.
Lemma isclose_refl (a : C) : isclose a a.
Proof. by rewrite /isclose subrr normr0 eps_ge0. Qed.
Lemma isclose_bound (a b : C) : `|b| = 1 -> isclose a b -> `|a - b| <= 8%:R^-1.
Proof.
move=> b1 h; apply: le_trans h _; apply: le_trans (eps_le b) _; rewrite b1 mulr1.
have -> : 16%:R^-1 + 16%:R^-1 = 8%:R^-1 :> C; last by [].
by rewrite -mulr2n -[_ *+ 2]mulr_natl (natrM C 2 8) invfM mulrA mulfV ?mul1r // pnatr_eq0.
Qed.
Lemma allclose_refl m n (A : 'M[C]_(m, n)) : allclose A A.
Proof. by apply/forallP => i; apply/forallP => j; apply: isclose_refl. Qed.
Lemma inv8_lt (n : nat) : (n < 8)%N -> n%:R * 8%:R^-1 < 1 :> C.
Proof. by move=> h; rewrite ltr_pdivr_mulr ?ltr0n // mul1r ltr_nat. Qed.

Lemma real_conj m n (A : 'M[C]_(m, n)) : real_mx A <-> map_mx conjC A = A.
Proof.
split=> [h|h i j]; first by apply/matrixP => i j; rewrite mxE conj_Creal.
by apply/CrealP; rewrite -[in RHS]h mxE.
Qed.
Lemma real_mulmx m n p (A : 'M[C]_(m, n)) (B : 'M[C]_(n, p)) : real_mx A -> real_mx B -> real_mx (A *m B).
Proof. by rewrite !real_conj map_mxM => -> ->. Qed.
Lemma real_invmx n (A : 'M[C]_n) : real_mx A -> real_mx (invmx A).
Proof. by rewrite !real_conj map_invmx => ->. Qed.
Lemma real_trmx m n (A : 'M[C]_(m, n)) : real_mx A -> real_mx A^T.
Proof. by move=> h i j; rewrite mxE. Qed.

(** ** Angle and axis *)
Lemma rodrigues1 (n : 'cV[C]_3) : rodrigues 1 0 n = 1%:M.
Proof. by apply: mx3P; split; rewrite /rodrigues /mx3 !mxE /= subrr !mul0r ?addr0 ?subr0. Qed.

Lemma fix_direction_sign (v : 'cV[C]_3) : fix_direction v = v \/ fix_direction v = - v.
Proof. by rewrite /fix_direction; case: ifP => _; [case: ifP => _; [right|left]|left]. Qed.
Lemma foldl_last (I T : Type) (p : I -> bool) (g : I -> T) (l : seq I) o :
  (exists2 i, List.In i l & p i) \/ (exists2 i, p i & o = Some (g i)) ->
  exists2 i, p i & foldl (fun axis i => if p i then Some (g i) else axis) o l = Some (g i).
Proof.
elim: l o => [|j l IH] o /= h; first by case: h => [[i []]|].
apply: IH; case: ifP => pj; first by right; exists j.
by case: h => [[i [ij|hi] pi]|]; [rewrite ij pi in pj|left; exists i|right].
Qed.

Section Angle.
Variables (E : numpy C) (G : trig C).
Hypotheses (EO : eig_ok E) (GO : trig_ok G).
Variables (R : 'M[C]_3) (z : Z).
Hypotheses (O1 : R^T *m R = 1%:M) (D1 : \det R = 1) (RR : real_mx R) (Tr : \tr R = zC C z).
Let two : (2%:R : C) = 1 + 1. Proof. by rewrite mulr2n. Qed.
Let c := (\tr R - 1) / 2%:R.

Lemma close_to_one : allclose R 1%:M -> R = 1%:M.
Proof.
move=> h; apply: no_angle => //.
suff z3 : z = 3%coqZ by rewrite Tr z3 /zC /= -(natrB C (isT : (1 <= 3)%N)) mulfV // pnatr_eq0.
apply: zC_sep; rewrite -Tr tr3.
have b i : `|R i i - 1| <= 8%:R^-1.
  by have /forallP /(_ i) /forallP /(_ i) := h; rewrite mxE eqxx => /isclose_bound; apply; rewrite normr1.
have -> : zC C 3 = 1 + 1 + 1 by rewrite /zC /= -(natrD C 1 1) -(natrD C 2 1).
have -> : R x0 x0 + R x1 x1 + R x2 x2 - (1 + 1 + 1) = (R x0 x0 - 1) + (R x1 x1 - 1) + (R x2 x2 - 1).
  by to_field C; ring.
apply: le_lt_trans (ler_norm_add _ _) _; apply: le_lt_trans (inv8_lt (isT : (3 < 8)%N)).
rewrite (natrD C 2 1) mulrDl mul1r; apply: ler_add => //; apply: le_trans (ler_norm_add _ _) _.
by rewrite mulr_natl mulr2n ler_add.
Qed.
Lemma close_to_minus_one : isclose c (-1) -> c = -1.
Proof.
move=> /isclose_bound h; suff z1 : z = (-1)%coqZ.
  by rewrite /c Tr z1 /zC /= -opprD -(natrD C 1 1) mulNr mulfV // pnatr_eq0.
have {}h : `|c - -1| <= 8%:R^-1 by apply: h; rewrite normrN1.
apply: zC_sep; rewrite -Tr.
have -> : \tr R - zC C (-1) = 2%:R * (c - -1).
  rewrite /c (_ : zC C (-1) = -1) // two; have n0 : (1 + 1 : C) <> 0 by apply/eqP; rewrite -two pnatr_eq0.
  by to_field C; field.
rewrite normrM ger0_norm ?ler0n //; apply: le_lt_trans (inv8_lt (isT : (2 < 8)%N)).
by rewrite ler_pmul2l // ltr0n.
Qed.

Lemma axis_of_column_ok (v : 'cV[C]_3) : c = -1 -> v != 0 -> R *m v = v -> real_mx v ->
  let n := axis_of_column v in
  [/\ real_mx n, R *m n = n & n x0 0 * n x0 0 + n x1 0 * n x1 0 + n x2 0 * n x2 0 = 1].
Proof.
move=> c1 v0 Rv vr; rewrite /axis_of_column.
have -> : map_mx (fun z => 'Re z) v = v by apply/matrixP => i j; rewrite mxE; apply/Creal_ReP.
have N2 := norm2_real vr; set N := norm2 v in N2 *.
have N0 : N != 0.
  rewrite -sqrf_eq0 N2 psumr_eq0 => [|i _]; last by rewrite -expr2 real_exprn_even_ge0.
  apply: contra v0 => /allP h; apply/eqP/matrixP => i j; rewrite ord1 [RHS]mxE.
  by have := h i (mem_index_enum i); rewrite mulf_eq0 orbb => /eqP.
pose u := N^-1 *: v.
have Nr : N \is Num.real by rewrite realE norm2_ge0.
have u1 : real_mx u by move=> i j; rewrite mxE rpredM ?rpredV.
have u2 : R *m u = u by rewrite -scalemxAr Rv.
have u3 : u x0 0 * u x0 0 + u x1 0 * u x1 0 + u x2 0 * u x2 0 = 1.
  have uE i : u i 0 = N^-1 * v i 0 by rewrite mxE.
  rewrite !uE; have : N * N != 0 by rewrite mulf_neq0.
  move=> nn; apply: (mulfI nn); rewrite mulr1; rewrite sum3 expr2 in N2; rewrite [RHS]N2.
  by move/eqP: N0 => n0; to_field C; field.
rewrite -/u; case: (fix_direction_sign u) => -> //.
split; first by move=> i j; rewrite mxE rpredN.
  by rewrite mulmxN u2.
have uE i : (- u) i 0 = - u i 0 by rewrite mxE.
by rewrite !uE !mulrNN.
Qed.

Lemma axis_of_twofold_ok : c = -1 -> exists n, [/\ axis_of_twofold E R = Some n, real_mx n, R *m n = n &
  n x0 0 * n x0 0 + n x1 0 * n x1 0 + n x2 0 * n x2 0 = 1].
Proof.
move=> c1; rewrite /axis_of_twofold; have := EO R; case: (np_eig E R) => vals vecs [sz cp ev] /=.
have RR2 := twofold_sq O1 D1 RR c1.
have e1 : 1 \in vals.
  have := twofold_eigenvalue O1 D1 RR c1; rewrite eigenvalue_root_char cp.
  by rewrite root_prod_XsubC.
have [j jlt jE] : exists2 j, (j < 3)%N & nth 0 vals j = 1.
  by exists (index 1 vals); rewrite ?nth_index // -sz index_mem.
have ex : exists2 i : 'I_3, List.In i (enum 'I_3) & isclose (nth 0 vals i) 1.
  by exists (Ordinal jlt); [apply/InP; rewrite mem_enum|rewrite /= jE isclose_refl].
have [i ip ->] := @foldl_last _ _ (fun i : 'I_3 => isclose (nth 0 vals i) 1) (fun i => axis_of_column (col i vecs)) _ None (or_introl ex).
have [v0 Rv vr] := ev i.
have ei : nth 0 vals i = 1.
  have h : R *m (R *m col i vecs) = col i vecs by rewrite mulmxA RR2 mul1mx.
  move: h; rewrite Rv -scalemxAr Rv scalerA => h.
  have : (nth 0 vals i * nth 0 vals i - 1) *: col i vecs = 0 by rewrite scalerBl h scale1r subrr.
  move/eqP; rewrite scaler_eq0 (negPf v0) orbF -expr2 subr_eq0 sqrf_eq1 => /orP [] /eqP // em.
  have := isclose_bound (normr1 _) ip; rewrite em -opprD normrN -(natrD C 1 1) normr_nat => h2.
  have h3 : 8%:R^-1 < 2%:R :> C by apply: (@lt_trans _ _ 1); rewrite ?ltr1n // invf_lt1 ?ltr1n ?ltr0n.
  by have := lt_le_trans h3 h2; rewrite ltxx.
exists (axis_of_column (col i vecs)); rewrite ei scale1r in Rv vr.
by have [h1 h2 h3] := axis_of_column_ok c1 v0 Rv (vr RR (rpred1 _)).
Qed.

Lemma angle_lift : exists theta n, get_rotation_angle_and_axis E G R = (theta, Some n) /\
  spin_lift (spin_matrix (t_cos G (2%:R^-1 * theta)) (t_sin G (2%:R^-1 * theta)) n) R.
Proof.
rewrite /get_rotation_angle_and_axis; case: ifP => [/close_to_one R1|aR].
  exists 0, (cv3 0 0 1); split=> //; rewrite mulr0 (tg_cos0 GO) (tg_sin0 GO) R1.
  have := @spin_matrix_lift C 1 0 (cv3 0 0 1) (rpred1 _) (rpred0 _).
  rewrite expr1n expr0n subr0 addr0 mulr0 rodrigues1; apply=> //.
    by apply: ord3P => j; rewrite mxE /= ?rpred0 ?rpred1.
  by rewrite !mxE /= !mulr0 !add0r mulr1.
rewrite -/c; case: ifP => [/close_to_minus_one c1|cR].
  have [n [-> nr Rn nn]] := axis_of_twofold_ok c1; exists (t_pi G), n; split=> //.
  rewrite (tg_cospi GO) (tg_sinpi GO) (twofold_rodrigues O1 D1 RR c1 nr Rn nn).
  have := @spin_matrix_lift C 0 1 n (rpred0 _) (rpred1 _) nr.
  by rewrite expr1n expr0n sub0r add0r mulr0 mul0r; apply.
have R1 : R <> 1%:M by move=> e; rewrite e allclose_refl in aR.
have c1 : c <> -1 by move=> e; rewrite e isclose_refl in cR.
eexists; eexists; split; first by [].
set w := cv3 _ _ _; set s := norm2 w / 2%:R.
have [h1 h2 h3 h4 h5] := tg_half GO (real_s R) (real_c RR) (sin_ge0 R) (sin_cos O1 D1 RR).
have := spin_matrix_lift h1 h2 (real_axis RR) h3 (axis_unit O1 D1 RR c1 R1).
by rewrite h4 h5 -(generic_rodrigues O1 D1 RR c1 R1).
Qed.
End Angle.

(** ** Cartesian rotations of a lattice *)
Section Cart.
Variable L : 'M[C]_3.
Hypothesis LO : lattice_ok L.
Let Lr := proj1 LO. Let Lu := proj2 LO.
Let LTu : L^T \in unitmx. Proof. by rewrite unitmx_tr. Qed.

Lemma preserves_det r : preserves_metric L r -> mdet r = 1%coqZ \/ mdet r = (-1)%coqZ.
Proof.
move=> /(congr1 determinant); rewrite !det_mulmx !det_tr mC_det.
have d0 : \det L * \det L != 0 by rewrite mulf_neq0 // -unitfE -unitmxE.
rewrite [zC C _ * _]mulrC -mulrA -{2}[\det L * \det L]mulr1 => /(mulfI d0); rewrite -zC_mul -zC1 => /zC_inj h.
by nia.
Qed.
Lemma preserves_neg r : preserves_metric L r -> preserves_metric L (mneg r).
Proof. by rewrite /preserves_metric mC_neg [(- mC C r)^T]raddfN /= !mulNmx mulmxN opprK. Qed.
Lemma preserves_mul r1 r2 : preserves_metric L r1 -> preserves_metric L r2 -> preserves_metric L (mmul r1 r2).
Proof.
rewrite /preserves_metric mC_mul trmx_mul => h1 h2.
by rewrite -[X in _ = X]h2 -[X in _ = _ *m X *m _]h1 !mulmxA.
Qed.
Lemma mneg_det r : mdet (mneg r) = (- mdet r)%coqZ.
Proof. by rewrite /mdet /mneg /=; ring. Qed.
Lemma proper_det r : preserves_metric L r -> mdet (proper_part r) = 1%coqZ.
Proof. by move=> /preserves_det; rewrite /proper_part; case: Z.ltb_spec => h1 h2; rewrite ?mneg_det; lia. Qed.
Lemma preserves_proper r : preserves_metric L r -> preserves_metric L (proper_part r).
Proof. by rewrite /proper_part; case: ifP => // _; apply: preserves_neg. Qed.
Lemma mneg_mul_l a b : mmul (mneg a) b = mneg (mmul a b).
Proof. by rewrite /mmul /mneg /=; congr Mat; ring. Qed.
Lemma mneg_mul_r a b : mmul a (mneg b) = mneg (mmul a b).
Proof. by rewrite /mmul /mneg /=; congr Mat; ring. Qed.
Lemma mneg_mneg a : mneg (mneg a) = a.
Proof. by case: a => *; rewrite /mneg /=; congr Mat; ring. Qed.
Lemma proper_mul a b : preserves_metric L a -> preserves_metric L b ->
  proper_part (mmul a b) = mmul (proper_part a) (proper_part b).
Proof.
move=> /preserves_det ha /preserves_det hb; rewrite /proper_part mdet_mul.
by case: ha hb => -> [] -> /=; rewrite ?mneg_mul_l ?mneg_mul_r ?mneg_mneg.
Qed.

Lemma cart_orth r : preserves_metric L r -> (cart_rotation L r)^T *m cart_rotation L r = 1%:M.
Proof.
move=> /preserves_proper h; rewrite /cart_rotation !trmx_mul trmxK trmx_inv trmxK.
rewrite !mulmxA -[invmx L *m _ *m L *m L^T]mulmxA -[invmx L *m _ *m (L *m L^T)]mulmxA -[invmx L *m _ *m mC C _]mulmxA h.
by rewrite mulmxA mulVmx // mul1mx mulmxV.
Qed.
Lemma cart_det r : preserves_metric L r -> \det (cart_rotation L r) = 1.
Proof.
move=> h; rewrite /cart_rotation !det_mulmx mulrAC -det_mulmx mulmxV // det1 mul1r mC_det proper_det //.
Qed.
Lemma cart_real r : real_mx (cart_rotation L r).
Proof.
apply: real_mulmx; last by apply: real_invmx; apply: real_trmx.
by apply: real_mulmx; [apply: real_trmx|apply: real_mC].
Qed.
Lemma cart_tr r : \tr (cart_rotation L r) = zC C (mtrace (proper_part r)).
Proof. by rewrite /cart_rotation mxtrace_mulC mulmxA mulVmx // mul1mx mC_tr. Qed.
Lemma cart_mul a b : preserves_metric L a -> preserves_metric L b ->
  cart_rotation L (mmul a b) = cart_rotation L a *m cart_rotation L b.
Proof.
move=> ha hb; rewrite /cart_rotation proper_mul // mC_mul !mulmxA.
by rewrite -[_ *m invmx L^T *m L^T]mulmxA mulVmx // mulmx1.
Qed.
Lemma cart_id : cart_rotation L mid = 1%:M.
Proof. by rewrite /cart_rotation /proper_part /= mC_id mulmx1 mulmxV. Qed.
Lemma cart_inversion : cart_rotation L (mneg mid) = 1%:M.
Proof. by rewrite /cart_rotation (_ : proper_part (mneg mid) = mid) // mC_id mulmx1 mulmxV. Qed.
End Cart.

(** ** Uniqueness of the lift up to sign *)
Lemma adj_mul2 (A B : 'M[C]_2) : adj (A *m B) = adj B *m adj A.
Proof. exact: adjM. Qed.
Lemma lift_mul U V (R S : 'M[C]_3) : spin_lift U R -> spin_lift V S -> spin_lift (U *m V) (R *m S).
Proof.
case=> u1 u2 u3 [v1 v2 v3]; split.
- by rewrite adj_mul2 mulmxA -[_ *m V *m _]mulmxA v1 mulmx1 u1.
- by rewrite det_mulmx u2 v2 mulr1.
- by move=> v; rewrite adj_mul2 -!mulmxA [V *m _]mulmxA [V *m _ *m _]mulmxA v3 mulmxA u3 mulmxA.
Qed.
Lemma lift_one : spin_lift (1%:M : 'M[C]_2) 1%:M.
Proof.
have a1 : adj (1%:M : 'M[C]_2) = 1%:M by rewrite mx2_1 mx2_adj !rmorph1 !rmorph0.
by split=> [||v]; rewrite ?a1 ?mulmx1 ?det1 // !mul1mx.
Qed.
Lemma commute_pauli (W : 'M[C]_2) : (forall v, W *m pauli v = pauli v *m W) -> exists a, W = a%:M.
Proof.
rewrite (mx2_eta W); move: (W _ _) (W _ _) (W _ _) (W _ _) => a b c d h.
exists a; have := h (cv3 0 0 1); have := h (cv3 1 0 0).
rewrite /pauli !mx2M !mxE /= => /mx2_inj [_ e1 _ _] /mx2_inj [_ e2 e3 _].
move: e1 e2 e3; rewrite !(mulr0, mulr1, mul0r, mul1r, addr0, add0r, subr0, oppr0, mulrN1, mulN1r) => e1 e2 e3.
have z (x : C) : x = - x -> x = 0.
  by move/eqP; rewrite -addr_eq0 -mulr2n mulrn_eq0 /= => /eqP.
by rewrite mx2_s; congr (mx2 _ _ _ _) => //; apply: z.
Qed.
Lemma lift_unique U V (R : 'M[C]_3) : spin_lift U R -> spin_lift V R -> U = V \/ U = - V.
Proof.
case=> u1 u2 u3 [v1 v2 v3].
have u1' : adj U *m U = 1%:M by apply: mulmx1C.
have v1' : adj V *m V = 1%:M by apply: mulmx1C.
have [a Wa] : exists a, adj V *m U = a%:M.
  apply: commute_pauli => v; have := u3 v; rewrite -v3 => /(congr1 (fun M => adj V *m M *m U)) e.
  by move: e; rewrite !mulmxA v1' mul1mx -mulmxA -mulmxA u1' mulmx1 -!mulmxA => <-; rewrite !mulmxA.
have UV : U = a *: V by rewrite -[U]mul1mx -v1 -mulmxA Wa mul_mx_scalar.
have : a ^+ 2 = 1 by have := u2; rewrite UV detZ v2 mulr1.
by move/eqP; rewrite sqrf_eq1 => /orP [] /eqP aE; [left|right]; rewrite UV aE ?scale1r ?scaleN1r.
Qed.
Lemma unitary2_big (U : 'M[C]_2) : U *m adj U = 1%:M -> exists i j, 2%:R^-1 < `|U i j|.
Proof.
move=> h; pose i := ord0 : 'I_2; pose j := lift ord0 ord0 : 'I_2.
have e : `|U i i| ^+ 2 + `|U i j| ^+ 2 = 1.
  have := congr1 (fun M : 'M[C]_2 => M i i) h.
  by rewrite !mxE !big_ord_recl big_ord0 !mxE /= addr0 -!normCK.
case: (boolP (2%:R^-1 < `|U i i|)) => [|n1]; first by exists i, i.
case: (boolP (2%:R^-1 < `|U i j|)) => [|n2]; first by exists i, j.
have half_real : 2%:R^-1 \is @Num.real C by rewrite rpredV realn.
move: n1 n2; rewrite -!real_leNgt ?normr_real // => n1 n2.
have b x : 0 <= x -> x <= 2%:R^-1 -> x ^+ 2 <= 4%:R^-1 :> C.
  by move=> x0 x1; rewrite (natrM C 2 2) invfM -expr2 ler_expn2r // nnegrE // invr_ge0 ler0n.
have := ler_add (b _ (normr_ge0 _) n1) (b _ (normr_ge0 _) n2).
rewrite e -mulr2n -[_ *+ 2]mulr_natl (natrM C 2 2) invfM mulrA mulfV ?pnatr_eq0 // mul1r => h1.
have h2 : 2%:R^-1 < 1 :> C by rewrite invf_lt1 ?ltr1n ?ltr0n.
by have := le_lt_trans h1 h2; rewrite ltxx.
Qed.
Lemma find_multiplier_ok (A B : 'M[C]_2) : B *m adj B = 1%:M ->
  (A = B -> find_multiplier A B = 1) /\ (A = - B -> find_multiplier A B = -1).
Proof.
move=> uB; split=> ->; rewrite /find_multiplier ?allclose_refl //.
case: ifP => // /forallP h; have [i [j big]] := unitary2_big uB.
have /forallP /(_ j) := h i; rewrite /isclose mxE opprK normrN -mulr2n normrMn => h1.
have h2 := le_trans h1 (eps_le _).
set x := `|B i j| in h2 big.
have x0 : 0 < x by apply: lt_trans big; rewrite invr_gt0 ltr0n.
have h16 n : (1 < n)%N -> n%:R^-1 < 1 :> C by move=> n1; rewrite invf_lt1 ?ltr1n // ltr0n; apply: leq_trans n1.
have l1 : 16%:R^-1 < x.
  by apply: lt_trans big; rewrite ltf_pinv ?posrE ?ltr0n // ltr_nat.
have l2 : 16%:R^-1 * x < x by rewrite -{2}[x]mul1r ltr_pmul2r // h16.
by have := le_lt_trans h2 (ltr_add l1 l2); rewrite mulr2n ltxx.
Qed.

Lemma signs_assoc n (A B D AB BD ABD : 'M[C]_n) (s1 s2 s3 s4 : C) :
  B *m D = s1 *: BD -> A *m BD = s2 *: ABD -> A *m B = s3 *: AB -> AB *m D = s4 *: ABD -> ABD != 0 -> s2 * s1 = s4 * s3.
Proof.
move=> e1 e2 e3 e4 n0; have := mulmxA A B D; rewrite e1 -scalemxAr e2 e3 -scalemxAl e4 !scalerA => /eqP.
by rewrite -subr_eq0 -scalerBl scaler_eq0 (negPf n0) orbF subr_eq0 mulrC => /eqP ->; rewrite mulrC.
Qed.

(** ** The rotations and the factor system of a group *)
Section FactorSystem.
Variables (E : numpy C) (G : trig C).
Hypotheses (EO : eig_ok E) (GO : trig_ok G).
Variable L : 'M[C]_3.
Hypothesis LO : lattice_ok L.
Local Notation spin r := (get_spinor_unitary_rotation E G L r).
(** The matrix of a rotation and the sign of a pair of rotations. *)
Definition spin_of (r : mat) : 'M[C]_2 := if spin r is Ret U then U else 0.
Definition spin_sign (a b : mat) : C := find_multiplier (spin_of a *m spin_of b) (spin_of (mmul a b)).

Lemma spin_total r : preserves_metric L r -> spin r = Ret (spin_of r) /\ spin_lift (spin_of r) (cart_rotation L r).
Proof.
move=> h; have [t [n [e l]]] := angle_lift EO GO (cart_orth LO h) (cart_det LO h) (cart_real LO r) (cart_tr LO r).
by rewrite /spin_of /get_spinor_unitary_rotation e.
Qed.
Lemma spin_trivial r : cart_rotation L r = 1%:M -> spin r = Ret 1%:M.
Proof.
move=> e; rewrite /get_spinor_unitary_rotation e /get_rotation_angle_and_axis allclose_refl mulr0.
rewrite (tg_cos0 GO) (tg_sin0 GO) /spin_matrix mx2_1; congr (Ret _).
by rewrite !mulr0 !mul0r subr0 addr0.
Qed.
Lemma spin_id : spin mid = Ret 1%:M. Proof. exact: spin_trivial (cart_id LO). Qed.
Lemma spin_inversion : spin (mneg mid) = Ret 1%:M. Proof. exact: spin_trivial (cart_inversion LO). Qed.

Lemma spin_sign_ok a b : preserves_metric L a -> preserves_metric L b ->
  (spin_sign a b = 1 \/ spin_sign a b = -1) /\ spin_of a *m spin_of b = spin_sign a b *: spin_of (mmul a b).
Proof.
move=> ha hb; have [_ la] := spin_total ha; have [_ lb] := spin_total hb.
have [_ lab] := spin_total (preserves_mul ha hb).
have := lift_mul la lb; rewrite -cart_mul // => l2.
have [uab _ _] := lab; have [f1 f2] := find_multiplier_ok (spin_of a *m spin_of b) uab.
case: (lift_unique l2 lab) => e; rewrite /spin_sign.
  by rewrite f1 // scale1r; split=> //; left.
by rewrite f2 // scaleN1r; split=> //; right.
Qed.
Lemma spin_neq0 r : preserves_metric L r -> spin_of r != 0.
Proof.
move=> /spin_total [_ [u _ _]]; apply/eqP => e; move: u; rewrite e mul0mx => /matrixP /(_ ord0 ord0) /eqP.
by rewrite !mxE eq_sym oner_eq0.
Qed.
Lemma preserves_id : preserves_metric L mid.
Proof. by rewrite /preserves_metric mC_id trmx1 mul1mx mulmx1. Qed.
Lemma spin_of_id : spin_of mid = 1%:M. Proof. by rewrite /spin_of spin_id. Qed.
Lemma spin_sign_id_l a : preserves_metric L a -> spin_sign mid a = 1.
Proof.
move=> ha; have [_] := spin_sign_ok preserves_id ha; rewrite spin_of_id mul1mx mmul_1l => e.
have := spin_neq0 ha; apply: contraNeq => n1.
have : (spin_sign mid a - 1) *: spin_of a = 0 by rewrite scalerBl -e scale1r subrr.
by move/eqP; rewrite scaler_eq0 subr_eq0 (negPf n1).
Qed.
Lemma spin_sign_id_r a : preserves_metric L a -> spin_sign a mid = 1.
Proof.
move=> ha; have [_] := spin_sign_ok ha preserves_id; rewrite spin_of_id mulmx1 mmul_1r => e.
have := spin_neq0 ha; apply: contraNeq => n1.
have : (spin_sign a mid - 1) *: spin_of a = 0 by rewrite scalerBl -e scale1r subrr.
by move/eqP; rewrite scaler_eq0 subr_eq0 (negPf n1).
Qed.
Lemma spin_sign_cocycle a b c : preserves_metric L a -> preserves_metric L b -> preserves_metric L c ->
  spin_sign a (mmul b c) * spin_sign b c = spin_sign (mmul a b) c * spin_sign a b.
Proof.
move=> ha hb hc; have hbc := preserves_mul hb hc; have hab := preserves_mul ha hb.
have [_ e1] := spin_sign_ok hb hc; have [_ e2] := spin_sign_ok ha hbc.
have [_ e3] := spin_sign_ok ha hb; have [_ e4] := spin_sign_ok hab hc.
rewrite mmul_assoc in e2; exact: (signs_assoc e1 e2 e3 e4 (spin_neq0 (preserves_mul hab hc))).
Qed.

Variable rots : list mat.
Hypothesis PM : forall r, In r rots -> preserves_metric L r.
Lemma nth_preserves i : preserves_metric L (List.nth i rots mid).
Proof. by case: (nth_in_or_default i rots mid) => [/PM //|->]; exact: preserves_id. Qed.
Lemma spin_list : mapM (get_spinor_unitary_rotation E G L) rots = Ret (List.map spin_of rots).
Proof.
apply/mapM_Ret; elim: rots PM => [|r l IH] h /=; constructor; last by apply: IH => x hx; apply: h; right.
by apply: (proj1 (spin_total (h r _))); left.
Qed.
Lemma spin_nth i : (i < size rots)%N -> nth 0 (List.map spin_of rots) i = spin_of (List.nth i rots mid).
Proof. by elim: rots i => [|r l IH] [|i] //= hi; apply: IH. Qed.

Variables (mul : nat -> nat -> nat) (e : nat).
Hypotheses (LG : lists_group rots) (M : multiplication rots mul e).
Lemma spinor_factor_system : exists z, get_spinor_factor_system E G L rots = Ret (z, List.map spin_of rots) /\
  forall i j, (i < size rots)%N -> (j < size rots)%N -> z i j = spin_sign (List.nth i rots mid) (List.nth j rots mid).
Proof.
rewrite /get_spinor_factor_system spin_list /=; have [t ht] := cayley_rot_total rots (lg_mul _ LG).
rewrite ht /=; eexists; split; first reflexivity.
move=> i j hi hj; cbv beta; rewrite (mult_table LG M ht hi hj) (spin_nth hi) (spin_nth hj) (spin_nth (mt_lt M hi hj)) (mt_mul M hi hj).
reflexivity.
Qed.
Lemma spin_fs (z : nat -> nat -> C) : 
  (forall i j, (i < size rots)%N -> (j < size rots)%N -> z i j = spin_sign (List.nth i rots mid) (List.nth j rots mid)) ->
  ifactor_system (size rots) mul e z.
Proof.
have P := nth_preserves; move=> h; split.
- move=> i j k hi hj hk; have hij := mt_lt M hi hj; have hjk := mt_lt M hj hk.
  rewrite (h i _ hi hjk) (h j k hj hk) (h _ k hij hk) (h i j hi hj) (mt_mul M hi hj) (mt_mul M hj hk).
  exact: (spin_sign_cocycle (P i) (P j) (P k)).
- move=> i j hi hj; rewrite (h i j hi hj); have [[]->] := spin_sign_ok (P i) (P j); by rewrite ?normrN normr1.
- by rewrite (h e e (mt_e M) (mt_e M)) (mt_id M) (spin_sign_id_l preserves_id).
Qed.
End FactorSystem.
End Proofs.
