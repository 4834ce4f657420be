(** Change of basis of lattices and k-points; the spin system of a group of rotations. *)
From Coq Require Import QArith ZArith List Lia Field String Ascii.
From mathcomp Require Import all_ssreflect all_algebra.
From Verif Require Import FieldTac Py Mat3 MatQ GroupModel GroupSpec GroupProofs TransformModel TransformSpec TransformProofs RepSpec RepTheory
  IndexRepSpec Mx2 CExpSpec ChainModel ChainLoop SmallModel SmallSpec SmallTheory CentringModel SpinorModel SpinorSpec SpinorTheory SpinorProofs.
Import Order.TTheory GRing.Theory Num.Theory.
Set Implicit Arguments.
Unset Strict Implicit.
Unset Printing Implicit Defensive.
Local Open Scope ring_scope.
Delimit Scope Z_scope with coqZ.

Section Conv.
Variable C : numClosedFieldType.
Local Notation zC := (zC C).
Local Notation qC := (qC C).

Lemma pos_neq0 p : (Pos.to_nat p)%:R != 0 :> C. Proof. by rewrite gt_eqF ?posC_gt0. Qed.
Lemma qC_add a b : qC (Qplus a b) = qC a + qC b.
Proof.
rewrite /qC /= zC_add !zC_mul /= Pos2Nat.inj_mul multE natrM invfM mulrDl.
have ha := pos_neq0 (Qden a); have hb := pos_neq0 (Qden b); congr (_ + _).
  by rewrite [_^-1 * _]mulrC mulrA -(mulrA (zC _)) mulfV // mulr1.
by rewrite mulrA -(mulrA (zC _)) mulfV // mulr1.
Qed.
Lemma qC_mul a b : qC (Qmult a b) = qC a * qC b.
Proof. by rewrite /qC /= zC_mul Pos2Nat.inj_mul multE natrM invfM mulrACA. Qed.
Lemma qC_opp a : qC (Qopp a) = - qC a.
Proof. by rewrite /qC /= zC_opp mulNr. Qed.
Lemma qC_z z : qC (inject_Z z) = zC z. Proof. by rewrite /qC /= divr1. Qed.
Lemma qC_1 : qC (inject_Z 1%coqZ) = 1. Proof. by rewrite qC_z. Qed.
Lemma qC_real q : qC q \is Num.real.
Proof. by rewrite /qC rpredM ?zC_real // rpredV realn. Qed.

Lemma qmC_mul a b : qmC C (qmul a b) = qmC C a *m qmC C b.
Proof. by apply: mx3P; split; rewrite mul3E !mxE /= !qC_add !qC_mul. Qed.
Lemma qmC_id : qmC C qid = 1%:M.
Proof. by apply: mx3P; split; rewrite !mxE /= ?qC_1 ?qC0. Qed.
Lemma qmC_eq a b : qmeq a b -> qmC C a = qmC C b.
Proof.
move=> [h1 [h2 [h3 [h4 [h5 [h6 [h7 [h8 h9]]]]]]]].
by rewrite /qmC (qC_eq _ h1) (qC_eq _ h2) (qC_eq _ h3) (qC_eq _ h4) (qC_eq _ h5) (qC_eq _ h6) (qC_eq _ h7) (qC_eq _ h8) (qC_eq _ h9).
Qed.
Lemma qmC_ofz r : qmC C (qofz r) = mC C r.
Proof. by rewrite /qmC /mC /= !qC_z. Qed.
Lemma qmC_inv P : ~ Qeq (qdet P) (inject_Z Z0) -> qmC C (qinv P) *m qmC C P = 1%:M.
Proof. by move=> h; rewrite -qmC_mul (qmC_eq (qinv_l P h)) qmC_id. Qed.
Lemma qmC_unit P : ~ Qeq (qdet P) (inject_Z Z0) -> qmC C P \in unitmx.
Proof. by move=> /qmC_inv /mulmx1_unit []. Qed.
Lemma real_qmC P : real_mx (qmC C P).
Proof. by apply: ord3P => j; case: j => [[|[|[|//]]]] hj; rewrite mxE /= qC_real. Qed.
Lemma vC_qtvec P k : vC C (qtvec P k) = vC C k *m qmC C P.
Proof.
by apply/rowP => j; rewrite !mxE sum3 !mxE /=; case: j => [[|[|[|//]]]] hj /=; rewrite !qC_add !qC_mul; congr (_ + _ + _); rewrite mulrC.
Qed.
Lemma vC_dot a b : (vC C a *m (vC C b)^T) 0 0 = qC (vdot a b).
Proof. by rewrite !mxE sum3 !mxE /= /vdot !qC_add !qC_mul. Qed.

Lemma transform_C P r : ~ Qeq (qdet P) (inject_Z Z0) -> conj_integral P r ->
  qmC C P *m mC C (transform_rotation P r) = mC C r *m qmC C P.
Proof.
move=> hP hr; rewrite -qmC_ofz (qmC_eq (transform_rotation_q P r hr)) !qmC_mul qmC_ofz !mulmxA.
by have := qmC_inv hP => /mulmx1C ->; rewrite mul1mx.
Qed.
Lemma primitive_det_neq0 choice hs h P : get_primitive_transformation_matrix choice hs h = Ret P -> ~ Qeq (qdet P) (inject_Z Z0).
Proof.
rewrite /get_primitive_transformation_matrix; case: (get_crystal_system h) => [cs|x] //=.
have K : (forall c, (if Ascii.eqb c "P" then Ret prim_P else if Ascii.eqb c "A" then Ret prim_A
          else if Ascii.eqb c "B" then Ret prim_B else if Ascii.eqb c "C" then Ret prim_C
          else if Ascii.eqb c "I" then Ret prim_I else if Ascii.eqb c "F" then Ret prim_F
          else Raise ValueError) = Ret P -> ~ Qeq (qdet P) (inject_Z Z0)).
  by move=> c; do 6 (case: Ascii.eqb; first by move=> [<-] hh; vm_compute in hh).
case: cs; try by case: (get_centering hs) => [c|x] //= /K.
case: String.eqb; first by move=> [<-] hh; vm_compute in hh.
by case: orb => // -[<-] hh; vm_compute in hh.
Qed.

Section Primitive.
Variables (P : qmat) (L : 'M[C]_3).
Hypotheses (HP : ~ Qeq (qdet P) (inject_Z Z0)) (LO : lattice_ok L).
Lemma primitive_lattice_ok : lattice_ok (primitive_lattice P L).
Proof.
have [h1 h2] := LO; split.
  by apply: real_mulmx => //; apply: real_trmx; apply: real_qmC.
by rewrite unitmx_mul unitmx_tr qmC_unit.
Qed.
Lemma primitive_cartesian r R : conj_integral P r ->
  is_cartesian L r R <-> is_cartesian (primitive_lattice P L) (transform_rotation P r) R.
Proof.
move=> hr; rewrite /is_cartesian /primitive_lattice trmx_mul trmxK !mulmxA -[_ *m qmC C P *m mC C _]mulmxA transform_C //.
rewrite mulmxA; split=> [->//|h]; have U := qmC_unit HP.
by rewrite -[R *m _](mulmxK U) h mulmxK.
Qed.
Lemma primitive_preserves r : conj_integral P r -> preserves_metric L r -> preserves_metric (primitive_lattice P L) (transform_rotation P r).
Proof.
move=> hr; rewrite /preserves_metric /primitive_lattice trmx_mul trmxK => h.
have e := transform_C HP hr; have et := congr1 trmx e; rewrite !trmx_mul in et.
rewrite !mulmxA et -[_ *m qmC C P *m _]mulmxA e !mulmxA.
by have := congr1 (fun X => (qmC C P)^T *m X *m qmC C P) h; rewrite !mulmxA.
Qed.
End Primitive.

Section System.
Variables (E : numpy C) (G : trig C).
Hypotheses (EO : eig_ok E) (GO : trig_ok G).
Variable L : 'M[C]_3.
Hypothesis LO : lattice_ok L.
Lemma cart_is r R : preserves_metric L r -> is_cartesian L r R -> zC (mdet r) *: R = cart_rotation L r.
Proof.
move=> hr hR; have [_ U] := LO; have U' : L^T \in unitmx by rewrite unitmx_tr.
have -> : R = L^T *m mC C r *m invmx L^T by rewrite -hR mulmxK.
rewrite /cart_rotation /proper_part; case: (preserves_det LO hr) => -> /=; first by rewrite scale1r.
by rewrite scaleN1r mC_neg mulmxN mulNmx.
Qed.
Lemma spin_rotation_of r : preserves_metric L r -> spin_rotation L r (spin_of E G L r).
Proof. by move=> hr R /(cart_is hr) ->; case: (spin_total EO GO LO hr). Qed.
Lemma spin_system_of rots : (forall r, In r rots -> preserves_metric L r) ->
  spin_system L rots (spin_of E G L) (spin_sign E G L).
Proof.
move=> h; split.
- by move=> r /h; exact: spin_rotation_of.
- exact: spin_of_id.
- by move=> a b ha hb; case: (spin_sign_ok EO GO LO (h a ha) (h b hb)).
- by move=> a b ha hb; case: (spin_sign_ok EO GO LO (h a ha) (h b hb)).
Qed.
End System.
End Conv.
Section Aux.
Variable C : numClosedFieldType.
Lemma scale_fix1 n (A : 'M[C]_n) (c : C) : A != 0 -> A = c *: A -> c = 1.
Proof.
move=> A0 e; have : (c - 1) *: A = 0 by rewrite scalerBl scale1r -e subrr.
by move/eqP; rewrite scaler_eq0 (negPf A0) orbF subr_eq0 => /eqP.
Qed.
Lemma spin_rotation_neq0 (L : 'M[C]_3) r U : lattice_ok L -> spin_rotation L r U -> U != 0.
Proof.
move=> [_ u] h; have u' : L^T \in unitmx by rewrite unitmx_tr.
have [] := h (L^T *m mC C r *m invmx L^T); first by rewrite /is_cartesian mulmxKV.
move=> uu _ _; apply/eqP => e; move: uu; rewrite e mul0mx => /matrixP /(_ ord0 ord0) /eqP.
by rewrite !mxE eq_sym oner_eq0.
Qed.
Lemma spinor_size (E : numpy C) (G : trig C) L rots z U : get_spinor_factor_system E G L rots = Ret (z, U) -> size U = List.length rots.
Proof.
rewrite /get_spinor_factor_system; case HM: (mapM _ _) => [V|x]; last by [].
rewrite [bind (Ret _) _]/(bind _ _); case: (get_cayley_table rots) => [t|x]; last by [].
move=> [_ <-]; have := proj1 (mapM_Ret _ _ _) HM; elim=> // a b l l' _ _ IH; exact: (congr1 S IH).
Qed.
Lemma conventional_parts (E : numpy C) (G : trig C) choice hs hn P L rots trans k method rtol atol max_num UR UT M lr lt lp X z U lm ok :
  get_primitive_transformation_matrix choice hs hn = Ret P ->
  unique_primitive_symmetry (List.map (transform_rotation P) rots) (List.map (transform_translation P) trans) = (UR, UT, M) ->
  get_little_group UR UT (transform_kpoint P k) atol = (lr, lt, lp) ->
  get_spacegroup_spinor_irreps E G choice hs hn L rots trans k method rtol atol max_num = COk (X, z, U, lm, ok) ->
  size U = List.length lr /\ lm = List.map fst (select_little (List.map (transform_translation P) trans) UT M lp).
Proof.
rewrite /get_spacegroup_spinor_irreps => -> + h2.
have E0 A B (x : A) (g : A -> cres B) : cbind (clift (Ret x)) g = g x by [].
have E1 A B (x : A) (g : A -> cres B) : cbind (COk x) g = g x by [].
rewrite E0 /transform_symmetry_and_kpoint => ->.
rewrite /get_spacegroup_spinor_irreps_from_primitive_symmetry h2; case: not_primitive; first by [].
rewrite /enumerate_spinor_small_representations.
case HF: (get_spinor_factor_system _ _ _ _) => [[z' U']|x]; last by [].
rewrite E0; case: enumerate_unitary_irreps => [[[L0 i0] b0]|x| |] //.
rewrite !E1 /adjust_phase_for_centering_translations => -[_ _ <- <- _]; split=> //; exact: spinor_size HF.
Qed.
End Aux.
