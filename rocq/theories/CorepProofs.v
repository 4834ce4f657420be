(** Proofs about CorepModel: the spin factor system of magnetic groups. *)
From Coq Require Import QArith ZArith List.
From mathcomp Require Import all_ssreflect all_algebra.
From Coq Require Import Field.
From Verif Require Import FieldTac Py Mat3 MatQ GroupModel GroupSpec GroupProofs RepSpec RepModel Mx2 IndexRepSpec SmallModel
  SmallSpec SpinorModel SpinorSpec SpinorTheory SpinorProofs SpinorConv CorepModel CorepSpec.
Import Order.TTheory GRing.Theory Num.Theory.
Set Implicit Arguments.
Unset Strict Implicit.
Unset Printing Implicit Defensive.
Local Open Scope ring_scope.

Section SU2.
Variable C : numClosedFieldType.
Local Notation T := (time_reversal_matrix C).
Add Field CF : (fth C).
Lemma T_conj : conj_mx T = T.
Proof. by rewrite /conj_mx mx2_conj rmorph0 rmorphN rmorph1. Qed.
Lemma T_sq : T *m T = - 1%:M.
Proof. by rewrite mx2M mx2_1 -scaleN1r mx2Z; congr mx2; to_field C; ring. Qed.
Lemma T_unit : T *m adj T = 1%:M.
Proof. by rewrite mx2_adj mx2M mx2_1 rmorph0 rmorphN rmorph1; congr mx2; to_field C; ring. Qed.
Lemma T_det : \det T = 1.
Proof. by rewrite mx2_det; to_field C; ring. Qed.
Lemma su2_conj (U : 'M[C]_2) : U *m adj U = 1%:M -> \det U = 1 -> T *m conj_mx U = U *m T.
Proof.
have [a [b [c [d ->]]]] : exists a b c d, U = mx2 a b c d by do 4!eexists; exact: mx2_eta.
rewrite mx2_det => u e.
have : adj (mx2 a b c d) = mx2 d (- b) (- c) a.
  rewrite -[LHS]mul1mx -[RHS]mulmx1 -{2}u mulmxA; congr (_ *m _); rewrite mx2M mx2_1.
  by congr mx2; rewrite -?e; to_field C; ring.
rewrite mx2_adj => /mx2_inj [ea ec eb ed]; rewrite /conj_mx mx2_conj ea eb ec ed !mx2M.
by congr mx2; to_field C; ring.
Qed.
Lemma conj_mxM m n p (A : 'M[C]_(m, n)) (B : 'M[C]_(n, p)) : conj_mx (A *m B) = conj_mx A *m conj_mx B.
Proof. exact: map_mxM. Qed.
Lemma conj_mxK m n (A : 'M[C]_(m, n)) : conj_mx (conj_mx A) = A.
Proof. by apply/matrixP => i j; rewrite !mxE conjCK. Qed.
(** Time reversal reverses the spin. *)
Lemma T_pauli (v : 'cV[C]_3) : real_mx v -> T *m conj_mx (pauli v) *m adj T = - pauli v.
Proof.
move=> /real_conj h; rewrite -{2}h.
rewrite /pauli /conj_mx mx2_conj mx2_adj !mx2M -scaleN1r mx2Z !mxE !rmorph0 !rmorphN !rmorph1 rmorphD rmorphB !rmorphM /= conjCi.
by congr mx2; to_field C; ring.
Qed.
End SU2.

Section FactorSystem.
Variables (C : numClosedFieldType) (E : numpy C) (G : trig C).
Hypotheses (EO : eig_ok E) (GO : trig_ok G).
Variable L : 'M[C]_3.
Hypothesis LO : lattice_ok L.
Local Notation T := (time_reversal_matrix C).
Local Notation spin_of := (spin_of E G L).
Local Notation spin_sign := (spin_sign E G L).
Definition mag_spin_of (o : op) : 'M[C]_2 := if o.2 then spin_of o.1 *m T else spin_of o.1.
Definition mag_sign (a b : op) : C := (-1) ^+ (a.2 && b.2) * spin_sign a.1 b.1.
Definition mag_preserves (o : op) := preserves_metric L o.1.

Lemma mag_total o : mag_preserves o -> get_magnetic_unitary_rotation E G L o = Ret (mag_spin_of o).
Proof. by move=> h; rewrite /get_magnetic_unitary_rotation (proj1 (spin_total EO GO LO h)) /= /mag_spin_of; case: (o.2). Qed.
Lemma mag_unitary o : mag_preserves o -> mag_spin_of o *m adj (mag_spin_of o) = 1%:M /\ \det (mag_spin_of o) = 1.
Proof.
move=> h; have [_ [u d _]] := spin_total EO GO LO h; rewrite /mag_spin_of; case: (o.2) => //.
by rewrite adj_mul2 mulmxA -(mulmxA _ T) T_unit mulmx1 det_mulmx d T_det mulr1.
Qed.
Lemma mag_spin_ok o : mag_preserves o -> mag_spin_rotation L o (mag_spin_of o).
Proof.
move=> h; have [u d] := mag_unitary h; split=> // R v hR rv; have [_ _ hp] := spin_rotation_of EO GO LO h hR.
rewrite /mag_spin_of; case: (o.2) => /=; last by rewrite expr0 scale1r hp.
rewrite expr1 adj_mul2 -!mulmxA (mulmxA T) (mulmxA (T *m _)) T_pauli // mulNmx mulmxN !mulmxA hp scaleN1r //.
Qed.
Lemma mag_mul_preserves a b : mag_preserves a -> mag_preserves b -> mag_preserves (mag_mul a b).
Proof. exact: preserves_mul. Qed.
Lemma mag_law a b : mag_preserves a -> mag_preserves b ->
  (mag_sign a b = 1 \/ mag_sign a b = -1) /\
  operator_product a.2 (mag_spin_of a) (mag_spin_of b) = mag_sign a b *: mag_spin_of (mag_mul a b).
Proof.
move=> ha hb; have [zs zm] := spin_sign_ok EO GO LO ha hb; have [_ [ub db _]] := spin_total EO GO LO hb.
split; first by rewrite /mag_sign; case: (_ && _); case: zs => ->; rewrite ?expr1 ?expr0 ?mulN1r ?opprK ?mul1r; auto.
rewrite /operator_product /mag_sign /mag_spin_of /mag_mul /=; move: (su2_conj ub db) zm.
case: (a.2) (b.2) => -[] /= cb zm; rewrite ?expr1 ?expr0 ?mul1r.
- by rewrite conj_mxM T_conj mulmxA -(mulmxA _ T) cb !mulmxA zm -!scalemxAl -mulmxA T_sq mulmxN mulmx1 scalerN mulN1r scaleNr.
- by rewrite -mulmxA cb mulmxA zm -scalemxAl.
- by rewrite mulmxA zm -scalemxAl.
- exact: zm.
Qed.
Lemma mag_neq0 o : mag_preserves o -> mag_spin_of o != 0.
Proof.
move=> /mag_unitary [u _]; apply/eqP => e; move: u; rewrite e mul0mx => /matrixP /(_ ord0 ord0) /eqP.
by rewrite !mxE eq_sym oner_eq0.
Qed.
Lemma mag_sign_ok a b : mag_preserves a -> mag_preserves b ->
  find_multiplier (operator_product a.2 (mag_spin_of a) (mag_spin_of b)) (mag_spin_of (mag_mul a b)) = mag_sign a b.
Proof.
move=> ha hb; have [zs ->] := mag_law ha hb; have [u _] := mag_unitary (mag_mul_preserves ha hb).
by have [f1 f2] := find_multiplier_ok (mag_sign a b *: mag_spin_of (mag_mul a b)) u; case: zs => e; rewrite e ?scale1r ?scaleN1r in f1 f2 *; auto.
Qed.
Lemma mag_sign_cocycle a b c : mag_preserves a -> mag_preserves b -> mag_preserves c ->
  mag_sign a (mag_mul b c) * mag_sign b c = mag_sign (mag_mul a b) c * mag_sign a b.
Proof.
move=> ha hb hc; have := spin_sign_cocycle EO GO LO ha hb hc; rewrite /mag_sign /mag_mul [fst (_, _)]/= [fst (_, _)]/=.
move: (spin_sign a.1 (mmul b.1 c.1)) (spin_sign b.1 c.1) (spin_sign (mmul a.1 b.1) c.1) (spin_sign a.1 b.1) => s1 s2 s3 s4 h.
rewrite mulrACA h [RHS]mulrACA; congr (_ * _).
by case: (a.2) (b.2) (c.2) => -[] [] /=; rewrite ?expr1 ?expr0 ?mul1r ?mulr1.
Qed.
Lemma mag_sign_id a : mag_preserves a -> mag_sign (mid, false) a = 1 /\ mag_sign a (mid, false) = 1.
Proof.
by move=> h; rewrite /mag_sign /= andbF (spin_sign_id_l EO GO LO h) (spin_sign_id_r EO GO LO h) mul1r.
Qed.

Variables (rots : list mat) (flags : list bool).
Let ops := combine rots flags.
Hypothesis LE : size flags = size rots.
Hypothesis PM : forall r, In r rots -> preserves_metric L r.
Lemma size_ops : size ops = size rots.
Proof. by rewrite -[size _]/(List.length _) combine_length -[List.length flags]/(size flags) LE PeanoNat.Nat.min_id. Qed.
Lemma in_ops o : In o ops -> mag_preserves o.
Proof. by case: o => r f /(@in_combine_l _ _ _ _ _ _) /PM. Qed.
Lemma nth_mag_preserves i : mag_preserves (List.nth i ops (mid, false)).
Proof. by case: (nth_in_or_default i ops (mid, false)) => [/in_ops //|->]; exact: preserves_id. Qed.
Lemma nth_ops i : List.nth i ops (mid, false) = (List.nth i rots mid, List.nth i flags false).
Proof. by rewrite /ops combine_nth. Qed.
Lemma flags_ops : List.map snd ops = flags.
Proof. by rewrite /ops; elim: rots flags LE => [|r l IH] [|f fl] //= [/IH ->]. Qed.
Lemma mag_list : mapM (get_magnetic_unitary_rotation E G L) ops = Ret (List.map mag_spin_of ops).
Proof.
apply/mapM_Ret; elim: ops in_ops => [|r l IH] h /=; constructor; last by apply: IH => x hx; apply: h; right.
by apply: mag_total; apply: h; left.
Qed.
Lemma mag_nth i : (i < size ops)%N -> nth 0 (List.map mag_spin_of ops) i = mag_spin_of (List.nth i ops (mid, false)).
Proof. by elim: ops i => [|r l IH] [|i] //= hi; apply: IH. Qed.

Variables (mul : nat -> nat -> nat) (e : nat).
Hypotheses (LG : lists_magnetic_group ops) (M : mag_multiplication ops mul e).
Lemma nth_ops_inj i j : (i < size ops)%N -> (j < size ops)%N -> List.nth i ops (mid, false) = List.nth j ops (mid, false) -> i = j.
Proof. by move=> /ssrnat.ltP hi /ssrnat.ltP hj; apply: (proj1 (NoDup_nth ops (mid, false))) => //; case: LG. Qed.
Lemma mag_table t : get_cayley_table_ops ops = Ret t ->
  forall i j, (i < size ops)%N -> (j < size ops)%N -> tget t i j = mul i j.
Proof.
move=> /cayley_spec [_ [_ h]] i j hi hj.
have hn k : (k < size ops)%N -> nth_error ops k = Some (List.nth k ops (mid, false)) by move=> /ssrnat.ltP hk; exact: nth_error_nth'.
have [/ssrnat.ltP l [eq _]] := h i j _ _ (hn i hi) (hn j hj).
apply: nth_ops_inj; rewrite ?(mm_lt M) // (mm_mul M) //.
by move: eq; rewrite (hn _ l) => -[].
Qed.
Lemma corep_factor_system : exists z, get_corep_spinor_factor_system E G L rots flags = Ret (z, List.map mag_spin_of ops, flags) /\
  forall i j, (i < size ops)%N -> (j < size ops)%N -> z i j = mag_sign (List.nth i ops (mid, false)) (List.nth j ops (mid, false)).
Proof.
rewrite /get_corep_spinor_factor_system -/ops mag_list /= flags_ops; have [t ht] := cayley_total ops (mg_mul _ LG).
rewrite ht /=; eexists; split; first reflexivity.
move=> i j hi hj; cbv beta; rewrite (mag_table ht hi hj) (mag_nth hi) (mag_nth hj) (mag_nth (mm_lt M hi hj)) (mm_mul M hi hj).
by rewrite -mag_sign_ok ?nth_ops //=; [have := nth_mag_preserves i|have := nth_mag_preserves j]; rewrite nth_ops.
Qed.
End FactorSystem.
