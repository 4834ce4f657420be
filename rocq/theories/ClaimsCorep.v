(** Property theorems C36, C37, C49, C54: magnetic groups and co-representations
    (corep.py:24-316; core.py:268-460, 463-593, 596-686 with time reversals). *)
From Coq Require Import QArith ZArith List Lia String.
From mathcomp Require Import all_ssreflect all_algebra.
From mathcomp Require Import algC.
From Verif Require Import Py Mat3 MatQ GroupModel GroupSpec GroupProofs TransformModel TransformSpec TransformProofs RepSpec RepModel
  IndexRepSpec ChainModel SmallModel SmallSpec SmallExamples CentringModel SpinorModel SpinorSpec SpinorProofs SpinorTheory SpinorExamples
  CorepModel CorepSpec CorepProofs MagProofs ClaimsSmall ClaimsSpinor.
Import Order.TTheory GRing.Theory Num.Theory.
Set Implicit Arguments.
Unset Strict Implicit.
Unset Printing Implicit Defensive.
Local Open Scope ring_scope.
Delimit Scope Z_scope with coqZ.

(* ---------- C36 ---------- *)
(** get_corep_spinor_factor_system returns operators that act on spin as the magnetic
    operations do, the flags, and signs with which the operators multiply.  The signs satisfy
    the associativity law, are 1 at the identity, and pure time reversal squares to -1. *)
Theorem C36_magnetic_factor_system : forall (C : numClosedFieldType) (E : numpy C) (G : trig C) L rots flags mul e,
  eig_ok E -> trig_ok G -> lattice_ok L -> size flags = size rots ->
  (forall r, In r rots -> preserves_metric L r) ->
  lists_magnetic_group (combine rots flags) -> mag_multiplication (combine rots flags) mul e ->
  exists z U, get_corep_spinor_factor_system E G L rots flags = Ret (z, U, flags) /\
    let n := size rots in let anti i := List.nth i flags false in
    [/\ size U = n,
        forall i, (i < n)%N -> mag_spin_rotation L (List.nth i rots mid, anti i) (nth 0 U i),
        forall i j, (i < n)%N -> (j < n)%N -> (z i j = 1 \/ z i j = -1) /\
          nth 0 U i *m conj_if (anti i) (nth 0 U j) = z i j *: nth 0 U (mul i j),
        mag_cocycle n mul anti z &
        forall i, (i < n)%N -> [/\ z e i = 1, z i e = 1 &
          List.nth i rots mid = mid -> anti i = true -> z i i = -1]].
Proof.
move=> C E G L rots flags mul e EO GO LO LE PM LG M.
have [z [hz zE]] := corep_factor_system EO GO LO LE PM LG M.
have so := size_ops LE.
have N i := nth_ops LE i; have P i : mag_preserves L (List.nth i (combine rots flags) (mid, false)) by apply: nth_mag_preserves.
have U i : (i < size rots)%N -> nth 0 (List.map (mag_spin_of E G L) (combine rots flags)) i =
    mag_spin_of E G L (List.nth i (combine rots flags) (mid, false)) by rewrite -so; apply: mag_nth.
exists z, (List.map (mag_spin_of E G L) (combine rots flags)); split=> //; rewrite so in zE.
have lt i j : (i < size rots)%N -> (j < size rots)%N -> (mul i j < size rots)%N by rewrite -so; apply: (mm_lt M).
have mm i j : (i < size rots)%N -> (j < size rots)%N -> List.nth (mul i j) (combine rots flags) (mid, false) =
    mag_mul (List.nth i (combine rots flags) (mid, false)) (List.nth j (combine rots flags) (mid, false)) by rewrite -so; apply: (mm_mul M).
have he : (e < size rots)%N by rewrite -so; apply: (mm_e M).
move=> n anti; split.
- by rewrite /n -so -[LHS]/(List.length _) map_length.
- by move=> i hi; rewrite U // -N; apply: mag_spin_ok.
- move=> i j hi hj; rewrite zE // !U ?lt // mm //.
  have [h1 h2] := mag_law EO GO LO (P i) (P j); split=> //; rewrite -h2 /operator_product /conj_if /conj_mx /anti N /=.
  by case: (List.nth i flags false).
- move=> i j k hi hj hk; have -> : (if anti i then (z j k)^* else z j k) = z j k.
    rewrite (zE j k hj hk); case: (anti i) => //; have [h _] := mag_law EO GO LO (P j) (P k).
    by case: h => ->; rewrite ?rmorphN ?rmorph1.
  rewrite (zE i (mul j k) hi (lt j k hj hk)) (zE j k hj hk) (zE (mul i j) k (lt i j hi hj) hk) (zE i j hi hj) (mm i j hi hj) (mm j k hj hk).
  exact: mag_sign_cocycle.
move=> i hi; rewrite (zE e i he hi) (zE i e hi he) (zE i i hi hi) (mm_id M); have [h1 h2] := mag_sign_id EO GO LO (P i); split=> // r f.
rewrite N r -/(anti i) f /mag_sign /= expr1.
by rewrite (spin_sign_id_l EO GO LO (preserves_id L)) mulr1.
Qed.
Print Assumptions C36_magnetic_factor_system.

(** The grey group of 222 on a cubic lattice. *)
Definition grey_mul (i j : nat) : nat :=
  ((p2_mul (i %% 4) (j %% 4)) + 4 * ((i %/ 4 + j %/ 4) %% 2))%N.
Example C36_hypotheses_met : forall C : numClosedFieldType,
  let rots := (p2_rots ++ p2_rots)%list in let flags := (nseq 4 false ++ nseq 4 true)%list in
  [/\ lattice_ok (1%:M : 'M[C]_3), size flags = size rots, forall r, In r rots -> preserves_metric (1%:M : 'M[C]_3) r,
      lists_magnetic_group (combine rots flags) & mag_multiplication (combine rots flags) grey_mul 3].
Proof.
move=> C rots flags; have [LO LG M PM] := C34_hypotheses_met C; split=> //.
- by move=> r /in_app_iff [] /PM.
- split.
  + by repeat constructor; simpl; intuition discriminate.
  + by right; right; right; left.
  + by move=> a b; do 8?[case=> [<-|]]; try by []; do 8?[case=> [<-|]]; try by []; vm_compute; intuition.
  + move=> a h; exists a; split=> //; move: h; by do 8?[case=> [<-|]].
split=> //.
- by do 8?[case=> //]; move=> + ?; do 8?[case=> //].
- by do 8?[case=> //]; move=> + ?; do 8?[case=> //].
Qed.

(* ---------- C49 ---------- *)
(** When all rotations are different the flags stay with their operations. *)
Theorem C49_distinct_rotations : forall rots trans flags,
  size trans = size rots -> size flags = size rots -> NoDup rots ->
  magnetic_unique_symmetry rots trans flags = (rots, List.map (vmap rem1) trans, flags, List.seq 0 (size rots)).
Proof. exact: distinct_unique. Qed.
Print Assumptions C49_distinct_rotations.
(** An operation and the same operation with time reversal never both survive, for any list. *)
Theorem C49_pairs_refuted : forall rots trans flags ur ut uf M r,
  size trans = size rots -> magnetic_unique_symmetry rots trans flags = (ur, ut, uf, M) ->
  ~ (In (r, false) (combine ur uf) /\ In (r, true) (combine ur uf)).
Proof.
move=> rots trans flags ur ut uf M r LE; rewrite /magnetic_unique_symmetry.
case E: (unique_primitive_symmetry rots trans) => [[R T] M'] [<- _ <- _] [h1 h2].
have [_ [_ [_ [ND _]]]] := unique_spec rots trans R T M' LE E.
by have := combine_fun _ _ _ _ _ _ _ ND h1 h2.
Qed.
Print Assumptions C49_pairs_refuted.
(** Grey groups: the result calls every operation linear although half of the given operations
    are time reversals. *)
Theorem C49_grey_groups_refuted : forall (C : numClosedFieldType) (E : numpy C) (G : trig C) choice hall_symbol hall_number P L
    rots trans trans' k method rtol atol max_num X z U anti lm ok,
  size trans = size rots -> size trans' = size rots ->
  get_primitive_transformation_matrix choice hall_symbol hall_number = Ret P ->
  NoDup (List.map (transform_rotation P) rots) ->
  get_magnetic_spacegroup_spinor_irreps E G choice hall_symbol hall_number L (rots ++ rots) (trans ++ trans')
    (repeat false (size rots) ++ repeat true (size rots)) k method rtol atol max_num = COk (X, z, U, anti, lm, ok) ->
  forall b, In b anti -> b = false.
Proof.
move=> C E G choice hs hn P L rots trans trans' k method rtol atol max_num X z U anti lm ok LT LT' HP ND.
rewrite /get_magnetic_spacegroup_spinor_irreps HP /= !List.map_app.
set rs := List.map (transform_rotation P) rots; set ts := List.map (transform_translation P) trans; set ts' := List.map _ trans'.
have [|| M] := @grey_unique rs ts ts' _ _ ND; rewrite ?map_length //.
move=> ->.
rewrite /get_magnetic_spinor_irreps_from_primitive_symmetry; case: (not_primitive _ _ _) => //.
case: (get_little_group _ _ _ _) => [[lr lt] l0].
rewrite /enumerate_spinor_small_corepresentations.
have -> : List.forallb negb (List.map (fun i => List.nth i (repeat false (List.length rots + List.length rots)) false) l0).
  by apply/forallb_forall => b /in_map_iff [i [<- _]]; rewrite nth_repeat.
case: (enumerate_spinor_small_representations _ _ _ _ _ _ _ _ _ _) => //= r.
move=> [_ _ _ <- _ _] b.
by rewrite /co_anti_linear /=; elim: (List.length lr) => //= m IH [<-|].
Qed.
Print Assumptions C49_grey_groups_refuted.
(** When each operation is followed by its time-reversed copy, the flags are attached to other
    rotations: for the grey group of 222 the three linear twofold rotations become two linear
    ones and an anti-linear one, and the reduced operations are not closed. *)
Theorem C49_interleaved_refuted : exists rots trans flags, 
  [/\ size trans = size rots, size flags = size rots, lists_magnetic_group (combine rots flags) &
      let: (ur, _, uf, _) := magnetic_unique_symmetry rots trans flags in ~ lists_magnetic_group (combine ur uf)].
Proof.
pose rx := Mat 1 0 0 0 (-1) 0 0 0 (-1); pose ry := Mat (-1) 0 0 0 1 0 0 0 (-1); pose rz := Mat (-1) 0 0 0 (-1) 0 0 0 1.
exists [:: mid; mid; rx; rx; ry; ry; rz; rz], (repeat vzero 8), [:: false; true; false; true; false; true; false; true].
split=> //.
  split.
  + by repeat constructor; simpl; intuition discriminate.
  + by left.
  + by move=> a b; do 8?[case=> [<-|]]; try by []; do 8?[case=> [<-|]]; try by []; vm_compute; intuition.
  + move=> a h; exists a; split=> //; move: h; by do 8?[case=> [<-|]].
have -> : magnetic_unique_symmetry [:: mid; mid; rx; rx; ry; ry; rz; rz] (repeat vzero 8) [:: false; true; false; true; false; true; false; true] =
  ([:: mid; rx; ry; rz], repeat (vmap rem1 vzero) 4, [:: false; false; false; true; false; false; false; true], [:: 0; 0; 2; 1; 4; 2; 6; 3])%N by [].
move=> [_ _ h _]; have := h (rx, false) (ry, false) (or_intror (or_introl erefl)) (or_intror (or_intror (or_introl erefl))).
by vm_compute; intuition discriminate.
Qed.
Print Assumptions C49_interleaved_refuted.

(** P2 1' in a primitive cell. *)
Example C49_hypotheses_met : let rots := [:: mid; Mat (-1) 0 0 0 1 0 0 0 (-1)] in
  get_primitive_transformation_matrix "" "P 2y" 3 = Ret qid /\ NoDup (List.map (transform_rotation qid) rots).
Proof. by split=> //; repeat constructor; simpl; intuition discriminate. Qed.

(* ---------- C54 ---------- *)
(** The little group kept by get_spacegroup_spinor_irreps_from_primitive_symmetry depends on the
    rotations only. *)
Theorem C54_little_group_ignores_time_reversal : forall (C : numClosedFieldType) (E : numpy C) (G : trig C) L rots trans flags k D
    method rtol atol max_num r lm,
  size trans = size rots -> has_denominator D k -> Qle (inject_Z Z0) atol -> Qlt (Qmult (inject_Z (Zpos D)) atol) (inject_Z 1%coqZ) ->
  get_magnetic_spinor_irreps_from_primitive_symmetry E G L rots trans flags k method rtol atol max_num = COk (r, lm) ->
  forall i, In i lm <-> (i < size rots)%N /\ fixes_kpoint k (List.nth i rots mid).
Proof.
move=> C E G L rots trans flags k D method rtol atol max_num r lm LE HD A0 A1.
rewrite /get_magnetic_spinor_irreps_from_primitive_symmetry; case: (not_primitive _ _ _) => //.
case EL: (get_little_group _ _ _ _) => [[lr lt] l0]; case: (enumerate_spinor_small_corepresentations _ _ _ _ _ _ _ _ _ _ _) => //= x [_ <-] i.
have [_ [h _]] := little_group_spec _ _ _ _ _ _ _ LE EL.
by split=> [/h [/ssrnat.ltP hi /(keeps_kpoint_exact D atol k _ HD A0 A1) hk]|[/ssrnat.ltP hi /(keeps_kpoint_exact D atol k _ HD A0 A1) hk]] //; apply/h.
Qed.
Print Assumptions C54_little_group_ignores_time_reversal.
(** So every anti-unitary operation whose rotation fixes k is kept although it maps k to -k,
    unless 2k is a reciprocal lattice vector. *)
Theorem C54_kept_refuted : forall (C : numClosedFieldType) (E : numpy C) (G : trig C) L rots trans flags k D
    method rtol atol max_num r lm i,
  size trans = size rots -> has_denominator D k -> Qle (inject_Z Z0) atol -> Qlt (Qmult (inject_Z (Zpos D)) atol) (inject_Z 1%coqZ) ->
  get_magnetic_spinor_irreps_from_primitive_symmetry E G L rots trans flags k method rtol atol max_num = COk (r, lm) ->
  (i < size rots)%N -> List.nth i flags false = true -> fixes_kpoint k (List.nth i rots mid) -> ~ vint (vadd k k) ->
  In i lm /\ ~ mag_fixes_kpoint k (List.nth i rots mid, List.nth i flags false).
Proof.
move=> C E G L rots trans flags k D method rtol atol max_num r lm i LE HD A0 A1 H hi fi fk k2; split.
  by apply/(C54_little_group_ignores_time_reversal LE HD A0 A1 H).
by rewrite /mag_fixes_kpoint fi /= => /(anti_fixes _ _ fk).
Qed.
Print Assumptions C54_kept_refuted.
(** And every anti-unitary operation that maps k to k is lost. *)
Theorem C54_lost_refuted : forall (C : numClosedFieldType) (E : numpy C) (G : trig C) L rots trans flags k D
    method rtol atol max_num r lm i,
  size trans = size rots -> has_denominator D k -> Qle (inject_Z Z0) atol -> Qlt (Qmult (inject_Z (Zpos D)) atol) (inject_Z 1%coqZ) ->
  get_magnetic_spinor_irreps_from_primitive_symmetry E G L rots trans flags k method rtol atol max_num = COk (r, lm) ->
  List.nth i flags false = true -> mag_fixes_kpoint k (List.nth i rots mid, List.nth i flags false) -> ~ vint (vadd k k) ->
  ~ In i lm.
Proof.
move=> C E G L rots trans flags k D method rtol atol max_num r lm i LE HD A0 A1 H fi.
rewrite /mag_fixes_kpoint fi /= => fk k2 /(C54_little_group_ignores_time_reversal LE HD A0 A1 H) [_].
exact: (lost_fixes _ _ fk k2).
Qed.
Print Assumptions C54_lost_refuted.
(** Where k R = k or - k modulo the reciprocal lattice and 2k = 0 the choice is right. *)
Theorem C54_time_reversal_invariant : forall (C : numClosedFieldType) (E : numpy C) (G : trig C) L rots trans flags k D
    method rtol atol max_num r lm,
  size trans = size rots -> has_denominator D k -> Qle (inject_Z Z0) atol -> Qlt (Qmult (inject_Z (Zpos D)) atol) (inject_Z 1%coqZ) ->
  get_magnetic_spinor_irreps_from_primitive_symmetry E G L rots trans flags k method rtol atol max_num = COk (r, lm) ->
  vint (vadd k k) ->
  forall i, In i lm <-> (i < size rots)%N /\ mag_fixes_kpoint k (List.nth i rots mid, List.nth i flags false).
Proof.
move=> C E G L rots trans flags k D method rtol atol max_num r lm LE HD A0 A1 H k2 i.
rewrite (C54_little_group_ignores_time_reversal LE HD A0 A1 H) /mag_fixes_kpoint /=.
by case: (List.nth i flags false) => //; rewrite (both_fix _ _ k2).
Qed.
Print Assumptions C54_time_reversal_invariant.
(** P2' on the line (0,v,0) keeps 2'; P-1' at a general point loses -1'. *)
Example C54_hypotheses_met : let two := Mat (-1) 0 0 0 1 0 0 0 (-1) in let inv := Mat (-1) 0 0 0 (-1) 0 0 0 (-1) in
  let k := Vec (inject_Z 0%coqZ) (Qmake 1 3) (inject_Z 0%coqZ) in let k' := Vec (Qmake 1 3) (Qmake 1 5) (Qmake 2 5) in
  [/\ has_denominator 3 k, fixes_kpoint k two, ~ vint (vadd k k), has_denominator 15 k' &
      mag_fixes_kpoint k' (inv, true) /\ ~ vint (vadd k' k')].
Proof. exact: anti_examples. Qed.
