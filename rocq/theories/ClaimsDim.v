(** Property C55: dimensions of the irreducible representations. *)
From Coq Require Import QArith ZArith List String Lia Sorted.
From mathcomp Require Import all_ssreflect all_algebra all_fingroup algC.
From Verif Require Import Py Mat3 MatQ GroupSpec GroupModel GroupProofs GroupProofs2 PointGroupData PointGroupModel PointGroupProofs ChainSpec ChainProofs
  RepSpec RepTheory IndexRepSpec RepModel IndexGroup CExpSpec ExpInstance ChainModel ChainLoop ClaimsChain
  SmallModel SmallSpec SmallTheory ClaimsSmall DimTheory PointDims.
From Verif Require Import SpinorModel SpinorSpec SpinorTheory SpinorProofs SmallExamples ClaimsSpinor.
Import Order.TTheory GRing.Theory Num.Theory.
Set Implicit Arguments.
Unset Strict Implicit.
Unset Printing Implicit Defensive.
Local Open Scope ring_scope.

(** Every irreducible projective representation of a group with a chain of normal subgroups
    has a dimension which divides the order of the group. *)
Theorem C55_dimension_divides : forall (C : numClosedFieldType) n t e mu gens d (D : nat -> 'M[C]_d),
  wf_table n t -> group_law n (tget t) e -> ifactor_system n (tget t) e mu -> chain_of_group n (tget t) e gens ->
  iprojrep n (tget t) e mu D -> iirreducible n D -> (d %| n)%N.
Proof.
move=> C n t e mu gens d D W G fs [F [ns Fx]] pD iD.
have [ds dF] := dim_series_exists (fun _ _ => false) ns [:: 1%N].
have d1 : forall x, List.In x [:: 1%N] -> (x %| size [:: e])%N by move=> x [<-|[]].
have sF : size F = n.
  have sub : ChainSpec.subgroup n (tget t) e F.
    have s0 : ChainSpec.subgroup n (tget t) e [:: e].
      split; [by repeat constructor; case|by move=> x [<-|[]]; exact: (gl_e _ _ _ G)|by left|].
      by move=> x y [<-|[]] [<-|[]]; left; rewrite (gl_1l _ _ _ G) //; exact: (gl_e _ _ _ G).
    by move: s0; elim: ns => [//|H r K rs F' ce _ IH _]; apply: IH; case: ce.
  have un : uniq F by apply: NoDup_uniq; case: sub.
  rewrite -(size_iota 0 n); apply/perm_size/uniq_perm; [by []|exact: iota_uniq|].
  move=> x; rewrite mem_iota add0n /=; apply/idP/idP => [/InP/Fx/ssrnat.ltP //|/ssrnat.ltP/Fx/InP].
  by [].
rewrite -[X in (_ %| X)%N]sF; apply: (dim_series_divides dF d1).
by apply: (irrep_dims W G fs _ dF Fx pD iD).
Qed.

(** The arrays returned by the chain method. *)
Corollary C55_chain_dimensions : forall (C : numClosedFieldType) around cpowinv nroot rnd cexp atol max_num n t e mu gens L b k,
  @oracles C around cpowinv nroot cexp atol ->
  wf_table n t -> group_law n (tget t) e -> ifactor_system n (tget t) e mu -> chain_of_group n (tget t) e gens ->
  enumerate_unitary_irreps_from_solvable_group_chain around cpowinv nroot rnd cexp t mu atol max_num gens = COk (L, b) ->
  (k < size L)%N -> (adim (lget L k) %| n)%N.
Proof.
move=> C around cpowinv nroot rnd cexp atol max_num n t e mu gens L b k O W G fs ch.
case: (C22_C24_chain_outcome rnd max_num O W G fs ch) => [[-> //]|[L' [-> [_ ci]]] [<- _] kl].
exact: (C55_dimension_divides W G fs ch (ci_rep ci kl) (ci_irreducible ci kl)).
Qed.

Lemma near_dims (C : numClosedFieldType) (eps : C) L L' k : near_list eps L L' -> (k < size L)%N ->
  (k < size L')%N /\ adim (arr_nth L k) = adim (arr_nth L' k).
Proof. by case=> e1 h kl; rewrite -e1; split=> //; have [d [ms [ns [-> -> _ _]]]] := h k kl. Qed.

(** Point groups: the irreps returned for a crystallographic point group are of dimension 1,
    2 or 3, whichever method produced them. *)
Theorem C55_pointgroup : forall (C : numClosedFieldType) (E : numpy C) rtol atol rots mul e method max_num L k,
  numpy_ok E rtol atol -> Qle atol (Qmake 1 3) ->
  (size rots)%:R * (2%:R * qC C atol + qC C atol ^+ 2) < 2%:R^-1 ->
  lists_group rots -> multiplication rots mul e -> method_ok E rots method -> spglib_ok E rots ->
  get_crystallographic_pointgroup_irreps_from_symmetry E rots false method rtol atol max_num = COk (L, true) ->
  (k < size L)%N -> List.In (adim (arr_nth L k)) [:: 1; 2; 3]%N.
Proof.
move=> C E rtol atol rots mul e method max_num L k NO A3 sm LG M mok sp h kl.
have := C29_pointgroup_irreps max_num NO A3 sm LG M mok; cbv zeta; rewrite h.
case=> [[]//|[]//|[L1 [L' [[<-] [_ ci] nr]]]].
have [kl' ->] := near_dims nr kl; exact: (point_linear_dims LG M sp (ci_rep ci kl') (ci_irreducible ci kl')).
Qed.

(** Small representations at any k-point fixed by the operations: 1, 2, 3, 4 or 6. *)
Theorem C55_small_representations : forall (C : numClosedFieldType) (E : numpy C) rtol atol rots trans k mul e method max_num L inds j,
  numpy_ok E rtol atol -> Qle atol (Qmake 1 3) ->
  lists_space_group rots trans -> (forall r, List.In r rots -> fixes_kpoint k r) ->
  multiplication rots mul e -> veq (List.nth e trans vzero) vzero -> method_ok E rots method -> spglib_ok E rots ->
  enumerate_small_representations E rots trans k false method rtol atol max_num = COk (L, inds, true) ->
  (j < size L)%N -> List.In (adim (arr_nth L j)) [:: 1; 2; 3; 4; 6]%N.
Proof.
move=> C E rtol atol rots trans k mul e method max_num L inds j NO A3 SG FK M W0 mok sp h jl.
have := C27_small_representations max_num NO A3 SG FK M W0 mok; cbv zeta; rewrite h.
case=> [[]//|[]//|[]//|[L1 [L' [inds' [[<- _] [_ ci] nr _]]]]].
have [jl' ->] := near_dims nr jl.
have fs := rep_fs (mult_group_law (sg_rots _ _ SG) M) (proj1 (ci_irreducible ci jl')) (ci_rep ci jl') (ci_unitary ci jl').
exact: (point_any_dims (sg_rots _ _ SG) M sp fs (ci_rep ci jl') (ci_irreducible ci jl')).
Qed.

Lemma inversion_commutes (b : mat) : mmul b (mneg mid) = mmul (mneg mid) b.
Proof. destruct b; unfold mmul, mneg; cbn -[Z.mul Z.add Z.opp]; f_equal; ring. Qed.
(** The inversion acts on spin as 1 or -1, hence commutes with every spin rotation. *)
Lemma spin_inversion (C : numClosedFieldType) (L : 'M[C]_3) rots S zeta b : lattice_ok L -> spin_system L rots S zeta ->
  List.In (mneg mid) rots -> List.In b rots -> List.In (mmul (mneg mid) b) rots ->
  zeta (mneg mid) b = zeta b (mneg mid).
Proof.
move=> LO ss hI hb hIb.
have cI : is_cartesian L (mneg mid) (- 1%:M).
  by rewrite /is_cartesian mulNmx mul1mx mC_neg mC_id mulmxN mulmx1.
have := ss_spin ss hI cI.
have -> : zC C (mdet (mneg mid)) *: (- 1%:M : 'M[C]_3) = 1%:M by rewrite /zC /= scaleN1r opprK.
move=> /(lift_unique (lift_one C)) SI.
have comm : S (mneg mid) *m S b = S b *m S (mneg mid).
  by case: SI => h; [rewrite -h mul1mx mulmx1|rewrite -[S (mneg mid)]opprK -h mulNmx mulmxN mul1mx mulmx1].
have := ss_mul ss hI hb; rewrite comm (ss_mul ss hb hI).
rewrite inversion_commutes.
have uL : L^T \in unitmx by rewrite unitmx_tr; case: LO.
have [uS _ _] : spin_lift (S (mmul (mneg mid) b)) (zC C (mdet (mmul (mneg mid) b)) *: (L^T *m mC C (mmul (mneg mid) b) *m invmx L^T)).
  by apply: (ss_spin ss hIb); rewrite /is_cartesian mulmxKV.
move=> /(congr1 (fun X : 'M[C]_2 => (X *m adj (S (mmul (mneg mid) b))) 0 0)).
by rewrite -!scalemxAl uS !mxE !eqxx !mulr1 => ->.
Qed.

(** Spinor irreps of a point group: at most 4. *)
Theorem C55_spinor_pointgroup : forall (C : numClosedFieldType) (E : numpy C) (G : trig C) rtol atol L rots mul e method max_num X z U k,
  numpy_ok E rtol atol -> eig_ok E -> trig_ok G -> lattice_ok L -> Qle atol (Qmake 1 3) ->
  (size rots)%:R * (2%:R * qC C atol + qC C atol ^+ 2) < 2%:R^-1 ->
  lists_group rots -> multiplication rots mul e -> (forall r, List.In r rots -> preserves_metric L r) ->
  method_ok E rots method -> spglib_ok E rots ->
  get_crystallographic_pointgroup_spinor_irreps_from_symmetry E G L rots method rtol atol max_num = COk (X, z, U, true) ->
  (k < size X)%N -> List.In (adim (arr_nth X k)) [:: 1; 2; 3; 4]%N.
Proof.
move=> C E G rtol atol L rots mul e method max_num X z U k NO EO GO LO A3 sm LG M PM mok sp h kl.
have := C35_pointgroup max_num NO EO GO LO A3 sm LG M PM mok; cbv zeta; rewrite h.
move=> [S [zeta [z' [ss zE]]]]; case=> [[]//|[[]//]|[X1 [X' [[e1 e2 _] [_ ci] nr]]]]; subst X1 z'.
have [kl' ->] := near_dims nr kl.
have fs := rep_fs (mult_group_law LG M) (proj1 (ci_irreducible ci kl')) (ci_rep ci kl') (ci_unitary ci kl').
apply: (point_inversion_dims LG M sp fs _ (ci_rep ci kl') (ci_irreducible ci kl')) => i j hi hj ei.
have inr x : (x < size rots)%N -> List.In (List.nth x rots mid) rots by move=> hx; apply: List.nth_In; apply/ssrnat.ltP.
rewrite !zE // ei; have hI : List.In (mneg mid) rots by rewrite -ei; exact: inr.
exact: (spin_inversion LO ss hI (inr j hj) (lg_mul _ LG _ _ hI (inr j hj))).
Qed.

(** The bound 3 is attained: the point group 23 acting on vectors.  All hypotheses of the
    statements above are met by this group. *)
Definition tet_rots : list mat := match dict_get pg_dataset "23" with Ret (l :: _) => l | _ => nil end.
Definition tet_numpy : numpy algCF :=
  {| np_around := np_around ex_numpy; np_powinv := np_powinv ex_numpy; np_nroot := np_nroot ex_numpy; np_rnd := @unit_draw algCF;
     np_exp := np_exp ex_numpy; np_eigh := np_eigh ex_numpy; np_qr := np_qr ex_numpy; np_hrnd := np_hrnd ex_numpy;
     np_key_le := np_key_le ex_numpy; np_int := np_int ex_numpy; np_eig := np_eig ex_numpy;
     spglib_pointgroup := fun _ => ("23"%string, qid) |}.
Definition tet_transpose (r : mat) : mat := Mat (m11 r) (m21 r) (m31 r) (m12 r) (m22 r) (m32 r) (m13 r) (m23 r) (m33 r).
Lemma tet_orth : List.forallb (fun r => meqb (mmul r (tet_transpose r)) mid) tet_rots = true.
Proof. by vm_compute. Qed.
Lemma tet_traces : List.map mtrace tet_rots = [:: 3; -1; -1; -1; 0; 0; 0; 0; 0; 0; 0; 0]%coqZ.
Proof. by vm_compute. Qed.
Lemma tet_group : lists_group tet_rots.
Proof.
have [h _] := setting_facts "23" (match dict_get pg_dataset "23" with Ret s => s | _ => nil end) 0 tet_rots erefl erefl.
exact: h.
Qed.
Example C55_three_attained : exists mul e, let D := fun i => mC algCF (List.nth i tet_rots mid) in
  [/\ lists_group tet_rots, multiplication tet_rots mul e, spglib_ok tet_numpy tet_rots, numpy_ok tet_numpy (inject_Z Z0) (inject_Z Z0) &
      method_ok tet_numpy tet_rots "Neto"] /\
  [/\ iprojrep (size tet_rots) mul e (fun _ _ => 1) D, iirreducible (size tet_rots) D & size tet_rots = 12%N].
Proof.
have LG := tet_group; have [mul [e M]] := mult_exists LG; exists mul, e => D.
have sp : spglib_ok tet_numpy tet_rots.
  split; first by vm_compute.
    move=> r hr; apply: (qintegral_eq (qofz r)); last exact: qofz_integral.
    have q1 : qmeq (qinv qid) qid by vm_compute.
    by apply: qmeq_sym; rewrite -> q1, qmul_1l, qmul_1r; exact: qmeq_refl.
  exists (match dict_get pg_dataset "23" with Ret s => s | _ => nil end), tet_rots; split; [by []|by left|].
  have -> : List.map (conj_round qid) tet_rots = tet_rots by vm_compute.
  exact: Permutation.Permutation_refl.
split; first by split=> //; [have [h1 h2 h3] := ex_numpy_ok; split|left].
have inr i : (i < size tet_rots)%N -> List.In (List.nth i tet_rots mid) tet_rots by move=> hx; apply: List.nth_In; apply/ssrnat.ltP.
have pD : iprojrep (size tet_rots) mul e (fun _ _ => 1) D.
  split; first by rewrite /D (mt_id M) mC_id.
  by move=> i j hi hj; rewrite /D (mt_mul M) // mC_mul scale1r.
have uD : iunitary (size tet_rots) D.
  move=> i hi; have := proj1 (List.forallb_forall _ _) tet_orth _ (inr i hi) => /meqb_eq h.
  have -> : adj (D i) = mC algCF (tet_transpose (List.nth i tet_rots mid)).
    by rewrite /D; move: (List.nth i tet_rots mid) => r; apply: mx3P; split; rewrite /adj !mxE /= (CrealP (zC_real _ _)).
  by rewrite /D -mC_mul h mC_id.
split=> //; have G := mult_group_law LG M.
have fs : ifactor_system (size tet_rots) mul e (fun _ _ => 1 : algCF) by split=> *; rewrite ?normr1.
apply/(iirreducibleE G); apply: (norm1_irreducible (ifs_fs G fs) (H := [set: igT G]%G)).
- exact: (proj1 (iprojrepE G _ _) pD).
- exact: (proj1 (iunitaryE G _) uD).
rewrite /= cardsT ival_card -(icipE G D D) /icip.
have tr i : \tr (D i) = zC algCF (List.nth i (List.map mtrace tet_rots) (mtrace mid)) by rewrite List.map_nth mC_tr.
under eq_bigr => i _ do rewrite tr tet_traces (CrealP (zC_real _ _)).
have -> : size tet_rots = 12%N by vm_compute.
rewrite !big_ord_recl big_ord0 /= /zC !mulr0 !addr0 mulrNN mul1r -natrM -!natrD.
by [].
Qed.
Print Assumptions C55_dimension_divides.
Print Assumptions C55_chain_dimensions.
Print Assumptions C55_pointgroup.
Print Assumptions C55_small_representations.
Print Assumptions C55_spinor_pointgroup.
Print Assumptions C55_three_attained.
