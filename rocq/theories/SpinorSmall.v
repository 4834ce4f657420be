(** Spinor small representations: the outcome of the enumeration. *)
From Coq Require Import QArith ZArith List Lia String.
From mathcomp Require Import all_ssreflect all_algebra all_fingroup.
From Verif Require Import Py Mat3 MatQ GroupModel GroupSpec GroupProofs SpaceGroupProofs RepSpec RepModel CExpSpec RepTheory IndexRepSpec ChainModel
  ChainTheory SmallModel PurifyTheory SmallSpec GaugeTheory SmallTheory SpinorModel SpinorSpec SpinorTheory SpinorProofs ClaimsChain ClaimsRandom.
Import Order.TTheory GRing.Theory Num.Theory.
Set Implicit Arguments.
Unset Strict Implicit.
Unset Printing Implicit Defensive.
Local Open Scope ring_scope.
Delimit Scope Z_scope with coqZ.

Lemma fs_mul (C : numClosedFieldType) n mul e (mu nu : nat -> nat -> C) :
  ifactor_system n mul e mu -> ifactor_system n mul e nu -> ifactor_system n mul e (fun i j => mu i j * nu i j).
Proof.
case=> c1 n1 o1 [c2 n2 o2]; split=> [i j k hi hj hk|i j hi hj|].
- by rewrite mulrACA c1 // c2 // mulrACA.
- by rewrite normrM n1 // n2 // mulr1.
- by rewrite o1 o2 mulr1.
Qed.

Section Twisted.
Variables (C : numClosedFieldType) (E : numpy C).
Hypothesis ce : exp_spec (np_exp E).
Variables (rots : list mat) (trans : list vec) (k : vec) (mul : nat -> nat -> nat) (e : nat).
Hypotheses (SG : lists_space_group rots trans) (M : multiplication rots mul e).
Hypothesis W0 : veq (List.nth e trans vzero) vzero.
Local Notation n := (size rots).
Local Notation cexp := (np_exp E).
Variable z : nat -> nat -> C.
Let LG := sg_rots _ _ SG.
Lemma twisted_complete L : complete_list rots mul e (fun i j => z i j * little_factor_system E rots trans k i j) L ->
  complete_list rots mul e (fun i j => z i j * bloch_factor cexp rots trans k mul i j) [seq apply_phases E trans k A | A <- L].
Proof.
have st : size trans = n by exact: sg_len SG.
have E0 m : arr_nth [seq apply_phases E trans k A | A <- L] m = apply_phases E trans k (arr_nth L m).
  have [h|h] := ltnP m (size L); first by rewrite /arr_nth (nth_map (@Arr C 0 [::])).
  by rewrite /arr_nth !nth_default ?size_map // /apply_phases /=; case: (trans).
move=> [h1 h2]; split.
  by move=> m; rewrite size_map => hm; rewrite E0 /aorder /apply_phases /= size_map size_zip -/(aorder _) h1 // st minnn.
rewrite size_map; apply: (arr_irreps (A := fun m => apply_phases E trans k (arr_nth L m))); first by [].
have G := mult_group_law LG M.
have BG i j : (i < n)%N -> (j < n)%N -> z i j * bloch_factor cexp rots trans k mul i j * cexp (Qopp (vdot k (List.nth (mul i j) trans vzero)))
  = cexp (Qopp (vdot k (List.nth i trans vzero))) * cexp (Qopp (vdot k (List.nth j trans vzero))) *
    (z i j * little_factor_system E rots trans k i j).
  by move=> hi hj; rewrite -mulrA (bloch_gauge ce) // mulrCA.
have := gauge_complete (c := fun i => cexp (Qopp (vdot k (List.nth i trans vzero)))) (mt_lt M) (phase_e ce k W0) (fun i _ => ce_norm ce _) BG h2.
apply: complete_eq => // m i hm hi; rewrite apply_phases_nth // h1 // ?st //.
Qed.
End Twisted.

Section Outcome.
Variables (C : numClosedFieldType) (E : numpy C) (G : trig C) (rtol atol : Q).
Hypotheses (NO : numpy_ok E rtol atol) (A3 : Qle atol (Qmake 1 3)) (EO : eig_ok E) (GO : trig_ok G).
Variable lattice : 'M[C]_3.
Hypothesis LO : lattice_ok lattice.
Local Notation eps := (qC C atol).
Variables (rots : list mat) (trans : list vec) (k : vec) (mul : nat -> nat -> nat) (e : nat).
Hypotheses (SG : lists_space_group rots trans) (FK : forall r, In r rots -> fixes_kpoint k r).
Hypothesis PM : forall r, In r rots -> preserves_metric lattice r.
Hypothesis M : multiplication rots mul e.
Hypothesis W0 : veq (List.nth e trans vzero) vzero.
Local Notation n := (size rots).

Lemma spinor_small_outcome method max_num : method_ok E rots method ->
  exists z, get_spinor_factor_system E G lattice rots = Ret (z, List.map (spin_of E G lattice) rots) /\
  let U := List.map (spin_of E G lattice) rots in
  let f := enumerate_spinor_small_representations E G lattice rots trans k method rtol atol max_num in
  [\/ f = CWarn /\ method = "Neto"%string /\ unlucky_samples n (np_rnd E) eps max_num,
      f = COk ([::], z, U, false) /\ method = "random"%string,
      f = CExn ValueError /\ exists A A' L, [/\ complete_list rots mul e (fun i j => z i j * little_factor_system E rots trans k i j) L, List.In A' L, near eps A A' &
        1 < np_int E (fs_number A)] |
      exists L L', [/\ f = COk (L, z, U, true),
        complete_list rots mul e (fun i j => z i j * bloch_factor (np_exp E) rots trans k mul i j) L' & near_list eps L L']].
Proof.
move=> mok; have LG := sg_rots _ _ SG.
have [z [zE zs]] := spinor_factor_system EO GO LO PM LG M; exists z; split; first exact: zE.
move=> U f; rewrite /f /enumerate_spinor_small_representations zE.
have E0 A B (x : A) (g : A -> cres B) : cbind (clift (Ret x)) g = g x by [].
rewrite E0 [(z, _).1]/= [(z, _).2]/= -/U.
have fs := fs_mul (spin_fs EO GO LO PM M zs) (little_fs (or_cexp (no_oracles NO)) SG FK M).
have a0 : 0 <= eps := or_atol (no_oracles NO).
clearbody U; clear zE zs f.
case: (unitary_outcome NO A3 LG M max_num fs mok) => [[-> h]|[-> h]|[L [cl [nr hh]]]] /=.
- exact: Or41.
- exact: Or42.
case: hh => [[-> h]|[-> [m [hm hi]]]] /=; last first.
  apply: Or43; split=> //; have [szp nrp] := nr.
  rewrite szp in hm; exists (arr_nth [seq purify_irrep_value E eps A | A <- L] m), (arr_nth L m), L; split; [exact: cl|exact: arr_nth_in| |exact: hi].
  by apply: nrp; rewrite szp.
apply: Or44; eexists; exists [seq apply_phases E trans k A | A <- L]; split; first reflexivity.
- exact: (twisted_complete (or_cexp (no_oracles NO)) SG M W0 cl).
rewrite -map_comp; apply: near_list_map => A; apply: (near_phases NO) => //; exact: near_purify NO A3 A.
Qed.
End Outcome.
