(** A list of unitary representations with orthonormal characters that meets every
    representation is a full list of irreducible representations. *)
From mathcomp Require Import all_ssreflect all_algebra all_fingroup.
From Verif Require Import GroupSpec RepSpec RepTheory IsoTheory IndexRepSpec IndexGroup.
Import Order.TTheory GRing.Theory Num.Theory.
Set Implicit Arguments.
Unset Strict Implicit.
Unset Printing Implicit Defensive.
Local Open Scope ring_scope.

Section Complete.
Variables (n : nat) (mul : nat -> nat -> nat) (e : nat) (G : group_law n mul e).
Variables (C : numClosedFieldType) (mu : nat -> nat -> C).
Hypothesis imufs : ifactor_system n mul e mu.
Variables (N : nat) (dim : nat -> nat) (D : forall k, nat -> 'M[C]_(dim k)).
Hypothesis pD : forall k, (k < N)%N -> iprojrep n mul e mu (D k).
Hypothesis uD : forall k, (k < N)%N -> iunitary n (D k).
Hypothesis oD : forall k l, (k < N)%N -> (l < N)%N -> icip n (D k) (D l) = if k == l then n%:R else 0.
Hypothesis cD : forall m (B : nat -> 'M[C]_m), (0 < m)%N -> iprojrep n mul e mu B ->
  exists k, (k < N)%N /\ icip n (D k) B != 0.

Lemma complete_from_orth : complete_irreps n mul e mu N D.
Proof.
have mufs := ifs_fs G imufs.
have cT : #|[set: igT G]| = n by rewrite cardsT ival_card.
have pg k : (k < N)%N -> projrep (@imu _ _ _ G C mu) [set: igT G] (fun g => D k (ival g)) by move/pD/(iprojrepE G).
have ug k : (k < N)%N -> unirep [set: igT G] (fun g => D k (ival g)) by move/uD/(iunitaryE G).
have ng k : (k < N)%N -> cip [set: igT G] (fun g => D k (ival g)) (fun g => D k (ival g)) = #|[set: igT G]|%:R.
  by move=> kN; rewrite -icipE oD // eqxx cT.
have ig k : (k < N)%N -> irreducible [set: igT G] (fun g => D k (ival g)).
  by move=> kN; apply: (norm1_irreducible mufs (pg _ kN) (ug _ kN) (ng _ kN)).
have ineq k l : (k < N)%N -> (l < N)%N -> k <> l -> ~ iequivalent n (D k) (D l).
  move=> kN lN /eqP kl /(iequivalentE G) eq.
  have := equivalent_cip (ng _ kN) eq; rewrite -icipE oD // (negbTE kl) cT => /eqP.
  rewrite eq_sym pnatr_eq0; have := ig_e G; by case: (n).
split=> //.
- by move=> k kN; apply/(iirreducibleE G); exact: ig.
- move=> d F pF iF; have d0 := iF.1.
  have [k [kN nz]] := cD d0 pF.
  have eq : iequivalent n (D k) F.
    apply/(iequivalentE G); apply: (cip_neq0_equivalent mufs (pg _ kN) (ug _ kN) (ig _ kN)).
    - exact/(iprojrepE G).
    - exact/(iirreducibleE G).
    - by rewrite -icipE.
  exists k; split=> // l lN eq'; case: (l =P k) => // lk.
  case: (ineq l k lN kN lk); apply/(iequivalentE G).
  move/(iequivalentE G): eq' => eq'; move/(iequivalentE G): eq => eq.
  by apply: (equivalent_trans eq'); exact: (equivalent_sym eq).
- rewrite -(ival_card G).
  apply: (@sum_squares _ _ (@imu _ _ _ G C mu) mufs _ (fun k : 'I_N => dim k) (fun k g => D k (ival g))).
  + by move=> k; exact: pg.
  + by move=> k; exact: ug.
  + by move=> k; exact: ng.
  + by move=> k l kl; rewrite -icipE oD // -[(_ == _ :> nat)]/(k == l) (negbTE kl).
  + move=> m B m0 pB; have [|k [kN nz]] := @cD m (irestr B) m0.
      apply/(iprojrepE G); case: pB => h1 h2; split=> [|x y xS yS]; rewrite ?irestrE //.
      exact: h2.
    exists (Ordinal kN) => /=; move: nz; rewrite (icipE G).
    by apply: contraNneq => <-; apply/eqP; apply: eq_bigr => s _; rewrite irestrE.
Qed.
End Complete.
