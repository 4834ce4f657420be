(** Multiplying a projective representation by phases: everything is preserved, with the
    factor system changed by a coboundary. *)
From mathcomp Require Import all_ssreflect all_algebra.
From Verif Require Import GroupSpec RepSpec RepTheory IndexRepSpec.
Import Order.TTheory GRing.Theory Num.Theory.
Set Implicit Arguments.
Unset Strict Implicit.
Unset Printing Implicit Defensive.
Local Open Scope ring_scope.

Section Gauge.
Variables (C : numClosedFieldType) (n : nat) (mul : nat -> nat -> nat) (e : nat).
Hypothesis closed : forall i j, (i < n)%N -> (j < n)%N -> (mul i j < n)%N.
Variables (mu nu : nat -> nat -> C) (c : nat -> C).
Hypotheses (c1 : c e = 1) (cn : forall i, (i < n)%N -> `|c i| = 1).
Hypothesis nuE : forall i j, (i < n)%N -> (j < n)%N -> nu i j * c (mul i j) = c i * c j * mu i j.
Local Notation sc D := (fun i => c i *: D i).

Lemma gauge_rep d (D : nat -> 'M[C]_d) : iprojrep n mul e mu D -> iprojrep n mul e nu (sc D).
Proof.
case=> h1 h2; split=> [|i j hi hj]; first by rewrite c1 scale1r.
by rewrite -scalemxAl -scalemxAr h2 // !scalerA nuE.
Qed.
Lemma gauge_unitary d (D : nat -> 'M[C]_d) : iunitary n D -> iunitary n (sc D).
Proof.
by move=> u i hi; rewrite adjZ -scalemxAl -scalemxAr u // scalerA norm1_mul_conj ?scale1r // cn.
Qed.
Lemma gauge_inv d (D : nat -> 'M[C]_d) m (W : 'M[C]_(d, m)) i : (i < n)%N ->
  (exists Y, c i *: D i *m W = W *m Y) <-> (exists Y, D i *m W = W *m Y).
Proof.
move=> hi; have ci := norm1_neq0 (cn hi); split=> -[Y h].
  by exists ((c i)^-1 *: Y); rewrite -scalemxAr -h -scalemxAl scalerA mulVf // scale1r.
by exists (c i *: Y); rewrite -scalemxAl h scalemxAr.
Qed.
Lemma gauge_irr d (D : nat -> 'M[C]_d) : iirreducible n D <-> iirreducible n (sc D).
Proof.
split=> -[d0 h]; split=> // m W inv; apply: h => i hi.
  by apply/(gauge_inv D W hi); apply: inv.
by apply/(gauge_inv D W hi); apply: inv.
Qed.
Lemma gauge_equiv d1 d2 (D1 : nat -> 'M[C]_d1) (D2 : nat -> 'M[C]_d2) :
  iequivalent n D1 D2 <-> iequivalent n (sc D1) (sc D2).
Proof.
split=> -[T [T' [h1 h2 h3]]]; exists T, T'; split=> // i hi.
  by rewrite -scalemxAl -scalemxAr h3.
have := h3 i hi; rewrite -scalemxAl -scalemxAr => /(congr1 (fun M => (c i)^-1 *: M)).
by rewrite !scalerA mulVf ?scale1r // norm1_neq0 // cn.
Qed.
Lemma gauge_cip d1 d2 (D1 : nat -> 'M[C]_d1) (D2 : nat -> 'M[C]_d2) : icip n (sc D1) (sc D2) = icip n D1 D2.
Proof.
apply: eq_bigr => i _; rewrite !mxtraceZ rmorphM /= mulrACA [_ * c i]mulrC norm1_mul_conj ?mul1r //.
exact: cn.
Qed.
End Gauge.

Section Complete.
Variables (C : numClosedFieldType) (n : nat) (mul : nat -> nat -> nat) (e : nat).
Hypothesis closed : forall i j, (i < n)%N -> (j < n)%N -> (mul i j < n)%N.
Variables (mu nu : nat -> nat -> C) (c : nat -> C).
Hypotheses (c1 : c e = 1) (cn : forall i, (i < n)%N -> `|c i| = 1).
Hypothesis nuE : forall i j, (i < n)%N -> (j < n)%N -> nu i j * c (mul i j) = c i * c j * mu i j.

Lemma gauge_complete N dim (D : forall k, nat -> 'M[C]_(dim k)) :
  complete_irreps n mul e mu N D -> complete_irreps n mul e nu N (fun k i => c i *: D k i).
Proof.
case=> h1 h2 h3 h4 h5 h6 h7; split=> //.
- by move=> k kN; apply: gauge_rep (h1 k kN).
- by move=> k kN; apply: gauge_unitary (h2 k kN).
- by move=> k kN; apply: (proj1 (gauge_irr cn (D k))); apply: h3.
- by move=> k l kN lN kl h; apply: (h4 k l kN lN kl); apply: (proj2 (gauge_equiv cn (D k) (D l))).
- by move=> k l kN lN; rewrite gauge_cip //; apply: h5.
move=> d F pF iF; pose F' i := (c i)^-1 *: F i.
have cn' i : (i < n)%N -> `|(c i)^-1| = 1 by move=> hi; rewrite normfV cn // invr1.
have FE i : (i < n)%N -> c i *: F' i = F i by move=> hi; rewrite /F' scalerA divff ?scale1r // norm1_neq0 // cn.
have pF' : iprojrep n mul e mu F'.
  apply: (gauge_rep (mu := nu) (c := fun i => (c i)^-1)) pF => [|i j hi hj]; first by rewrite c1 invr1.
  have ci := norm1_neq0 (cn hi); have cj := norm1_neq0 (cn hj).
  have cij := norm1_neq0 (cn (closed hi hj)).
  have -> : nu i j = c i * c j * mu i j / c (mul i j) by rewrite -nuE // mulfK.
  by rewrite mulrA mulrA; congr (_ / _); rewrite mulrACA mulVf // mulVf // mulr1 mul1r.
have iF' : iirreducible n F' by apply: (proj1 (gauge_irr (c := fun i => (c i)^-1) cn' F)).
have eqE k : iequivalent n (fun i => c i *: D k i) F <-> iequivalent n (D k) F'.
  split=> [[T [T' [e1 e2 e3]]]|/(proj1 (gauge_equiv cn (D k) F')) [T [T' [e1 e2 e3]]]].
    by apply: (proj2 (gauge_equiv cn (D k) F')); exists T, T'; split=> // i hi; rewrite FE // e3.
  by exists T, T'; split=> // i hi; rewrite e3 // FE.
have [k [kN eq uniq]] := h6 d F' pF' iF'; exists k; split=> //; first exact/eqE.
by move=> l lN /eqE; apply: uniq.
Qed.
End Complete.
