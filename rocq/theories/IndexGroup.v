(** The finite group carried by an index multiplication, and the translation between
    index-level and group-level representations. *)
From mathcomp Require Import all_ssreflect all_algebra all_fingroup.
From Verif Require Import GroupSpec RepSpec RepTheory IndexRepSpec.
Import Order.TTheory GRing.Theory Num.Theory.
Set Implicit Arguments.
Unset Strict Implicit.
Unset Printing Implicit Defensive.
Local Open Scope ring_scope.

Section IG.
Variables (n : nat) (mul : nat -> nat -> nat) (e : nat).
Hypothesis G : group_law n mul e.

Lemma ig_closed (x y : 'I_n) : (mul x y < n)%N.
Proof. by apply/ssrnat.ltP; apply: (gl_closed _ _ _ G); apply/ssrnat.ltP; apply: ltn_ord. Qed.
Lemma ig_e : (e < n)%N. Proof. exact/ssrnat.ltP/(gl_e _ _ _ G). Qed.
Definition ig_mul (x y : 'I_n) : 'I_n := Ordinal (ig_closed x y).
Definition ig_one : 'I_n := Ordinal ig_e.
Definition ig_inv (x : 'I_n) : 'I_n := if [pick y | ig_mul y x == ig_one] is Some y then y else x.
Lemma ig_assoc : associative ig_mul.
Proof.
move=> x y z; apply: val_inj => /=.
by apply: (gl_assoc _ _ _ G); apply/ssrnat.ltP; apply: ltn_ord.
Qed.
Lemma ig_1l : left_id ig_one ig_mul.
Proof. by move=> x; apply: val_inj => /=; apply: (gl_1l _ _ _ G); apply/ssrnat.ltP; apply: ltn_ord. Qed.
Lemma ig_Vl : left_inverse ig_one ig_inv ig_mul.
Proof.
move=> x; rewrite /ig_inv; case: pickP => [y /eqP //|ne].
have [y [yn [_ h]]] := gl_inv _ _ _ G x (elimT ssrnat.ltP (ltn_ord x)).
have := ne (Ordinal (introT ssrnat.ltP yn)); case/negP; apply/eqP; exact: val_inj.
Qed.
Definition ig_mixin := FinGroup.Mixin ig_assoc ig_1l ig_Vl.
Definition ig_base : baseFinGroupType := @BaseFinGroupType 'I_n ig_mixin.
Definition igT : finGroupType := @FinGroupType ig_base ig_Vl.
Definition ival (x : igT) : nat := val (x : 'I_n).
Lemma ival_inj : injective ival. Proof. by move=> x y /val_inj. Qed.
Lemma ival_lt x : (ival x < n)%N. Proof. exact: ltn_ord. Qed.
Lemma ival_card : #|igT| = n. Proof. exact: card_ord. Qed.
Lemma ivalM x y : ival (x * y)%g = mul (ival x) (ival y). Proof. by []. Qed.
Lemma ival1 : ival 1%g = e. Proof. by []. Qed.
Lemma ival_surj i : (i < n)%N -> exists g, ival g = i.
Proof. by move=> h; exists (Ordinal h : igT). Qed.

Variable C : numClosedFieldType.
Variable mu : nat -> nat -> C.
Definition imu (x y : igT) := mu (ival x) (ival y).
Lemma ifs_fs : ifactor_system n mul e mu -> factor_system imu.
Proof.
case=> h1 h2 h3; split.
- by move=> x y z; rewrite /imu !ivalM h1 ?ival_lt.
- by move=> x y; rewrite /imu h2 ?ival_lt.
- by rewrite /imu ival1.
Qed.
Let S := [set: igT].
Lemma iprojrepE d (D : nat -> 'M[C]_d) : iprojrep n mul e mu D <-> projrep imu S (fun g => D (ival g)).
Proof.
split=> [[h1 h2]|[h1 h2]]; split=> //.
- by move=> x y _ _; rewrite h2 ?ival_lt.
- by move=> i j /ival_surj [x <-] /ival_surj [y <-]; rewrite h2 ?inE.
Qed.
Lemma iunitaryE d (D : nat -> 'M[C]_d) : iunitary n D <-> unirep S (fun g => D (ival g)).
Proof.
split=> h; first by move=> x _; apply: h; apply: ival_lt.
by move=> i /ival_surj [x <-]; apply: h; rewrite inE.
Qed.
Lemma iirreducibleE d (D : nat -> 'M[C]_d) : iirreducible n D <-> irreducible S (fun g => D (ival g)).
Proof.
split=> -[d0 h]; split=> // m W iW; apply: h.
  by move=> i /ival_surj [x <-]; apply: iW; rewrite inE.
by move=> x _; apply: iW; apply: ival_lt.
Qed.
Lemma iequivalentE d1 d2 (D1 : nat -> 'M[C]_d1) (D2 : nat -> 'M[C]_d2) :
  iequivalent n D1 D2 <-> equivalent S (fun g => D1 (ival g)) (fun g => D2 (ival g)).
Proof.
split=> -[T [T' [h1 h2 h3]]]; exists T, T'; split=> //.
  by move=> x _; apply: h3; apply: ival_lt.
by move=> i /ival_surj [x <-]; apply: h3; rewrite inE.
Qed.
Lemma icipE d1 d2 (D1 : nat -> 'M[C]_d1) (D2 : nat -> 'M[C]_d2) :
  icip n D1 D2 = cip S (fun g => D1 (ival g)) (fun g => D2 (ival g)).
Proof. by rewrite /icip /cip; apply: eq_bigl => x; rewrite inE. Qed.
(** Every group-level representation is one of the index level. *)
Definition irestr d (F : igT -> 'M[C]_d) (i : nat) : 'M[C]_d :=
  if insub i : option 'I_n is Some x then F x else 0.
Lemma irestrE d (F : igT -> 'M[C]_d) g : irestr F (ival g) = F g.
Proof. by rewrite /irestr /ival valK. Qed.
End IG.
