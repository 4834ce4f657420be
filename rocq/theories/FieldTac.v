(** The standard library's [field] tactic on an algebraically closed numeric field. *)
From Coq Require Import Field.
From mathcomp Require Import all_ssreflect all_algebra.
Import GRing.Theory Num.Theory.
Local Open Scope ring_scope.

Section F.
Variable C : numClosedFieldType.
Definition f0 : C := 0.
Definition f1 : C := 1.
Definition fadd (x y : C) : C := x + y.
Definition fmul (x y : C) : C := x * y.
Definition fopp (x : C) : C := - x.
Definition fsub (x y : C) : C := x - y.
Definition finv (x : C) : C := x^-1.
Definition fdiv (x y : C) : C := x / y.
Lemma fth : field_theory f0 f1 fadd fmul fsub fopp fdiv finv (@eq C).
Proof.
split.
- split; rewrite /f0 /f1 /fadd /fmul /fopp /fsub.
  + exact: add0r.
  + exact: addrC.
  + exact: addrA.
  + exact: mul1r.
  + exact: mulrC.
  + exact: mulrA.
  + by move=> x y z; rewrite mulrDl.
  + by [].
  + exact: subrr.
- by apply/eqP; exact: oner_neq0.
- by [].
- by move=> x /eqP h; exact: mulVf.
Qed.
Lemma faddE x y : fadd x y = x + y. Proof. by []. Qed.
Lemma fmulE x y : fmul x y = x * y. Proof. by []. Qed.
Lemma foppE x : fopp x = - x. Proof. by []. Qed.
Lemma finvE x : finv x = x^-1. Proof. by []. Qed.
Lemma f0E : f0 = 0. Proof. by []. Qed.
Lemma f1E : f1 = 1. Proof. by []. Qed.
End F.

Ltac to_field C :=
  rewrite -?faddE -?fmulE -?foppE -?finvE -?f0E -?f1E;
  match goal with |- @eq _ ?a ?b => change (@eq (Num.ClosedField.sort C) a b) end.

Section Test.
Variable C : numClosedFieldType.
Add Field Ff : (fth C).
Goal forall x y z : C, y != 0 -> (x + z) / y * y = z + x.
Proof. by move=> x y z /eqP h; to_field C; field. Qed.
End Test.
