(** What is assumed of the function q |-> exp(2 pi i q) on rational arguments. *)
From Coq Require Import QArith.
From mathcomp Require Import all_ssreflect all_algebra.
Import Order.TTheory GRing.Theory Num.Theory.
Set Implicit Arguments.
Unset Strict Implicit.
Local Open Scope ring_scope.

Record exp_spec (C : numClosedFieldType) (cexp : Q -> C) : Prop := ExpSpec {
  ce_eq : forall a b, Qeq a b -> cexp a = cexp b;
  ce_add : forall a b, cexp (Qplus a b) = cexp a * cexp b;
  ce_norm : forall a, `|cexp a| = 1;
  ce_int : forall a, cexp a = 1 <-> exists z : Z, Qeq a (inject_Z z) }.

(** The rational q/p. *)
Definition qfrac (q p : nat) : Q := Qmake (Z.of_nat q) (Pos.of_nat p).
