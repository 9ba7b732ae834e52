(** R as a MathComp field, for the 3 x 3 systems of khepri/beams.py. *)
From Coq Require Import Reals Lra.
From mathcomp Require Import all_ssreflect all_algebra.
From Verif Require Import CField.
Set Implicit Arguments. Unset Strict Implicit. Unset Printing Implicit Defensive.
Import GRing.Theory.
Local Open Scope ring_scope.

Definition rinv (x : R) : R := if x == 0 then 0 else (/ x)%Re.
Fact rmul_invl (x : R) : x != 0 -> rinv x * x = 1.
Proof. by rewrite /rinv => hx; rewrite (negbTE hx); move/eqP: hx => hx; exact: Rinv_l. Qed.
Fact rinv0 : rinv 0 = 0. Proof. by rewrite /rinv eqxx. Qed.
Definition R_unitRingMixin := FieldUnitMixin rmul_invl rinv0.
Canonical R_unitRingType := Eval hnf in UnitRingType R R_unitRingMixin.
Canonical R_comUnitRingType := Eval hnf in [comUnitRingType of R].
Fact R_field_axiom : GRing.Field.mixin_of R_unitRingType. Proof. by []. Qed.
Definition R_idomainMixin := FieldIdomainMixin R_field_axiom.
Canonical R_idomainType := Eval hnf in IdomainType R R_idomainMixin.
Canonical R_fieldType := Eval hnf in FieldType R R_field_axiom.
