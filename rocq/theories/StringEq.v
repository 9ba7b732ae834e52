(** Coq's strings as a mathcomp eqType (layer names). *)
From Coq Require Import String.
From mathcomp Require Import all_ssreflect.
Lemma string_eqP : Equality.axiom String.eqb.
Proof. exact: String.eqb_spec. Qed.
Canonical string_eqType := EqType string (EqMixin string_eqP).
