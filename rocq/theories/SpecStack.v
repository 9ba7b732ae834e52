(** Specification vocabulary for stacks of scatterers: only input/output
    relations. *)
From mathcomp Require Import all_ssreflect all_algebra.
From Verif Require Import Base ModelRedheffer SpecScatter.
Set Implicit Arguments. Unset Strict Implicit. Unset Printing Implicit Defensive.
Import GRing.Theory.
Local Open Scope ring_scope.

Section Spec.
Variables (F : fieldType) (n : nat).
(** Waves passing through a list of scatterers, one after the other: between any
    two of them there are waves [p] (to the right) and [q] (to the left) compatible
    with both neighbours. *)
Fixpoint cascade (l : seq (smat F n)) (a1 a2 b1 b2 : 'cV[F]_n) : Prop :=
  match l with
  | [::] => b1 = a2 /\ b2 = a1
  | Si :: r => exists p q, scatters Si a1 q b1 p /\ cascade r p a2 q b2
  end.
(** [S] is the response of the whole list. *)
Definition responds (S : smat F n) (l : seq (smat F n)) : Prop :=
  forall a1 a2 b1 b2, scatters S a1 a2 b1 b2 <-> cascade l a1 a2 b1 b2.
End Spec.
