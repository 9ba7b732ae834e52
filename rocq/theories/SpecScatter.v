(** Specification vocabulary for scattering matrices, independent of the
    formulas of the code: only the input/output meaning of a scatterer.

    A scatterer has two ports.  [a1] comes in from the left, [a2] comes in
    from the right, [b1] leaves to the left, [b2] leaves to the right. *)
From mathcomp Require Import all_ssreflect all_algebra.
From Verif Require Import Base ModelRedheffer.
Set Implicit Arguments. Unset Strict Implicit. Unset Printing Implicit Defensive.
Import GRing.Theory.
Local Open Scope ring_scope.

Section Spec.
Variables (F : fieldType) (n : nat).
Implicit Types (S SA SB : smat F n) (a b cp cm : 'cV[F]_n).

(** [S] turns the incoming waves [a1], [a2] into the outgoing [b1], [b2]. *)
Definition scatters S a1 a2 b1 b2 : Prop :=
  b1 = s11 S *m a1 + s12 S *m a2 /\ b2 = s21 S *m a1 + s22 S *m a2.

(** [cp] (to the right) and [cm] (to the left) are waves in the gap between
    [SA] (left) and [SB] (right) compatible with both scatterers when [a1]
    comes from the far left and [a2] from the far right. *)
Definition gap_waves SA SB a1 a2 cp cm : Prop :=
  (exists b1, scatters SA a1 cm b1 cp) /\ (exists b2, scatters SB cp a2 cm b2).

(** The response of [SA] followed by [SB]. *)
Definition joined SA SB a1 a2 b1 b2 : Prop :=
  exists cp cm, scatters SA a1 cm b1 cp /\ scatters SB cp a2 cm b2.

(** The scatterer seen from the other side. *)
Definition flip S : smat F n := Smat (s22 S) (s21 S) (s12 S) (s11 S).

(** The transposed scatterer; [transposed S = S] is reciprocity. *)
Definition transposed S : smat F n := Smat (s11 S)^T (s21 S)^T (s12 S)^T (s22 S)^T.

(** Lift of a total function to results. *)
Definition res_map A B (f : A -> B) (x : res A) : res B :=
  match x with Ok a => Ok (f a) | Err e => Err e end.

(** A quantity ("flux") computed from the right-going and left-going waves at
    a port is conserved between the two ports of S. *)
Definition conserves (T : Type) S (fl fr : 'cV[F]_n -> 'cV[F]_n -> T) : Prop :=
  forall a1 a2 b1 b2, scatters S a1 a2 b1 b2 -> fl a1 b1 = fr b2 a2.

(** The same with loss: what leaves on the right is at most (relation [le])
    what entered on the left. *)
Definition dissipates (T : Type) (le : T -> T -> Prop) S
    (fl fr : 'cV[F]_n -> 'cV[F]_n -> T) : Prop :=
  forall a1 a2 b1 b2, scatters S a1 a2 b1 b2 -> le (fr b2 a2) (fl a1 b1).

End Spec.
