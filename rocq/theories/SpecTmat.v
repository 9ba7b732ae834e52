(** Specification vocabulary for the T-matrix API: waves on the two sides of a
    layer. *)
From mathcomp Require Import all_ssreflect all_algebra.
From Verif Require Import Base ModelRedheffer ModelTmat.
Set Implicit Arguments. Unset Strict Implicit. Unset Printing Implicit Defensive.
Import GRing.Theory.
Local Open Scope ring_scope.

Section Spec.
Variables (F : fieldType) (k : nat).
Implicit Types (S T : 'M[F]_(k + k)) (lp lm rp rm gp gm : 'cV[F]_k).

(** [lp], [lm]: waves on the left that go to the right and to the left; [rp], [rm]:
    waves on the right. *)

(** The matrix gives the left waves from the right ones. *)
Definition transfers T lp lm rp rm : Prop := col_mx lp lm = T *m col_mx rp rm.
(** The matrix gives the outgoing waves from the incoming ones. *)
Definition tscatters S lp lm rp rm : Prop := col_mx rp lm = S *m col_mx lp rm.
(** Two layers, [S1] on the left, with waves [gp], [gm] between them. *)
Definition two_layers S1 S2 lp lm rp rm : Prop :=
  exists gp gm, tscatters S1 lp lm gp gm /\ tscatters S2 gp gm rp rm.

(** The same layer in the block layout of khepri/alternative.py: S11 is the
    reflection of what comes from the left. *)
Definition relayout S : smat F k := Smat (dlsubmx S) (drsubmx S) (ulsubmx S) (ursubmx S).

(** A Bloch wave of the cell, multiplied by [w] from left to right. *)
Definition bloch_wave S (w : F) (v : 'cV[F]_(k + k)) : Prop :=
  v != 0 /\ tscatters S (usubmx v) (dsubmx v) (w *: usubmx v) (w *: dsubmx v).
(** A generalised eigenpair of the two matrices. *)
Definition eigenpair (p : 'M[F]_(k + k) * 'M[F]_(k + k)) (w : F) (v : 'cV[F]_(k + k)) : Prop :=
  v != 0 /\ p.1 *m v = w *: (p.2 *m v).

(** The contract of the matrix exponential used for one operator: translations
    compose. *)
Definition translations (E : F -> 'M[F]_(k + k)) : Prop := forall s t, E (s + t) = E s *m E t.
End Spec.
