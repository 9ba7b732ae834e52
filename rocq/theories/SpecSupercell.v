(** Specification of the Bloch factors of a periodic pile, whichever period describes
    it. *)
From Coq Require Import ZArith String.
From mathcomp Require Import all_ssreflect all_algebra.
From Verif Require Import Base StringEq ModelTmat SpecTmat ModelEz SpecEz.
Set Implicit Arguments. Unset Strict Implicit. Unset Printing Implicit Defensive.
Import GRing.Theory.
Local Open Scope ring_scope.

(** [w] is one of the factors by which the cell multiplies Bloch waves: a generalised
    eigenvalue of the two matrices of khepri/eigentricks.py:5-22. *)
Definition bloch_factor (F : fieldType) k (S : 'M[F]_(k + k)) (w : F) : Prop :=
  exists v, eigenpair (scattering_splitlr S) w v.
(** [S] is the matrix of the stacking [name] of the project, as khepri/ez.py computes it
    from the matrices of its layers, and [ls] are the layers met by the light. *)
Definition cell_of (F : fieldType) k (p : stackings) (layers : seq string) (mat : string -> 'M[F]_(k + k))
    (name : string) (ls : seq string) (S : 'M[F]_(k + k)) : Prop :=
  unrolled p name ls /\ exists d req,
    gather_s p layers d name [::] = Ok req /\ stack_s p (computed req mat) d name = Ok (Some S).
