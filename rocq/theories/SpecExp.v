(** Specification vocabulary: the exponential of a matrix, by its power series. *)
From Coq Require Import Reals.
From mathcomp Require Import all_ssreflect all_algebra.
From Coquelicot Require Import Hierarchy Series Complex.
From Verif Require Import CField.
Set Implicit Arguments. Unset Strict Implicit. Unset Printing Implicit Defensive.
Import GRing.Theory.
Local Open Scope ring_scope.

(** The sum of a series of complex numbers. *)
Definition csum (a : nat -> C) (l : C) : Prop :=
  is_series (fun k => fst (a k)) (fst l) /\ is_series (fun k => snd (a k)) (snd l).

Section Exp.
Variable n : nat.
Implicit Types X E : 'M[C]_n.

(** X^k. *)
Fixpoint mpow X (k : nat) : 'M[C]_n := match k with 0 => 1%:M | k'.+1 => X *m mpow X k' end.
(** X^k / k!. *)
Definition exp_term X (k : nat) : 'M[C]_n := RtoC (/ INR (Factorial.fact k))%Re *: mpow X k.
(** E is 1 + X + X^2/2! + ..., entry by entry. *)
Definition exp_sum X E : Prop := forall i j, csum (fun k => exp_term X k i j) (E i j).
(** [expm] computes matrix exponentials. *)
Definition is_expm (expm : 'M[C]_n -> 'M[C]_n) : Prop := forall X, exp_sum X (expm X).
End Exp.
