(** Specification vocabulary for pictures and their Fourier coefficients. *)
From Coq Require Import Reals ZArith.
From mathcomp Require Import all_ssreflect all_algebra.
From Coquelicot Require Import Complex.
From Verif Require Import Base CField CFun ModelFourier.
Set Implicit Arguments. Unset Strict Implicit. Unset Printing Implicit Defensive.
Import GRing.Theory.
Local Open Scope ring_scope.

(** The wave exp(-2 pi i d x / N) of integer order [d] on a grid of [N] points. *)
Definition wave (N : nat) (d : Z) (x : nat) : C :=
  cexp (- (ci * RtoC (2 * PI * IZR d * INR x / INR N)%Re)).

(** The Fourier coefficient of a picture at the (signed) orders (d0, d1). *)
Definition fourier_coef (A : array2) (d0 d1 : Z) : C :=
  (\sum_(x < a_rows A) \sum_(y < a_cols A)
      a_at A x y * wave (a_rows A) d0 x * wave (a_cols A) d1 y)
  / RtoC (INR (a_rows A * a_cols A)).

Definition real_picture (A : array2) : Prop :=
  forall x y, (x < a_rows A)%N -> (y < a_cols A)%N -> snd (a_at A x y) = 0%Re.
Definition passive_picture (A : array2) : Prop :=
  forall x y, (x < a_rows A)%N -> (y < a_cols A)%N -> (snd (a_at A x y) <= 0)%Re.
Definition constant_picture (A : array2) (e : C) : Prop :=
  forall x y, (x < a_rows A)%N -> (y < a_cols A)%N -> a_at A x y = e.
