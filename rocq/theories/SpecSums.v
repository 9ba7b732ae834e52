(** Specification vocabulary for the direct Fourier sums. *)
From Coq Require Import Reals ZArith.
From mathcomp Require Import all_ssreflect all_algebra.
From Coquelicot Require Import Complex.
From Verif Require Import Base CField CFun ModelFourier.
Set Implicit Arguments. Unset Strict Implicit. Unset Printing Implicit Defensive.
Import GRing.Theory.
Local Open Scope ring_scope.

(** The explicit sum over the grid points (k dx, l dx). *)
Definition wave_sum2 (A : array2) (kx ky dx : R) : C :=
  \sum_(k < a_rows A) \sum_(l < a_cols A) a_at A k l * cexp (- ci * RtoC (kx * (dx * INR k) + ky * (dx * INR l))%Re).

(** The combination of the orders (m, n) of the square lattice of period [a], with
    the given coefficients, at (x, y). *)
Definition sample_at (a : R) (terms : seq (C * (Z * Z))) (x y : R) : C :=
  \sum_(t <- terms) t.1 * cexp (ci * RtoC (2 * PI * IZR t.2.1 / a * x + 2 * PI * IZR t.2.2 / a * y)%Re).
(** Its samples on the N x N grid of the cell. *)
Definition sampled (N : nat) (a : R) (terms : seq (C * (Z * Z))) : array2 :=
  Array2 N N (fun k l => sample_at a terms (a / INR N * INR k)%Re (a / INR N * INR l)%Re).
(** The orders of the list are pairwise different and no two differ by N or more. *)
Definition resolved (N : nat) (terms : seq (C * (Z * Z))) : Prop :=
  forall i j, (i < size terms)%N -> (j < size terms)%N ->
    let o k := (nth (0, (Z0, Z0)) terms k).2 in
    Z.lt (Z.abs (Z.sub (o i).1 (o j).1)) (Z.of_nat N) /\ Z.lt (Z.abs (Z.sub (o i).2 (o j).2)) (Z.of_nat N) /\
    (o i = o j -> i = j).
(** Equally spaced points from [lo] to [hi], both included (np.linspace). *)
Definition grid_point (lo hi : R) (n k : nat) : R := (lo + INR k * ((hi - lo) / INR (n - 1)))%Re.
