(** Specification vocabulary for islands given as pictures. *)
From Coq Require Import Reals ZArith.
From mathcomp Require Import all_ssreflect all_algebra.
From Coquelicot Require Import Complex.
From Verif Require Import Base CField CFun ModelFourier SpecFourier.
Set Implicit Arguments. Unset Strict Implicit. Unset Printing Implicit Defensive.
Import GRing.Theory.
Local Open Scope ring_scope.

(** The table of coefficients of the map host + (eps - host) f, where f is the picture
    of the island: the order (0, 0) is in the middle, as for the other shapes. *)
Definition right_table (q : nat * nat) (f : array2) (eps host : C) (T : array2) : Prop :=
  let m := (q.1 %/ 2, q.2 %/ 2)%N in
  forall i j, (i < q.1)%N -> (j < q.2)%N ->
  a_at T i j = (if (i == m.1) && (j == m.2) then host else 0) +
    (eps - host) * fourier_coef f (Z.sub (Z.of_nat i) (Z.of_nat m.1)) (Z.sub (Z.of_nat j) (Z.of_nat m.2)).
