(** Specification vocabulary for the sum of two lattices: each order of the sum is
    a pair of orders. *)
From mathcomp Require Import all_ssreflect all_algebra.
From Verif Require Import Base ModelRedheffer.
Set Implicit Arguments. Unset Strict Implicit. Unset Printing Implicit Defensive.
Import GRing.Theory.
Local Open Scope ring_scope.

(** The position, in the summed expansion, of the pair made of order [r] of the own
    lattice and order [m] of the other one; kind 0: the own lattice is the second
    operand of the sum. *)
Definition place (kind N m r : nat) : nat := (if kind == 0 then m * N + r else r * N + m)%N.
(** The same, for polarisation component [a]. *)
Definition spot (kind N a m r : nat) : nat := (a * (N * N) + place kind N m r)%N.

(** [M] consists of the matrices of the list, one for each order of the other
    lattice, placed at the right pairs, and of zeros. *)
Definition joins (F : fieldType) (N n kind : nat) (subs : seq 'M[F]_(N + N)) (M : 'M[F]_(n + n)) : Prop :=
  forall (i j : 'I_(n + n)) (a b m m' r c : nat),
  (a < 2)%N -> (b < 2)%N -> (m < N)%N -> (m' < N)%N -> (r < N)%N -> (c < N)%N ->
  i = spot kind N a m r :> nat -> j = spot kind N b m' c :> nat ->
  M i j = (if m == m' then
             if insub (a * N + r)%N is Some x then if insub (b * N + c)%N is Some y then nth 0 subs m x y else 0 else 0
           else 0).
