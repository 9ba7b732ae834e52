(** Specification vocabulary for the helper functions. *)
From Coq Require Import Reals ZArith String.
From mathcomp Require Import all_ssreflect all_algebra.
From Coquelicot Require Import Complex.
From Verif Require Import Base CField CFun ModelMisc.
Set Implicit Arguments. Unset Strict Implicit. Unset Printing Implicit Defensive.

(** The same array. *)
Definition same2 {T} (A B : arr2 T) : Prop :=
  [/\ r2 A = r2 B, c2 A = c2 B & forall i j, i < r2 A -> j < c2 A -> at2 A i j = at2 B i j].
Definition same4 {T} (A B : arr4 T) : Prop := d4 A = d4 B /\
  forall a b i j, a < (d4 A).1.1.1 -> b < (d4 A).1.1.2 -> i < (d4 A).1.2 -> j < (d4 A).2 -> at4 A a b i j = at4 B a b i j.

(** [B] lists the blocks of [A], of size nrows x ncols, row by row. *)
Definition blocks {T} (A : arr2 T) (nrows ncols : nat) (B : arr3 T) : Prop :=
  let down := r2 A %/ nrows in let across := c2 A %/ ncols in
  d3 B = (down * across, nrows, ncols) /\
  forall a b i j, a < down -> b < across -> i < nrows -> j < ncols ->
    at3 B (a * across + b) i j = at2 A (a * nrows + i) (b * ncols + j).

(** A place in a list of lists, seen in the concatenated list. *)
Definition offset (l : seq nat) (i : nat) : nat := sumn (take i l).

(** The number of points asked for on each segment of a path with [n] corners: ten
    by default, one number for all segments, or one number per segment. *)
Definition asked (n : nat) (resolutions : seq Z) : seq Z :=
  match resolutions with
  | [::] => nseq (n - 1) (Z.of_nat 10)
  | [:: r] => nseq (n - 1) r
  | _ => resolutions
  end.
(** The point at fraction [t] of the way from [p] to [q]. *)
Definition between (p q : R * R) (t : R) : R * R := ((p.1 + (q.1 - p.1) * t)%Re, (p.2 + (q.2 - p.2) * t)%Re).
(** The high-symmetry points of the square lattice of pitch [a], moved one per cent
    inwards. *)
Definition corner (a : R) (name : string) (p : R * R) : Prop :=
  (name = "G"%string /\ p = (0%Re, 0%Re)) \/
  (name = "X"%string /\ p = (0%Re, (99 / 100 * (PI / a))%Re)) \/
  (name = "M"%string /\ p = ((99 / 100 * (PI / a))%Re, (99 / 100 * (PI / a))%Re)).
(** The number of points before segment [i]. *)
Definition points_before (rs : seq Z) (i : nat) : nat := sumn [seq Z.to_nat r | r <- take i rs].
