(** Specification of absorbing layers and piles (T-matrix API, time factor
    exp(-i omega t): absorption is a positive imaginary part). *)
From Coq Require Import Reals String.
From mathcomp Require Import all_ssreflect all_algebra.
From Coquelicot Require Import Complex.
From Verif Require Import Base CField CFun ModelExpansion ModelFourier ModelLattice SpecTransform SpecBloch.
Set Implicit Arguments. Unset Strict Implicit. Unset Printing Implicit Defensive.
Import GRing.Theory.
Local Open Scope ring_scope.

(** Rectangles that are wider than 1/628 of the periods (thinner ones are computed with
    a truncated series). *)
Definition wide (Lx Ly : R) (r : R * R * R * R) : Prop :=
  let: (x0, y0, x1, y1) := r in (Lx < 200 * PI * (x1 - x0))%Re /\ (Ly < 200 * PI * (y1 - y0))%Re.
(** A layer made of disjoint rectangles inside the cell [0, Lx] x [0, Ly], no medium of
    which amplifies; the depth is not negative. *)
Definition absorbing_recipe (Lx Ly : R) (r : recipe) : Prop :=
  let: (islands, host, depth, _) := r in exists rects : seq (R * R * R * R * C),
  [/\ islands = islands_of rects, disjoint (regions rects),
      forall q, List.In q rects -> [/\ rect_inside Lx Ly q.1, wide Lx Ly q.1 & (0 <= snd q.2)%Re],
      (0 <= snd host)%Re & (0 <= depth)%Re].
(** Every order of the window propagates in the incident medium. *)
Definition all_propagate (n : nat) (L : lattice) (wl : R) (kp : vec2) : Prop :=
  forall g : 'I_n, let kz := compute_kz (l_incid L) wl kp (l_g L g) in snd kz = 0%Re /\ fst kz <> 0%Re.
