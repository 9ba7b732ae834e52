(** Specification vocabulary for C115: piles with all lengths multiplied by [s]
    (T-matrix API). *)
From Coq Require Import Reals ZArith String.
From mathcomp Require Import all_ssreflect all_algebra.
From Coquelicot Require Import Complex.
From Verif Require Import Base CField CFun ModelExpansion ModelFourier ModelTmat ModelLattice SpecScale SpecBloch SpecTurn.
Set Implicit Arguments. Unset Strict Implicit. Unset Printing Implicit Defensive.
Import GRing.Theory.
Local Open Scope ring_scope.

Section Scale.
Variable s : R.
Definition longer_recipe (q : recipe) : recipe :=
  let: (isl, host, d, pow) := q in (longer_islands s isl, host, (s * d)%Re, pow).
Definition longer_recipes (q : string -> option recipe) (name : string) : option recipe := omap longer_recipe (q name).
(** Discs: the reciprocal lattice is too fine in neither unit. *)
Definition resolved_recipes (b : vec2 * vec2) (q : string -> option recipe) : Prop :=
  forall name isl host d pow, q name = Some (isl, host, d, pow) -> has_disc isl ->
  resolved b /\ resolved (slower s b.1, slower s b.2).
(** The orders whose wavevector has no direction are the same in both units. *)
Definition same_frames (L : lattice) (kp : vec2) : Prop :=
  forall g, (g < l_ng L)%N -> let u := uvec kp (l_g L g) in tiny (slower s u) = tiny u.
(** At normal incidence the orders decay in both units faster than what the code takes
    for propagation, or not at all. *)
Definition same_orders (L : lattice) (wl : R) : Prop :=
  forall eps, eps = l_incid L \/ eps = l_emerg L -> forall g, (g < l_ng L)%N ->
  let d := Rabs (snd (compute_kz eps wl (0%Re, 0%Re) (l_g L g))) in
  d = 0%Re \/ (float_eps < d /\ float_eps < / s * d)%Re.
End Scale.
