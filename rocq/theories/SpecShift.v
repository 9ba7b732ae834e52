(** Specification vocabulary for C110: layers of islands displaced together
    (T-matrix API). *)
From Coq Require Import Reals ZArith String.
From mathcomp Require Import all_ssreflect all_algebra.
From Coquelicot Require Import Complex.
From Verif Require Import Base CField CFun ModelExpansion SpecExpansion ModelFourier ModelDevice ModelTmat ModelLattice SpecScale SpecSym SpecBloch.
Set Implicit Arguments. Unset Strict Implicit. Unset Printing Implicit Defensive.
Import GRing.Theory.
Local Open Scope ring_scope.

(** A layer with all its islands displaced by [r]. *)
Definition recipe_moved (r : vec2) (q : recipe) : recipe :=
  let: (islands, host, depth, pow) := q in ([seq (shape_moved r i.1, i.2) | i <- islands], host, depth, pow).
Definition recipes_moved (r : vec2) (recipes : string -> option recipe) : string -> option recipe :=
  fun name => omap (recipe_moved r) (recipes name).
(** Discs: the reciprocal lattice [b] is not too fine, see [resolved]. *)
Definition discs_resolved (b : vec2 * vec2) (recipes : string -> option recipe) : Prop :=
  forall name q, recipes name = Some q -> has_disc q.1.1.1 -> resolved b.

(** The phase that the displacement gives to the wave of in-plane vector [g], for the
    factors e^(i g.x) of the T-matrix API. *)
Definition phase_of (r g : vec2) : C := cexp (- (ci * RtoC (r.1 * g.1 + r.2 * g.2)%Re)).
Definition back (r : vec2) : vec2 := ((- r.1)%Re, (- r.2)%Re).
