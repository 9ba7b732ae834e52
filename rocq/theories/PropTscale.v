(** Property C115: piles with all lengths multiplied by the same number (T-matrix API). *)
From Coq Require Import Reals ZArith String.
From mathcomp Require Import all_ssreflect all_algebra.
From Coquelicot Require Import Complex.
From Verif Require Import Base CField CFun ModelExpansion ModelFourier ModelTmat ModelLattice SpecExp ExpProofs SpecScale SpecBloch DetProofs SpecTscale TscaleExamples.
Set Implicit Arguments. Unset Strict Implicit. Unset Printing Implicit Defensive.
Import GRing.Theory.
Local Open Scope ring_scope.

(** C115.  A pile with all lengths (lattice, islands, depths, wavelength) multiplied by
    [s], lit at the in-plane wavevector divided by [s], has the same matrix, with and
    without the last interface, and the same fluxes.  Partial: where the code compares a
    wavevector with a fixed number, both units must be on the same side of it. *)
Theorem C115_units_partial s p a1 a2 ei ee L n J1 (expm : 'M[C]_((n + n) + (n + n)) -> 'M[C]_((n + n) + (n + n))) wl kp q stacking d name :
  (0 < s)%Re -> mk_lattice p a1 a2 ei ee = Ok L -> same_frames s L kp -> resolved_recipes s (l_b L) q ->
  exists2 L', mk_lattice p (longer s a1) (longer s a2) ei ee = Ok L' &
  [/\ forall S, pile_at J1 expm p L' (s * wl) (slower s kp) (longer_recipes s q) stacking d name S <-> pile_at J1 expm p L wl kp q stacking d name S,
      forall S, closed_at J1 expm p L' (s * wl) (slower s kp) (longer_recipes s q) stacking d name S <-> closed_at J1 expm p L wl kp q stacking d name S &
      same_orders s L wl -> forall (pin pout : 'cV[C]_((n + n) + (n + n))) k k', compute_fluxes L' (s * wl) pin pout k' = compute_fluxes L wl pin pout k].
Proof. exact: units_invariance. Qed.
Print Assumptions C115_units_partial.
(** A wall in a window of 2 x 2 orders, and the same with lengths 1000 times larger. *)
Example C115_hypotheses_met J1 : exists L S pin f, let expm := @mexp ((4 + 4) + (4 + 4)) in let kp := (0%Re, 0%Re) in let wl := (/ 2)%Re in
  [/\ mk_lattice (2, 2)%N (1%Re, 0%Re) (0%Re, 1%Re) (Float 1) (Float 1) = Ok L, same_frames 1000 L kp /\ same_orders 1000 L wl,
      resolved_recipes 1000 (l_b L) (pane_layer 1), closed_at J1 expm (2, 2)%N L wl kp (pane_layer 1) [::] 1 "pane" S &
      @tmat_incident 4 (2, 2)%N 1 0 1 = Ok pin /\ compute_fluxes L wl pin (S *m pin) kp = Ok f].
Proof. exact: units_example. Qed.

(** Without [same_orders]: nothing but an incident medium that absorbs very little.  Its
    fluxes are numbers in one unit of length; in a unit four times longer the incident
    power is taken for zero. *)
Theorem C115_absorbing_refuted : exists L L' (pin : 'cV[C]_((1 + 1) + (1 + 1))) k f, let wl := twopi in let q : C := (1%Re, (/ 2 ^ 53)%Re) in let ei := Complex (q * q) in
  [/\ mk_lattice (1, 1)%N (1%Re, 0%Re) (0%Re, 1%Re) ei (Float 1) = Ok L, mk_lattice (1, 1)%N (longer (/ 4) (1%Re, 0%Re)) (longer (/ 4) (0%Re, 1%Re)) ei (Float 1) = Ok L',
      tmat_incident 1 (1, 1)%N 1 0 1 = Ok pin, compute_fluxes L wl pin pin k = Ok f & compute_fluxes L' (/ 4 * wl) pin pin k = Err NonFinite].
Proof. exact: units_absorbing. Qed.
Print Assumptions C115_absorbing_refuted.
