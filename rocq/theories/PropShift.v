(** Property C110: displacing all the islands of a pile (T-matrix API). *)
From Coq Require Import Reals ZArith String.
From mathcomp Require Import all_ssreflect all_algebra.
From Coquelicot Require Import Complex.
From Verif Require Import Base CField CFun ModelExpansion ModelFourier ModelTmat SpecTmat ModelLattice SpecLattice
  SpecExp ExpProofs ModelEz SpecSym SpecBloch DetProofs SpecShift ShiftExamples.
Set Implicit Arguments. Unset Strict Implicit. Unset Printing Implicit Defensive.
Import GRing.Theory.
Local Open Scope ring_scope.

(** The matrix of the displaced pile is computed whenever that of the pile is, and only
    the phases of the orders change; the same for piles closed by the interface. *)
Theorem C110_matrix J1 n (expm : 'M[C]_((n + n) + (n + n)) -> 'M[C]_((n + n) + (n + n))) p a1 a2 ei ee L wl kp recipes
    stacking d name r S S' :
  is_expm expm -> mk_lattice p a1 a2 ei ee = Ok L -> window_fits p -> discs_resolved (l_b L) recipes ->
  let moved := each_order (fun g : 'I_n => phase_of r (l_g L g)) *m S *m each_order (fun g : 'I_n => phase_of (back r) (l_g L g)) in
  (pile_at J1 expm p L wl kp recipes stacking d name S ->
   (pile_at J1 expm p L wl kp (recipes_moved r recipes) stacking d name S' <-> S' = moved)) /\
  (closed_at J1 expm p L wl kp recipes stacking d name S ->
   (closed_at J1 expm p L wl kp (recipes_moved r recipes) stacking d name S' <-> S' = moved)).
Proof. exact (fun hx hL hf hd => conj (pile_shift r hL hf hx hd S') (closed_shift r hL hf hx hd S')). Qed.
Print Assumptions C110_matrix.

(** The displacement does not change what leaves in each order, the fluxes and the
    determinant. *)
Theorem C110_fluxes J1 n (expm : 'M[C]_((n + n) + (n + n)) -> 'M[C]_((n + n) + (n + n))) p a1 a2 ei ee L wl kp recipes
    stacking d name r S S' :
  is_expm expm -> mk_lattice p a1 a2 ei ee = Ok L -> window_fits p -> discs_resolved (l_b L) recipes ->
  closed_at J1 expm p L wl kp recipes stacking d name S ->
  closed_at J1 expm p L wl kp (recipes_moved r recipes) stacking d name S' ->
  \det S' = \det S /\ forall E0 pp sp pin kp', tmat_incident n p E0 pp sp = Ok pin ->
    compute_fluxes L wl pin (S' *m pin) kp' = compute_fluxes L wl pin (S *m pin) kp' /\
    compute_currents pin (S' *m pin) L wl kp' = compute_currents pin (S *m pin) L wl kp'.
Proof. exact (fun hx hL hf hd => @closed_same r p a1 a2 ei ee L hL hf J1 n expm wl kp recipes stacking d name hx hd S S'). Qed.
Print Assumptions C110_fluxes.

(** ... nor the Bloch factors of the crystal that repeats the pile. *)
Theorem C110_bloch J1 n (expm : 'M[C]_((n + n) + (n + n)) -> 'M[C]_((n + n) + (n + n))) p a1 a2 ei ee L wl kp recipes
    stacking d name r S S' w :
  is_expm expm -> mk_lattice p a1 a2 ei ee = Ok L -> window_fits p -> discs_resolved (l_b L) recipes ->
  pile_at J1 expm p L wl kp recipes stacking d name S ->
  pile_at J1 expm p L wl kp (recipes_moved r recipes) stacking d name S' ->
  ((exists v, bloch_wave S w v) <-> (exists v, bloch_wave S' w v)).
Proof. exact (fun hx hL hf hd => @pile_same r p a1 a2 ei ee L hL hf J1 n expm wl kp recipes stacking d name hx hd S S' w). Qed.
Print Assumptions C110_bloch.

(** Displacements by vectors of the lattice change nothing, although the islands leave
    the cell. *)
Theorem C110_period J1 n (expm : 'M[C]_((n + n) + (n + n)) -> 'M[C]_((n + n) + (n + n))) p a1 a2 ei ee L wl kp recipes
    stacking d name S i j :
  is_expm expm -> mk_lattice p a1 a2 ei ee = Ok L -> window_fits p -> discs_resolved (l_b L) recipes ->
  pile_at J1 expm p L wl kp recipes stacking d name S ->
  pile_at J1 expm p L wl kp (recipes_moved (on_lattice (a1, a2) (IZR i) (IZR j)) recipes) stacking d name S.
Proof. exact (fun hx hL hf hd hS => @pile_period p a1 a2 ei ee L J1 n expm wl kp recipes stacking d name S i j hL hf hx hd hS). Qed.
Print Assumptions C110_period.

(** An absorbing wall, in a window of four orders; displaced by a quarter of the
    period, the phase of one order is not 1. *)
Example C110_hypotheses_met J1 : exists L S, let expm := @mexp ((4 + 4) + (4 + 4)) in let kp := (0%Re, 0%Re) in let wl := (/ 2)%Re in
  let r := ((/ 4)%Re, 0%Re) in
  [/\ mk_lattice (2, 2)%N (1%Re, 0%Re) (0%Re, 1%Re) (Float 1) (Float 1) = Ok L, is_expm expm,
      pile_at J1 expm (2, 2)%N L wl kp (pane_layer 1) [::] 1 "pane" S, closed_at J1 expm (2, 2)%N L wl kp (pane_layer 1) [::] 1 "pane" S &
      [/\ discs_resolved (l_b L) (pane_layer 1), is_ok (@tmat_incident 4 (2, 2)%N 1 0 1) & phase_of r (l_g L 0) <> 1]].
Proof. exact (wall_example J1). Qed.
