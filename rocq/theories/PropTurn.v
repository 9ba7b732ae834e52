(** Properties C112-C114: piles turned about the normal or reflected, on lattices whose
    vectors may be named differently (T-matrix API). *)
From Coq Require Import Reals ZArith String.
From mathcomp Require Import all_ssreflect all_algebra.
From Coquelicot Require Import Complex.
From Verif Require Import Base CField CFun ModelExpansion SpecExpansion ModelFourier ModelDevice ModelTmat SpecTmat ModelLattice SpecLattice SpecExp ExpProofs SpecScale SpecSym SpecBloch
  DetProofs SpecTurn TmatTurn5 TurnTheorems TurnExamples.
Set Implicit Arguments. Unset Strict Implicit. Unset Printing Implicit Defensive.
Import GRing.Theory.
Local Open Scope ring_scope.

(** C112.  Turning or reflecting a whole pile (lattice, islands and in-plane wavevector),
    and naming the lattice vectors anew, changes its matrix only by the permutation of the
    orders and the rotation of the polarisations of [turned_waves]; with and without the
    last interface. *)
Theorem C112_matrix a b s t p a1 a2 ei ee L n J1 (expm : 'M[C]_((n + n) + (n + n)) -> 'M[C]_((n + n) + (n + n))) wl kp q q' stacking d name :
  isometry a b s -> nameable t p -> window_fits p -> mk_lattice p a1 a2 ei ee = Ok L -> n = (p.1 * p.2)%N -> is_expm expm ->
  turnable b L wl kp -> recipes_turned a b s (l_b L) q q' ->
  let v := renamed t (turn a b s a1, turn a b s a2) in
  let W : 'M[C]_((n + n) + (n + n)) := turned_waves a b s t p L kp in
  exists2 L', mk_lattice p v.1 v.2 ei ee = Ok L' &
  [/\ W *m W^T = 1%:M,
      forall S S', pile_at J1 expm p L wl kp q stacking d name S ->
        (pile_at J1 expm p L' wl (turn a b s kp) q' stacking d name S' <-> S' = W *m S *m W^T) &
      forall S S', closed_at J1 expm p L wl kp q stacking d name S ->
        (closed_at J1 expm p L' wl (turn a b s kp) q' stacking d name S' <-> S' = W *m S *m W^T)].
Proof. exact: turned_matrix. Qed.
Print Assumptions C112_matrix.

(** C113.  The turned pile has the same determinant and the same Bloch factors; a wave
    incident in the zero order, with its polarisation turned, gives the same fluxes. *)
Theorem C113_unchanged a b s t p a1 a2 ei ee L L' n J1 (expm : 'M[C]_((n + n) + (n + n)) -> 'M[C]_((n + n) + (n + n))) wl kp q q' stacking d name S S' :
  isometry a b s -> nameable t p -> window_fits p -> mk_lattice p a1 a2 ei ee = Ok L ->
  mk_lattice p (renamed t (turn a b s a1, turn a b s a2)).1 (renamed t (turn a b s a1, turn a b s a2)).2 ei ee = Ok L' ->
  n = (p.1 * p.2)%N -> is_expm expm -> turnable b L wl kp -> recipes_turned a b s (l_b L) q q' ->
  pile_at J1 expm p L wl kp q stacking d name S -> pile_at J1 expm p L' wl (turn a b s kp) q' stacking d name S' ->
  \det S' = \det S /\ forall w, (exists v, bloch_wave S w v) <-> (exists v, bloch_wave S' w v).
Proof. exact: turned_invariants. Qed.
Print Assumptions C113_unchanged.
Theorem C113_fluxes a b s t p a1 a2 ei ee L L' n J1 (expm : 'M[C]_((n + n) + (n + n)) -> 'M[C]_((n + n) + (n + n))) wl kp q q' stacking d name S S' E0 pp sp pin k k' :
  isometry a b s -> nameable t p -> window_fits p -> mk_lattice p a1 a2 ei ee = Ok L ->
  mk_lattice p (renamed t (turn a b s a1, turn a b s a2)).1 (renamed t (turn a b s a1, turn a b s a2)).2 ei ee = Ok L' ->
  n = (p.1 * p.2)%N -> is_expm expm -> turnable b L wl kp -> recipes_turned a b s (l_b L) q q' ->
  closed_at J1 expm p L wl kp q stacking d name S -> closed_at J1 expm p L' wl (turn a b s kp) q' stacking d name S' ->
  tmat_incident n p E0 pp sp = Ok pin ->
  let f to from := RtoC (pol_turn a b s true kp to from) in
  exists2 pin', tmat_incident n p E0 (f true false * sp + f true true * pp) (f false false * sp + f false true * pp) = Ok pin' &
  compute_fluxes L' wl pin' (S' *m pin') k' = compute_fluxes L wl pin (S *m pin) k.
Proof. exact: turned_fluxes. Qed.
Print Assumptions C113_fluxes.

(** C112 and C113 for a pile with a wall along y: reflected in the diagonal of the square
    lattice, the vectors exchanged, it is the pile with the wall along x. *)
Example C112_hypotheses_met J1 : exists L S, let expm := @mexp ((4 + 4) + (4 + 4)) in let kp := (0%Re, 0%Re) in let wl := (/ 2)%Re in let L1 := (1%Re, 0%Re) in let L2 := (0%Re, 1%Re) in
  [/\ isometry 0 1 (- 1) /\ nameable flip (2, 2)%N, mk_lattice (2, 2)%N L1 L2 (Float 1) (Float 1) = Ok L /\ renamed flip (turn 0 1 (- 1) L1, turn 0 1 (- 1) L2) = (L1, L2),
      is_expm expm /\ turnable 1 L wl kp, recipes_turned 0 1 (- 1) (l_b L) (pane_layer 1) (wall_layer 1) &
      [/\ pile_at J1 expm (2, 2)%N L wl kp (pane_layer 1) [::] 1 "pane" S, closed_at J1 expm (2, 2)%N L wl kp (pane_layer 1) [::] 1 "pane" S &
          is_ok (@tmat_incident 4 (2, 2)%N 1 0 1)]].
Proof. exact: flip_example. Qed.

(** C114.  The matrix of a pile that is its own image commutes with [turned_waves]. *)
Theorem C114_symmetric a b s t p a1 a2 ei ee L n J1 (expm : 'M[C]_((n + n) + (n + n)) -> 'M[C]_((n + n) + (n + n))) wl kp q stacking d name S :
  isometry a b s -> nameable t p -> window_fits p -> mk_lattice p a1 a2 ei ee = Ok L -> renamed t (turn a b s a1, turn a b s a2) = (a1, a2) ->
  n = (p.1 * p.2)%N -> is_expm expm -> turnable b L wl kp -> recipes_turned a b s (l_b L) q q -> turn a b s kp = kp ->
  pile_at J1 expm p L wl kp q stacking d name S \/ closed_at J1 expm p L wl kp q stacking d name S ->
  S *m turned_waves a b s t p L kp = turned_waves a b s t p L kp *m S.
Proof. exact: symmetric_pile. Qed.
Print Assumptions C114_symmetric.
(** At normal incidence a pile that is its own image under a quarter turn gives the same
    fluxes for a polarisation and the perpendicular one. *)
Theorem C114_polarisation t p a1 a2 ei ee L n J1 (expm : 'M[C]_((n + n) + (n + n)) -> 'M[C]_((n + n) + (n + n))) wl q stacking d name S E0 pp sp pin pin' k :
  nameable t p -> window_fits p -> mk_lattice p a1 a2 ei ee = Ok L -> renamed t (turn 0 1 1 a1, turn 0 1 1 a2) = (a1, a2) -> n = (p.1 * p.2)%N ->
  is_expm expm -> turnable 1 L wl (0%Re, 0%Re) -> recipes_turned 0 1 1 (l_b L) q q -> closed_at J1 expm p L wl (0%Re, 0%Re) q stacking d name S ->
  tmat_incident n p E0 pp sp = Ok pin -> tmat_incident n p E0 sp (- pp) = Ok pin' ->
  compute_fluxes L wl pin' (S *m pin') k = compute_fluxes L wl pin (S *m pin) k.
Proof. exact: quarter_fluxes. Qed.
Print Assumptions C114_polarisation.
(** A rod of circular section on a square lattice. *)
Example C114_hypotheses_met J1 : exists L S, let expm := @mexp ((1 + 1) + (1 + 1)) in let kp := (0%Re, 0%Re) in let wl := 2%Re in let L1 := (1%Re, 0%Re) in let L2 := (0%Re, 1%Re) in
  [/\ nameable roll (1, 1)%N, mk_lattice (1, 1)%N L1 L2 (Float 1) (Float 4) = Ok L /\ renamed roll (turn 0 1 1 L1, turn 0 1 1 L2) = (L1, L2),
      is_expm expm /\ turnable 1 L wl kp, recipes_turned 0 1 1 (l_b L) rod_layer rod_layer &
      [/\ closed_at J1 expm (1, 1)%N L wl kp rod_layer [::] 1 "rod" S, is_ok (@tmat_incident 1 (1, 1)%N 1 0 1) & is_ok (@tmat_incident 1 (1, 1)%N 1 1 (- 0))]].
Proof. exact: rod_example. Qed.
