(** C112-C114 assembled from the lemmas. *)
From Coq Require Import Reals ZArith String.
From mathcomp Require Import all_ssreflect all_algebra.
From Coquelicot Require Import Complex.
From Verif Require Import Base CField CFun ModelExpansion SpecExpansion ModelFourier ModelDevice ModelTmat SpecTmat ModelLattice SpecLattice SpecExp ExpProofs SpecScale SpecSym SpecBloch
  SpecTurn TmatTurn4 TmatTurn5.
Set Implicit Arguments. Unset Strict Implicit. Unset Printing Implicit Defensive.
Import GRing.Theory.
Local Open Scope ring_scope.

Lemma turned_matrix a b s t p a1 a2 ei ee L n J1 (expm : 'M[C]_((n + n) + (n + n)) -> 'M[C]_((n + n) + (n + n))) wl kp q q' stacking d name :
  isometry a b s -> nameable t p -> window_fits p -> mk_lattice p a1 a2 ei ee = Ok L -> n = (p.1 * p.2)%N -> is_expm expm ->
  turnable b L wl kp -> recipes_turned a b s (l_b L) q q' ->
  let v := renamed t (turn a b s a1, turn a b s a2) in
  let W : 'M[C]_((n + n) + (n + n)) := turned_waves a b s t p L kp in
  exists2 L', mk_lattice p v.1 v.2 ei ee = Ok L' &
  [/\ W *m W^T = 1%:M,
      forall S S', pile_at J1 expm p L wl kp q stacking d name S ->
        (pile_at J1 expm p L' wl (turn a b s kp) q' stacking d name S' <-> S' = W *m S *m W^T) &
      forall S S', closed_at J1 expm p L wl kp q stacking d name S ->
        (closed_at J1 expm p L' wl (turn a b s kp) q' stacking d name S' <-> S' = W *m S *m W^T)].
Proof.
move=> iso ht hf hL hn hx htn hq v W; have [L' hL'] := lattice_turned iso t hL; exists L' => //; split.
- exact: (waves_ortho iso L ht hn kp).
- move=> S S' hS; exact: (pile_turn iso ht hf hL hL' hn hx htn hq S' hS).
move=> S S' hS; exact: (closed_turn iso ht hf hL hL' hn hx htn hq S' hS).
Qed.
Lemma turned_invariants a b s t p a1 a2 ei ee L L' n J1 (expm : 'M[C]_((n + n) + (n + n)) -> 'M[C]_((n + n) + (n + n))) wl kp q q' stacking d name S S' :
  isometry a b s -> nameable t p -> window_fits p -> mk_lattice p a1 a2 ei ee = Ok L ->
  mk_lattice p (renamed t (turn a b s a1, turn a b s a2)).1 (renamed t (turn a b s a1, turn a b s a2)).2 ei ee = Ok L' ->
  n = (p.1 * p.2)%N -> is_expm expm -> turnable b L wl kp -> recipes_turned a b s (l_b L) q q' ->
  pile_at J1 expm p L wl kp q stacking d name S -> pile_at J1 expm p L' wl (turn a b s kp) q' stacking d name S' ->
  \det S' = \det S /\ forall w, (exists v, bloch_wave S w v) <-> (exists v, bloch_wave S' w v).
Proof.
move=> iso ht hf hL hL' hn hx htn hq hS /(pile_turn iso ht hf hL hL' hn hx htn hq S' hS) ->; split.
  exact: (det_turned iso L ht hn).
move=> w; exact: (bloch_turn iso L ht hn).
Qed.
Lemma turned_fluxes a b s t p a1 a2 ei ee L L' n J1 (expm : 'M[C]_((n + n) + (n + n)) -> 'M[C]_((n + n) + (n + n))) wl kp q q' stacking d name S S' E0 pp sp pin k k' :
  isometry a b s -> nameable t p -> window_fits p -> mk_lattice p a1 a2 ei ee = Ok L ->
  mk_lattice p (renamed t (turn a b s a1, turn a b s a2)).1 (renamed t (turn a b s a1, turn a b s a2)).2 ei ee = Ok L' ->
  n = (p.1 * p.2)%N -> is_expm expm -> turnable b L wl kp -> recipes_turned a b s (l_b L) q q' ->
  closed_at J1 expm p L wl kp q stacking d name S -> closed_at J1 expm p L' wl (turn a b s kp) q' stacking d name S' ->
  tmat_incident n p E0 pp sp = Ok pin ->
  let f to from := RtoC (pol_turn a b s true kp to from) in
  exists2 pin', tmat_incident n p E0 (f true false * sp + f true true * pp) (f false false * sp + f false true * pp) = Ok pin' &
  compute_fluxes L' wl pin' (S' *m pin') k' = compute_fluxes L wl pin (S *m pin) k.
Proof. move=> iso ht hf hL hL' hn hx htn hq hS hS' hp; exact: (closed_fluxes iso ht hf hL hL' hn k k' hx htn hq hS hS' hp). Qed.
Lemma symmetric_pile a b s t p a1 a2 ei ee L n J1 (expm : 'M[C]_((n + n) + (n + n)) -> 'M[C]_((n + n) + (n + n))) wl kp q stacking d name S :
  isometry a b s -> nameable t p -> window_fits p -> mk_lattice p a1 a2 ei ee = Ok L -> renamed t (turn a b s a1, turn a b s a2) = (a1, a2) ->
  n = (p.1 * p.2)%N -> is_expm expm -> turnable b L wl kp -> recipes_turned a b s (l_b L) q q -> turn a b s kp = kp ->
  pile_at J1 expm p L wl kp q stacking d name S \/ closed_at J1 expm p L wl kp q stacking d name S ->
  S *m turned_waves a b s t p L kp = turned_waves a b s t p L kp *m S.
Proof.
move=> iso ht hf hL hs hn hx htn hq hk [hS|hS].
  exact: (pile_symmetric iso ht hf hL hs hn hx htn hq hk hS).
exact: (closed_symmetric iso ht hf hL hs hn hx htn hq hk hS).
Qed.
