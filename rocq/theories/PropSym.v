(** C99-C102: the fluxes of a crystal do not depend on how the device is described. *)
From Coq Require Import Reals ZArith String.
From mathcomp Require Import all_ssreflect all_algebra.
From Coquelicot Require Import Complex Rbar.
From Verif Require Import Base CField CFun ModelExpansion SpecExpansion ModelFlux ModelFourier ModelDevice SpecDevice SpecScale SpecSym
  MoveProofs TurnProofs ReverseProofs SymTheorems ObliqueProofs SymExamples.
Set Implicit Arguments. Unset Strict Implicit. Unset Printing Implicit Defensive.
Local Open Scope ring_scope.

(** ** C99 Displacing the device changes no flux *)
Theorem C99_pictures n eig J1 pw l x void epsi epse u v ops ops' (c0 c : crystal n) :
  eig_complete eig -> mk_crystal n pw l x void epsi epse = Ok c0 ->
  history eig J1 c0 ops c -> all_calls outer_call ops -> all_alike (picture_moved u v) no_islands eq ops ops' ->
  exists c', history eig J1 c0 ops' c' /\
    forall Rs Ts, poynting_flux_orders c = Ok (Rs, Ts) -> poynting_flux_orders c' = Ok (Rs, Ts).
Proof. exact (@move_pictures n eig J1 pw l x void epsi epse u v ops ops' c0 c). Qed.
Print Assumptions C99_pictures.
(** A picture of three rows, moved by one row. *)
Example C99_pictures_met J1 : exists (c0 c : crystal 1) RT,
  [/\ eig_complete full_eig, one_order = Ok c0, history full_eig J1 c0 (with_picture ramp 1 0) c, all_calls outer_call (with_picture ramp 1 0) &
      all_alike (picture_moved (1 / 3) 0) no_islands eq (with_picture ramp 1 0) (with_picture ramp_moved 1 0) /\ poynting_flux_orders c = Ok RT].
Proof.
have [c0 [c [RT [h1 h2 h3 _ h5]]]] := picture_device J1 te1 (erefl _ : a_rows ramp = _) erefl ramp_mean.
by exists c0, c, RT; split; [exact: full_eig_ok | by [] | by [] | by [] | split; last by []; exact: ex_moved].
Qed.

Theorem C99_islands n eig J1 pw l x void epsi epse r ops ops' (c0 c : crystal n) :
  eig_complete eig -> mk_crystal n pw l x void epsi epse = Ok c0 -> line_or_square pw ->
  history eig J1 c0 ops c -> all_calls outer_call ops ->
  all_alike no_pictures (islands_moved (e_reciprocal (c_exp c0)) r) eq ops ops' ->
  exists c', history eig J1 c0 ops' c' /\
    forall Rs Ts, poynting_flux_orders c = Ok (Rs, Ts) -> poynting_flux_orders c' = Ok (Rs, Ts).
Proof. exact (@move_islands n eig J1 pw l x void epsi epse r ops ops' c0 c). Qed.
Print Assumptions C99_islands.
(** A disc moved by (1/8, 1/16). *)
Example C99_islands_met J1 : exists (c0 c : crystal 1) RT,
  [/\ eig_complete full_eig, one_order = Ok c0, line_or_square (1, 1)%N, history full_eig J1 c0 (with_disc 0 0 1 0) c & all_calls outer_call (with_disc 0 0 1 0) /\
      all_alike no_pictures (islands_moved (e_reciprocal (c_exp c0)) (1 / 8, 1 / 16)%Re) eq (with_disc 0 0 1 0) (with_disc (0 + 1 / 8) (0 + 1 / 16) 1 0) /\
      poynting_flux_orders c = Ok RT].
Proof.
have [c0 [c [RT [h1 h2 h3 [_ h4 h5]]]]] := disc_device J1 0 0 te1.
exists c0, c, RT; split; [exact: full_eig_ok | by [] | by left | by [] | do 2 split=> //].
by rewrite h4; apply: ex_islands; exact: unit_resolved.
Qed.

(** Pictures and islands together.  Missing: with a square window of orders, islands
    have to move by the vector of exchanged coordinates, because their table is read
    with its axes exchanged (C24); other windows are not covered. *)
Theorem C99_device_partial n eig J1 pw l x void epsi epse lat u v r ops ops' (c0 c : crystal n) :
  eig_complete eig -> mk_crystal n pw l x void epsi epse = Ok c0 -> crystal_lattice x l = Ok lat ->
  ((pw.1 = 1%N \/ pw.2 = 1%N) /\ r = on_lattice lat u v) \/ (pw.1 = pw.2 /\ r = on_lattice lat v u) ->
  history eig J1 c0 ops c -> all_calls outer_call ops ->
  all_alike (picture_moved u v) (islands_moved (e_reciprocal (c_exp c0)) r) eq ops ops' ->
  exists c', history eig J1 c0 ops' c' /\
    forall Rs Ts, poynting_flux_orders c = Ok (Rs, Ts) -> poynting_flux_orders c' = Ok (Rs, Ts).
Proof. exact (@move_device n eig J1 pw l x void epsi epse lat u v r ops ops' c0 c). Qed.
Print Assumptions C99_device_partial.
Example C99_device_met J1 : exists (c0 c : crystal 1) RT,
  [/\ eig_complete full_eig, one_order = Ok c0, crystal_lattice 1 (LatticeVectors unit_square) = Ok unit_square, history full_eig J1 c0 (with_disc 0 0 1 0) c & all_calls outer_call (with_disc 0 0 1 0) /\
      all_alike (picture_moved (1 / 8) (1 / 16)) (islands_moved (e_reciprocal (c_exp c0)) (on_lattice unit_square (1 / 8) (1 / 16)%Re)) eq
        (with_disc 0 0 1 0) (with_disc (0 + 1 / 8) (0 + 1 / 16) 1 0) /\
      poynting_flux_orders c = Ok RT].
Proof.
have [c0 [c [RT [h1 h2 h3 [_ h4 h5]]]]] := disc_device J1 0 0 te1.
exists c0, c, RT; split; [exact: full_eig_ok | by [] | by [] | by [] | do 2 split=> //].
by rewrite h4; apply: ex_device; exact: unit_resolved.
Qed.

(** ** C100 Turning or reflecting the axes of the laboratory changes no flux *)
Theorem C100_oblique n eig J1 pw l x void epsi epse lat ops ops' (c0 c : crystal n) : eig_complete eig ->
  mk_crystal n pw l x void epsi epse = Ok c0 -> crystal_lattice x l = Ok lat -> history eig J1 c0 ops c -> all_calls outer_call ops ->
  forall a b s : R, isometry a b s -> oblique (c_kp c) ->
  all_alike eq (islands_turned a b s (e_reciprocal (c_exp c0))) (source_turned a b s) ops ops' ->
  exists c0' c', [/\ mk_crystal n pw (LatticeVectors (turn a b s lat.1, turn a b s lat.2)) x void epsi epse = Ok c0',
  history eig J1 c0' ops' c', c_kp c' = turn_kp a b s (c_kp c) &
  forall Rs Ts, poynting_flux_orders c = Ok (Rs, Ts) -> poynting_flux_orders c' = Ok (Rs, Ts)].
Proof. exact (@turn_oblique n eig J1 pw l x void epsi epse lat ops ops' c0 c). Qed.
Print Assumptions C100_oblique.
(** A wave at kx = 3/5 and its mirror image in a slanted line. *)
Example C100_oblique_met J1 : exists (c0 c : crystal 1) RT,
  [/\ eig_complete full_eig, mk_crystal 1 (1, 1)%N (LatticeVectors unit_square) 1 false 1 1 = Ok c0, history full_eig J1 c0 (obl_calls ++ [:: Solve]) c,
      all_calls outer_call (obl_calls ++ [:: Solve]) & isometry (3 / 5) (4 / 5) (-1) /\ oblique (c_kp c) /\
      all_alike eq (islands_turned (3 / 5) (4 / 5) (-1) (e_reciprocal (c_exp c0))) (source_turned (3 / 5) (4 / 5) (-1)) (obl_calls ++ [:: Solve]) obl_turned /\
      poynting_flux_orders c = Ok RT].
Proof.
have [c0 [c [RT [h1 h2 h3 h4 h5]]]] := oblique_device J1.
exists c0, c, RT; split; [exact: full_eig_ok | by [] | by [] | by [] | split; first exact: iso_slanted].
by do 2 split=> //; exact: ex_oblique.
Qed.

Theorem C100_normal n eig J1 pw l x void epsi epse lat ops ops' (c0 c : crystal n) : eig_complete eig ->
  mk_crystal n pw l x void epsi epse = Ok c0 -> crystal_lattice x l = Ok lat -> history eig J1 c0 ops c -> all_calls outer_call ops ->
  forall a b s : R, isometry a b s -> near_normal (c_kp c) ->
  all_alike eq (islands_turned a b s (e_reciprocal (c_exp c0))) (source_turned_normal a b s) ops ops' ->
  exists c0' c', [/\ mk_crystal n pw (LatticeVectors (turn a b s lat.1, turn a b s lat.2)) x void epsi epse = Ok c0',
  history eig J1 c0' ops' c', c_kp c' = turn_kp a b s (c_kp c) &
  forall Rs Ts, poynting_flux_orders c = Ok (Rs, Ts) -> poynting_flux_orders c' = Ok (Rs, Ts)].
Proof. exact (@turn_normal n eig J1 pw l x void epsi epse lat ops ops' c0 c). Qed.
Print Assumptions C100_normal.
(** A disc off the origin, a quarter turn further. *)
Example C100_normal_met J1 : exists (c0 c : crystal 1) RT,
  [/\ eig_complete full_eig, one_order = Ok c0, history full_eig J1 c0 (with_disc (1 / 8) 0 1 0) c,
      all_calls outer_call (with_disc (1 / 8) 0 1 0) & isometry 0 1 1 /\ near_normal (c_kp c) /\
      all_alike eq (islands_turned 0 1 1 (e_reciprocal (c_exp c0))) (source_turned_normal 0 1 1) (with_disc (1 / 8) 0 1 0) (disc_turned 1 0) /\
      poynting_flux_orders c = Ok RT].
Proof.
have [c0 [c [RT [h1 h2 h3 [h6 h4 h5]]]]] := disc_device J1 (1 / 8)%Re 0 te1.
exists c0, c, RT; split; [exact: full_eig_ok | by [] | by [] | by [] | split; first exact: iso_quarter].
split; first by rewrite h6; exact: normal0.
by split=> //; rewrite h4; exact: ex_turned.
Qed.

(** ** C101 The names of the lattice vectors are free *)
Theorem C101_exchanged n eig J1 pw l x void epsi epse lat ops ops' (c0 c : crystal n) : eig_complete eig ->
  mk_crystal n pw l x void epsi epse = Ok c0 -> crystal_lattice x l = Ok lat -> history eig J1 c0 ops c -> all_calls outer_call ops ->
  all_alike picture_transposed (islands_kept pw) eq ops ops' ->
  exists c0' c', [/\ mk_crystal n (pw.2, pw.1) (LatticeVectors (lat.2, lat.1)) x void epsi epse = Ok c0', history eig J1 c0' ops' c' &
  forall Rs Ts, poynting_flux_orders c = Ok (Rs, Ts) -> exists Rs' Ts', [/\ poynting_flux_orders c' = Ok (Rs', Ts'),
    forall i i' : 'I_n, same_order pw.1 pw.2 i i' -> Rs' ord0 i' = Rs ord0 i /\ Ts' ord0 i' = Ts ord0 i, total Rs' = total Rs & total Ts' = total Ts]].
Proof. exact (@exchange n eig J1 pw l x void epsi epse lat ops ops' c0 c). Qed.
Print Assumptions C101_exchanged.
(** A ramp along the first axis, transposed; and two tables of 3 by 5 orders. *)
Example C101_exchanged_met J1 : exists (c0 c : crystal 1) RT,
  [/\ eig_complete full_eig, one_order = Ok c0, history full_eig J1 c0 (with_picture ramp 1 0) c, all_calls outer_call (with_picture ramp 1 0) &
      all_alike picture_transposed (islands_kept (1, 1)%N) eq (with_picture ramp 1 0) (with_picture ramp_transposed 1 0) /\ poynting_flux_orders c = Ok RT].
Proof.
have [c0 [c [RT [h1 h2 h3 _ h5]]]] := picture_device J1 te1 (erefl _ : a_rows ramp = _) erefl ramp_mean.
by exists c0, c, RT; split; [exact: full_eig_ok | by [] | by [] | by [] | split; last by []; exact: ex_transposed].
Qed.
Example C101_order : same_order 3 5 4 6 /\ same_order 3 5 11 13 /\ opposite_order 3 3 5.
Proof. by []. Qed.

Theorem C101_reversed n eig J1 pw l x void epsi epse lat ops ops' (c0 c : crystal n) : eig_complete eig ->
  mk_crystal n pw l x void epsi epse = Ok c0 -> crystal_lattice x l = Ok lat -> history eig J1 c0 ops c -> all_calls outer_call ops ->
  all_alike picture_reversed (islands_on_line pw) eq ops ops' -> exists c0' c', [/\
  mk_crystal n pw (LatticeVectors (opp2 lat.1, lat.2)) x void epsi epse = Ok c0', history eig J1 c0' ops' c' &
  forall Rs Ts, poynting_flux_orders c = Ok (Rs, Ts) -> exists Rs' Ts', [/\ poynting_flux_orders c' = Ok (Rs', Ts'),
    forall i i' : 'I_n, opposite_order pw.1 i i' -> Rs' ord0 i' = Rs ord0 i /\ Ts' ord0 i' = Ts ord0 i, total Rs' = total Rs & total Ts' = total Ts]].
Proof. exact (@reverse_main n eig J1 pw l x void epsi epse lat ops ops' c0 c). Qed.
Print Assumptions C101_reversed.
Example C101_reversed_met J1 : exists (c0 c : crystal 1) RT,
  [/\ eig_complete full_eig, one_order = Ok c0, history full_eig J1 c0 (with_picture ramp 1 0) c, all_calls outer_call (with_picture ramp 1 0) &
      all_alike picture_reversed (islands_on_line (1, 1)%N) eq (with_picture ramp 1 0) (with_picture ramp_reversed 1 0) /\ poynting_flux_orders c = Ok RT].
Proof.
have [c0 [c [RT [h1 h2 h3 _ h5]]]] := picture_device J1 te1 (erefl _ : a_rows ramp = _) erefl ramp_mean.
by exists c0, c, RT; split; [exact: full_eig_ok | by [] | by [] | by [] | split; last by []; exact: ex_reversed].
Qed.

(** ** C102 Mirror images *)
Theorem C102_oblique n eig J1 pw l x void epsi epse lat ops ops' (c0 c : crystal n) : eig_complete eig ->
  mk_crystal n pw l x void epsi epse = Ok c0 -> crystal_lattice x l = Ok lat -> history eig J1 c0 ops c -> all_calls outer_call ops ->
  forall a b s : R, isometry a b s -> oblique (c_kp c) ->
  all_alike picture_transposed (islands_mirrored a b s pw (e_reciprocal (c_exp c0))) (source_turned a b s) ops ops' ->
  exists c0' c', [/\ mk_crystal n (pw.2, pw.1) (LatticeVectors (turn a b s lat.2, turn a b s lat.1)) x void epsi epse = Ok c0',
  history eig J1 c0' ops' c', c_kp c' = turn_kp a b s (c_kp c) &
  forall Rs Ts, poynting_flux_orders c = Ok (Rs, Ts) -> exists Rs' Ts', [/\ poynting_flux_orders c' = Ok (Rs', Ts'),
    forall i i' : 'I_n, same_order pw.1 pw.2 i i' -> Rs' ord0 i' = Rs ord0 i /\ Ts' ord0 i' = Ts ord0 i, total Rs' = total Rs & total Ts' = total Ts]].
Proof. exact (@mirror_oblique n eig J1 pw l x void epsi epse lat ops ops' c0 c). Qed.
Print Assumptions C102_oblique.
Example C102_oblique_met J1 : exists (c0 c : crystal 1) RT,
  [/\ eig_complete full_eig, mk_crystal 1 (1, 1)%N (LatticeVectors unit_square) 1 false 1 1 = Ok c0, history full_eig J1 c0 (obl_calls ++ [:: Solve]) c,
      all_calls outer_call (obl_calls ++ [:: Solve]) & isometry (3 / 5) (4 / 5) (-1) /\ oblique (c_kp c) /\
      all_alike picture_transposed (islands_mirrored (3 / 5) (4 / 5) (-1) (1, 1)%N (e_reciprocal (c_exp c0))) (source_turned (3 / 5) (4 / 5) (-1)) (obl_calls ++ [:: Solve]) obl_turned /\
      poynting_flux_orders c = Ok RT].
Proof.
have [c0 [c [RT [h1 h2 h3 h4 h5]]]] := oblique_device J1.
exists c0, c, RT; split; [exact: full_eig_ok | by [] | by [] | by [] | split; first exact: iso_slanted].
by do 2 split=> //; exact: ex_oblique.
Qed.

Theorem C102_normal n eig J1 pw l x void epsi epse lat ops ops' (c0 c : crystal n) : eig_complete eig ->
  mk_crystal n pw l x void epsi epse = Ok c0 -> crystal_lattice x l = Ok lat -> history eig J1 c0 ops c -> all_calls outer_call ops ->
  forall a b s : R, isometry a b s -> near_normal (c_kp c) ->
  all_alike picture_transposed (islands_mirrored a b s pw (e_reciprocal (c_exp c0))) (source_turned_normal a b s) ops ops' ->
  exists c0' c', [/\ mk_crystal n (pw.2, pw.1) (LatticeVectors (turn a b s lat.2, turn a b s lat.1)) x void epsi epse = Ok c0',
  history eig J1 c0' ops' c', c_kp c' = turn_kp a b s (c_kp c) &
  forall Rs Ts, poynting_flux_orders c = Ok (Rs, Ts) -> exists Rs' Ts', [/\ poynting_flux_orders c' = Ok (Rs', Ts'),
    forall i i' : 'I_n, same_order pw.1 pw.2 i i' -> Rs' ord0 i' = Rs ord0 i /\ Ts' ord0 i' = Ts ord0 i, total Rs' = total Rs & total Ts' = total Ts]].
Proof. exact (@mirror_normal n eig J1 pw l x void epsi epse lat ops ops' c0 c). Qed.
Print Assumptions C102_normal.
Example C102_normal_met J1 : exists (c0 c : crystal 1) RT,
  [/\ eig_complete full_eig, one_order = Ok c0, history full_eig J1 c0 (with_disc (1 / 8) 0 1 0) c,
      all_calls outer_call (with_disc (1 / 8) 0 1 0) & isometry 0 1 1 /\ near_normal (c_kp c) /\
      all_alike picture_transposed (islands_mirrored 0 1 1 (1, 1)%N (e_reciprocal (c_exp c0))) (source_turned_normal 0 1 1) (with_disc (1 / 8) 0 1 0) (disc_turned 1 0) /\
      poynting_flux_orders c = Ok RT].
Proof.
have [c0 [c [RT [h1 h2 h3 [h6 h4 h5]]]]] := disc_device J1 (1 / 8)%Re 0 te1.
exists c0, c, RT; split; [exact: full_eig_ok | by [] | by [] | by [] | split; first exact: iso_quarter].
split; first by rewrite h6; exact: normal0.
by split=> //; rewrite h4; apply: ex_turned => i i' hi; split=> //; left.
Qed.

(** A device that is its own mirror image in the diagonal of its cell treats the two
    polarisations alike at normal incidence. *)
Theorem C102_degenerate n eig J1 pw l x void epsi epse lat ops ops' (c0 c : crystal n) : eig_complete eig ->
  mk_crystal n pw l x void epsi epse = Ok c0 -> crystal_lattice x l = Ok lat -> history eig J1 c0 ops c -> all_calls outer_call ops ->
  pw.1 = pw.2 -> lat.2 = (lat.1.2, lat.1.1) ->
  all_alike picture_symmetric (islands_symmetric pw (e_reciprocal (c_exp c0))) source_exchanged ops ops' ->
  exists c', history eig J1 c0 ops' c' /\
  forall Rs Ts, poynting_flux_orders c = Ok (Rs, Ts) -> exists Rs' Ts', [/\ poynting_flux_orders c' = Ok (Rs', Ts'),
    forall i i' : 'I_n, same_order pw.1 pw.2 i i' -> Rs' ord0 i' = Rs ord0 i /\ Ts' ord0 i' = Ts ord0 i, total Rs' = total Rs & total Ts' = total Ts].
Proof. exact (@degenerate n eig J1 pw l x void epsi epse lat ops ops' c0 c). Qed.
Print Assumptions C102_degenerate.
Example C102_degenerate_met J1 : exists (c0 c : crystal 1) RT,
  [/\ eig_complete full_eig, one_order = Ok c0, history full_eig J1 c0 (with_picture bump 1 0) c, all_calls outer_call (with_picture bump 1 0) &
      unit_square.2 = (unit_square.1.2, unit_square.1.1) /\
      all_alike picture_symmetric (islands_symmetric (1, 1)%N (e_reciprocal (c_exp c0))) source_exchanged (with_picture bump 1 0) (with_picture bump 0 1) /\ poynting_flux_orders c = Ok RT].
Proof.
have [c0 [c [RT [h1 h2 h3 _ h5]]]] := picture_device J1 te1 (erefl _ : a_rows bump = _) erefl bump_mean.
by exists c0, c, RT; split; [exact: full_eig_ok | by [] | by [] | by [] | split; first by []; split; last by []; exact: ex_symmetric].
Qed.
