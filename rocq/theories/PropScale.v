(** Property C98: the same device with all lengths in another unit. *)
From Coq Require Import Reals ZArith Lra String.
From mathcomp Require Import all_ssreflect all_algebra.
From Coquelicot Require Import Complex Rbar.
From Verif Require Import Base CField CFun ModelExpansion ModelFourier ModelDevice ModelFields ModelLayer SpecDevice
  ScalarProofs FilmDevice DeviceExamples SpecScale ScaleProofs ScaleExamples.
Set Implicit Arguments. Unset Strict Implicit. Unset Printing Implicit Defensive.
Import GRing.Theory.
Local Open Scope ring_scope.

(** ** C98 Maxwell's equations have no unit of length *)

(** Every sequence of calls that works on a crystal works on the crystal with lattice,
    islands, depths and wavelength multiplied by [s] (and imposed wavevectors divided
    by it), and gives the same scattering matrix, fluxes order by order and fields at
    the corresponding points.  Partial: where the code compares a wavevector with
    1e-8, both sides must be on the same side of it. *)
Theorem C98_scale_partial (s : R) eig J1 n pw l (a : R) void epsi epse (c0 c : crystal n) ops : (0 < s)%Re ->
  mk_crystal n pw l a void epsi epse = Ok c0 -> history eig J1 c0 ops c -> all_calls (resolved_call s (c_exp c0)) ops ->
  exists c0' c' : crystal n, [/\ mk_crystal n pw (longer_lattice s l) (s * a) void epsi epse = Ok c0',
    history eig J1 c0' (map (longer_call s) ops) c',
    (forall sol, c_solution c = Some sol -> exists sol', [/\ c_solution c' = Some sol', r_S sol' = r_S sol &
      r_positions sol' = map (longer_bar s) (r_positions sol)]),
    (same_side s (c_kp c) -> poynting_flux_orders c' = poynting_flux_orders c) &
    forall x y z inc, same_side s (c_kp c) \/ inc <> None ->
      fields_coords_xy c' (s * x) (s * y) (s * z) inc = fields_coords_xy c x y z inc].
Proof. exact (@scale_invariance s eig J1 n pw l a void epsi epse c0 c ops). Qed.
Print Assumptions C98_scale_partial.

(** A film of index 3 between air and glass, solved: any [s] will do. *)
Example C98_hypotheses_met (s : R) eig J1 : (0 < s)%Re -> exists (c0 c : crystal 1) ops sol RT,
  [/\ mk_crystal 1 (1, 1)%N (LatticeName "square") 1 false (RtoC (1 * 1)%Re) (RtoC (2 * 2)%Re) = Ok c0, history eig J1 c0 ops c,
      all_calls (resolved_call s (c_exp c0)) ops, c_solution c = Some sol & same_side s (c_kp c) /\ poynting_flux_end c = Ok RT].
Proof. exact (@scale_film s eig J1). Qed.

(** A layer with a disc, on a 3 x 3 crystal of pitch 1, seen at scale 1000. *)
Example C98_resolved_met : exists c0 : crystal 9,
  [/\ mk_crystal 9 (3, 3)%N (LatticeName "square") 1 false 1 1 = Ok c0, has_disc [:: (Disc 0 0 (/ 4), RtoC 12)] &
      resolved_call 1000 (c_exp c0) (AddAnalytical "rods" [:: (Disc 0 0 (/ 4), RtoC 12)] 1 1)].
Proof. exact scale_disc. Qed.

(** Without it: an empty cell lit at an in-plane wavevector of 1e-8 per unit of length.
    Written in a unit half as long, te = 1 lights the device with the other
    polarisation. *)
Theorem C98_source_refuted eig J1 : exists (c0 c0' c c' : crystal 1) (kp : C * C), let calls := [:: SetSource 1 1 0 0 0 (Some kp)] in
  [/\ mk_crystal 1 (1, 1)%N (LatticeName "square") 1 false 1 1 = Ok c0, history eig J1 c0 calls c,
      mk_crystal 1 (1, 1)%N (LatticeName "square") (2 * 1) false 1 1 = Ok c0', history eig J1 c0' (map (longer_call 2) calls) c' &
      exists E E', [/\ source_fields c = Ok E, source_fields c' = Ok E' & E <> E']].
Proof. exact (scale_source eig J1). Qed.
Print Assumptions C98_source_refuted.
