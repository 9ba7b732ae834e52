(** C86: the energy that crosses the planes of a device, from its field maps.

    This file contains only the property theorems and the examples that meet their
    hypotheses; the definitions are in ModelFields.v, ModelDevice.v, ModelFlux.v,
    SpecFields.v, SpecFlux.v and SpecPlane.v, the proofs in PlaneProofs.v. *)
From Coq Require Import Reals ZArith Lra Lia String.
From mathcomp Require Import all_ssreflect all_algebra.
From Coquelicot Require Import Complex Rbar.
From Verif Require Import Base ZmodTac CField CFun Blk ModelRedheffer SpecScatter SpecStack ModelLayer SpecLayer
  SpecMaxwell SpecThinFilm EnergyAlg SpecEnergy SpecEig ModelExpansion SpecExpansion ModelFlux SpecFlux ModelFourier
  ModelExtension ModelDevice SpecDevice DeviceProofs FilmDevice DepthProofs DeviceExamples
  ModelFields SpecFields FieldsProofs LongProofs FieldsTheorems FieldsExamples ScalarProofs LayerRoutes SpecPlane PlaneProofs.
Set Implicit Arguments. Unset Strict Implicit. Unset Printing Implicit Defensive.
Import GRing.Theory.
Local Open Scope ring_scope.

(** ** C86 The energy that crosses a plane of a device *)

(** In a device of lossless layers the flux of the fields at every plane between the
    two ends of the stack is the same. *)
Theorem C86_lossless eig J1 (n : nat) (ei ee : R) (c0 c c' : crystal n) ops ds inc z1 z2 v1 v2 :
  eigen_equation eig -> created c0 false (RtoC ei) (RtoC ee) -> all_calls lossless_call ops ->
  history eig J1 c0 ops c -> step eig J1 c Solve c' -> good_source c' ->
  device_depths c' ds -> all_positive ds -> unclipped c' -> (forall z, is_ok (fourier_fields c' z inc)) ->
  (0 <= z1)%Re -> (z1 <= depth_before ds (size ds))%Re -> (0 <= z2)%Re -> (z2 <= depth_before ds (size ds))%Re ->
  fourier_fields c' z1 inc = Ok v1 -> fourier_fields c' z2 inc = Ok v2 -> plane_flux v1.1 = plane_flux v2.1.
Proof.
by move=> a b h d e f g i j k; apply: (planes_lossless a b d e f g i j k h).
Qed.
Print Assumptions C86_lossless.

(** In a device of passive layers it never grows with depth. *)
Theorem C86_passive eig J1 (n : nat) (ei ee : R) (c0 c c' : crystal n) ops ds inc z1 z2 v1 v2 :
  eigen_equation eig -> created c0 false (RtoC ei) (RtoC ee) -> all_calls passive_call ops ->
  history eig J1 c0 ops c -> step eig J1 c Solve c' -> good_source c' ->
  device_depths c' ds -> all_positive ds -> unclipped c' -> (forall z, is_ok (fourier_fields c' z inc)) ->
  (0 <= z1)%Re -> (z1 <= z2)%Re -> (z2 <= depth_before ds (size ds))%Re ->
  fourier_fields c' z1 inc = Ok v1 -> fourier_fields c' z2 inc = Ok v2 -> (plane_flux v2.1 <= plane_flux v1.1)%Re.
Proof.
by move=> a b h d e f g i j k; apply: (planes_passive a b d e f g i j k h).
Qed.
Print Assumptions C86_passive.

(** At the two ends it is what the reported fluxes R and T say: the incident flux q
    less the reflected part, and the transmitted part, where q is the normalised
    normal wavevector of the incident wave and x the ratio of the amplitude of the
    maps to the one of the fluxes. *)
Theorem C86_ends eig J1 (n : nat) (ei ee : R) (c0 c c' : crystal n) ops ds inc (x : C) a r t :
  eigen_equation eig -> created c0 false (RtoC ei) (RtoC ee) -> all_calls lossless_call ops \/ all_calls passive_call ops ->
  history eig J1 c0 ops c -> step eig J1 c Solve c' -> good_source c' ->
  device_depths c' ds -> all_positive ds -> unclipped c' -> (forall z, is_ok (fourier_fields c' z inc)) ->
  map_amplitude c' inc (x *: a) -> flux_amplitude c' a -> poynting_flux_end c' = Ok (r, t) ->
  exists src q, [/\ c_source c' = Some src, (0 < q)%Re, c_kzi c' = RtoC (2 * PI / s_wl src * q)%Re &
    (forall v, fourier_fields c' 0%Re inc = Ok v -> plane_flux v.1 = (sqmod x * (q * (1 - r)))%Re) /\
    (forall v, fourier_fields c' (depth_before ds (size ds)) inc = Ok v -> plane_flux v.1 = (sqmod x * (q * t))%Re)].
Proof.
by move=> a1 b h d e f g i j k; apply: (planes_ends a1 b d e f g i j k h).
Qed.
Print Assumptions C86_ends.

(** A film of index 3 between air and glass of index 2, lit by the default source: the
    maps have half the amplitude of the fluxes (C36), so the flux through every plane
    is a quarter of T, which is not zero. *)
Example C86_hypotheses_met J1 : exists (c0 c c' : crystal 1) ops ds inc a r t,
  [/\ eigen_equation scalar_eig, created c0 false (RtoC (1 * 1)%Re) (RtoC (2 * 2)%Re),
      all_calls lossless_call ops, all_calls passive_call ops & history scalar_eig J1 c0 ops c] /\
  [/\ step scalar_eig J1 c Solve c', good_source c', device_depths c' ds, all_positive ds & unclipped c'] /\
  [/\ forall z, is_ok (fourier_fields c' z inc), source_fields c' = Ok inc, map_amplitude c' inc (2%:R^-1 *: a),
      flux_amplitude c' a & poynting_flux_end c' = Ok (r, t) /\ (0 < t)%Re].
Proof.
have hp : (1 : C, 0 : C) <> (0, 0) by case=> h; move: h; lra.
have p1 : (0 < 1)%Re by lra.
have p2 : (0 < 2)%Re by lra.
have p3 : (0 < 3)%Re by lra.
have [e [sol [[hpw hg k1 k2 k3] [k4 k5 k6 k7 k8]]]] := @film_fields scalar_eig J1 1 2 1 1 (RtoC 3) 1 0 p1 p2 p3 erefl p1 p1.
have [inc [a [b [a1 a2 a3 a4]]]] := @film_amplitudes 1 2 1 1 (RtoC 3) 1 0 p1 p1 hp e sol.
have ha := half_amplitude k1 k2 k3 k4 a1 a2 a3.
have hf := film_fluxes hpw hg 1 (RtoC 3) p1 p2 p1 hp _ k5 erefl erefl.
do 3 eexists; exists (film_calls 1 1 (RtoC 3) 1 0), [:: 1%Re], inc, b; do 2 eexists; split; last split; last split.
- split; [exact: scalar_eig_ok|exact: k1|by apply: film_calls_lossless|by apply: film_calls_passive => //=; lra|exact: k3].
- split; [exact: k4| |exact: k6|by case=> //= _; lra|exact: k7].
  by split; [eexists; split; [reflexivity|] | do 2 split=> //; left].
- exact: k8.
- exact: a1.
- by rewrite -ha.
- exact: a3.
- by split; [exact: hf|exact: film_transmits].
Qed.
