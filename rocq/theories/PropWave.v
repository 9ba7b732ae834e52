(** Property C111: the incident wave of the T-matrix API. *)
From Coq Require Import Reals.
From mathcomp Require Import all_ssreflect all_algebra.
From Coquelicot Require Import Complex.
From Verif Require Import Base CField CFun ModelExpansion ModelLattice SpecLattice SpecBloch SpecWave WaveProofs.
Set Implicit Arguments. Unset Strict Implicit. Unset Printing Implicit Defensive.
Import GRing.Theory.
Local Open Scope ring_scope.

(** The amplitudes returned by incident are those of one plane wave, in the zero order,
    with the requested polarisations: s along (uy, -ux), p against u, where u is the
    direction of the in-plane wavevector, or the x axis at normal incidence. *)
Theorem C111_fields p a1 a2 ei ee L n wl kp V E0 pp sp pin : mk_lattice p a1 a2 ei ee = Ok L ->
  @lattice_Vi n L wl kp = Ok V -> tmat_incident n p E0 pp sp = Ok pin ->
  exists u : vec2, [/\ direction kp u, (u.1 ^ 2 + u.2 ^ 2 = 1)%Re &
    plane_wave (p.1 %/ 2 + p.1 * (p.2 %/ 2)) u
      (compute_kz ei wl kp (0%Re, 0%Re) / (csqrt (num_val ei) * RtoC (2 * PI / wl))) (csqrt (num_val ei) / RtoC mu0c)
      (sp * E0) (pp * E0) (V *m pin)].
Proof. exact (fun hL hV hi => ex_intro _ _ (And3 (wave_dir kp) (wave_unit kp) (wave_fields hL hV hi))). Qed.
Print Assumptions C111_fields.

(** The power that this wave carries through the plane, in a transparent medium. *)
Theorem C111_power p a1 a2 ei ee L n wl kp V E0 pp sp pin r : mk_lattice p a1 a2 ei ee = Ok L ->
  @lattice_Vi n L wl kp = Ok V -> tmat_incident n p E0 pp sp = Ok pin -> num_val ei = RtoC r -> (0 < r)%Re -> (0 < wl)%Re ->
  (kp.1 ^ 2 + kp.2 ^ 2 <= r * (2 * PI / wl) ^ 2)%Re ->
  power (V *m pin) = (sqrt r / mu0c * sqrt (1 - (kp.1 ^ 2 + kp.2 ^ 2) / (r * (2 * PI / wl) ^ 2)) * (Cmod E0 ^ 2 * (Cmod sp ^ 2 + Cmod pp ^ 2)))%Re.
Proof. exact (@incident_power p a1 a2 ei ee L n wl kp V E0 pp sp pin r). Qed.
Print Assumptions C111_power.

(** A wave in a medium of index 2, at an angle whose sine is one quarter. *)
Example C111_hypotheses_met : exists L V, let kp := (1%Re, 0%Re) in let wl := PI in
  [/\ mk_lattice (1, 1)%N (1%Re, 0%Re) (0%Re, 1%Re) (Float 4) (Float 1) = Ok L, lattice_Vi 1 L wl kp = Ok V,
      is_ok (tmat_incident 1 (1, 1)%N 1 (RtoC (3 / 5)) (RtoC (4 / 5))), (0 < wl)%Re & (kp.1 ^ 2 + kp.2 ^ 2 <= 4 * (2 * PI / wl) ^ 2)%Re].
Proof. exact oblique_example. Qed.
