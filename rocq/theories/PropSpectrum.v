(** Theorems about the spectra of project files (khepri/ez.py). *)
From Coq Require Import Reals ZArith String List.
From mathcomp Require Import all_ssreflect all_algebra.
From Coquelicot Require Import Complex.
From Verif Require Import Base CField CFun ModelRedheffer ModelExpansion ModelFourier ModelTmat ModelLattice SpecLattice SpecExp ExpProofs ModelEz ModelSpectrum SpecSpectrum SpectrumProofs.
Set Implicit Arguments. Unset Strict Implicit. Unset Printing Implicit Defensive.
Import GRing.Theory.
Local Open Scope ring_scope.

(** ** C81 Energy balance of spectra *)

(** Every row of a spectrum at normal incidence has R + T = 1 and A = 0: any project,
    device, islands, stacking and polarisation.  Missing: other angles (refuted
    below), and orders whose normal wavevector has an imaginary part below the float
    epsilon. *)
Theorem C81_normal_partial (J1 : R -> R) n (expm : 'M[C]_((n + n) + (n + n)) -> 'M[C]_((n + n) + (n + n))) P d device s_pol p_pol r rows w :
  is_expm expm -> compute_spectrum J1 expm P d device s_pol p_pol r = Ok rows -> (0 < p_size P)%Re ->
  In w rows -> w_theta w = 0%Re -> (0 < w_freq w)%Re -> clear_project P (w_wl w) ->
  (w_R w + w_T w = 1)%Re /\ w_A w = 0%Re.
Proof. exact (@spectrum_balance J1 n expm P d device s_pol p_pol r rows w). Qed.
Print Assumptions C81_normal_partial.

(** At any angle the currents of a pile of lossless layers on a lossless substrate
    balance: incident = reflected + transmitted. *)
Theorem C81_currents (J1 : R -> R) n (expm : 'M[C]_((n + n) + (n + n)) -> 'M[C]_((n + n) + (n + n))) p a1 a2 ei ee L wl kp r r'
    (stacking : stackings) (req : string -> option 'M[C]_((n + n) + (n + n))) d name A Si St (pin : 'cV[C]_((n + n) + (n + n))) j1p j1m j3p :
  is_expm expm -> mk_lattice p a1 a2 ei ee = Ok L -> window_fits p -> (0 < wl)%Re ->
  num_val ei = RtoC r -> (0 < r)%Re -> num_val ee = RtoC r' ->
  (forall nm M, req nm = Some M -> exists isl host dp pow, [/\ snd host = 0%Re, (forall s e, In (s, e) isl -> snd e = 0%Re) &
     scattering_matrix_islands J1 expm p L isl host wl kp dp pow = Ok M]) ->
  @stack_s C_fieldType (n + n) stacking req d name = Ok (Some A) -> scattering_interface n L wl kp = Ok Si -> multS A Si = Ok St ->
  from_left L wl kp pin -> clear_orders L (l_incid L) wl kp -> clear_orders L (l_emerg L) wl kp ->
  compute_currents pin (St *m pin) L wl kp = Ok (j1p, j1m, j3p) ->
  \sum_g j1p g = \sum_g j1m g + \sum_g j3p g.
Proof. exact (@pile_balance J1 n expm p a1 a2 ei ee L wl kp r r' stacking req d name A Si St pin j1p j1m j3p). Qed.
Print Assumptions C81_currents.

(** The spectrum of a sheet of air on glass, away from normal incidence, has an
    absorption of 144/625. *)
Theorem C81_angle_refuted (J1 : R -> R) : exists P theta rows w,
  [/\ @compute_spectrum J1 1 (@mexp _) P 5 "device" 1 0 (one_angle theta) = Ok rows, In w rows & w_A w = (144 / 625)%Re].
Proof. exact (oblique_absorbs J1). Qed.
Print Assumptions C81_angle_refuted.

(** The same sheet at normal incidence meets the hypotheses. *)
Example C81_hypotheses_met (J1 : R -> R) : is_expm (@mexp ((1 + 1) + (1 + 1))) /\ exists rows w, let P := sheet (2 * PI) in
  [/\ @compute_spectrum J1 1 (@mexp _) P 5 "device" 1 0 (one_angle 0) = Ok rows, In w rows, w_theta w = 0%Re, (0 < w_freq w)%Re &
      (0 < p_size P)%Re /\ clear_project P (w_wl w)].
Proof. by split; [exact: mexpP|exact: normal_spectrum]. Qed.

(** ** C82 The rows of a spectrum *)

(** One row for each combination, phi outermost and the frequency innermost, at
    equally spaced points from start to end (a single point is the start); the
    wavelength is the pitch over the frequency. *)
Theorem C82_rows (J1 : R -> R) n (expm : 'M[C]_((n + n) + (n + n)) -> 'M[C]_((n + n) + (n + n))) P d device s_pol p_pol r rows :
  compute_spectrum J1 expm P d device s_pol p_pol r = Ok rows ->
  let: (Np, Nt, Nf) := ((r_phi r).2, (r_theta r).2, (r_freq r).2) in
  size rows = (Np * (Nt * Nf))%N /\
  forall i j l w0, (i < Np)%N -> (j < Nt)%N -> (l < Nf)%N -> let w := nth w0 rows (i * (Nt * Nf) + (j * Nf + l))%N in
    let at_ (q : R * R * nat) (k : nat) := (q.1.1 + INR k * ((q.1.2 - q.1.1) / INR (q.2 - 1)))%Re in
    [/\ w_phi w = at_ (r_phi r) i, w_theta w = at_ (r_theta r) j, w_freq w = at_ (r_freq r) l & w_wl w = (p_size P / w_freq w)%Re].
Proof. exact (@spectrum_rows J1 n expm P d device s_pol p_pol r rows). Qed.
Print Assumptions C82_rows.

Example C82_hypothesis_met (J1 : R -> R) : exists rows, @compute_spectrum J1 1 (@mexp _) (sheet (2 * PI)) 5 "device" 1 0 (one_angle 0) = Ok rows.
Proof. by have [rows [w [h _ _ _ _]]] := normal_spectrum J1; exists rows. Qed.
