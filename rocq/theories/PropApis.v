(** Property C89: the two APIs of the library on the same film. *)
From Coq Require Import Reals ZArith Lra String.
From mathcomp Require Import all_ssreflect all_algebra.
From Coquelicot Require Import Complex.
From Verif Require Import Base CField CFun ModelExpansion ModelFlux ModelFourier ModelDevice SpecDevice ModelTmat
  ModelLattice SpecLattice SpecFresnel TmatExamples ApisProofs.
Set Implicit Arguments. Unset Strict Implicit. Unset Printing Implicit Defensive.
Import GRing.Theory.
Local Open Scope ring_scope.

(** ** C89 The crystal API and the T-matrix API agree *)

(** A film of index w, lossless or absorbing, between two lossless media, at normal
    incidence.  On one side a Multilayer with the film, solved; on the other side the
    T-matrix layer, with any number of orders, of slices and of islands of the same
    medium, followed by the interface.  Time goes the other way, hence the conjugate
    permittivity.  For any polarisations on both sides the reported reflectance and
    transmittance are the same numbers. *)
Theorem C89_same_film eig J1 J1' (n1 n3 d wl : R) (w te tm : C) :
  (0 < n1)%Re -> (0 < n3)%Re -> (0 < fst w)%Re -> (snd w <= 0)%Re -> (0 <= d)%Re -> (0 < wl)%Re -> (te, tm) <> (0, 0) ->
  exists (c0 c c' : crystal 1),
  [/\ multilayer 1 (RtoC (n1 * n1)%Re) (RtoC (n3 * n3)%Re) = Ok c0,
      history eig J1 c0 [:: AddUniform "film" (w * w) d; SetDevice [:: "film"%string] (inl true);
                            SetSource wl te tm 0 0 None] c,
      step eig J1 c Solve c', good_source c' &
  forall p a1 a2 L n (expm : 'M[C]_((n + n) + (n + n)) -> 'M[C]_((n + n) + (n + n))) isl pow S1 S2 S E0 pp sp pin kp' f,
  let kp := (0%Re, 0%Re) in let host := Cconj (w * w) in
  mk_lattice p a1 a2 (Float (n1 * n1)) (Float (n3 * n3)) = Ok L -> window_fits p -> (0 < p.1)%N -> exponential expm ->
  not_tiny L kp -> map snd isl = nseq (size isl) host -> no_anomaly L (Complex host) wl kp ->
  (forall g : 'I_n, p_index L (l_incid L) wl kp g + p_index L (Complex host) wl kp g <> 0) ->
  scattering_matrix_islands J1' expm p L isl host wl kp d pow = Ok S1 -> scattering_interface n L wl kp = Ok S2 ->
  multS S1 S2 = Ok S -> tmat_incident n p E0 pp sp = Ok pin -> compute_fluxes L wl pin (S *m pin) kp' = Ok f ->
  poynting_flux_end c' = Ok f.1 /\ (f.2 = 1 - f.1.1 - f.1.2)%Re].
Proof. exact (@same_film eig J1 J1' n1 n3 d wl w te tm). Qed.
Print Assumptions C89_same_film.

(** With one order every lossless film goes through the T-matrix API. *)
Theorem C89_defined J1 (n1 n2 n3 d wl : R) pow :
  (0 < n1)%Re -> (0 < n2)%Re -> (0 < n3)%Re -> (0 <= d)%Re -> (0 < wl)%Re ->
  let kp := (0%Re, 0%Re) in let host := RtoC (n2 * n2) in exists L S1 S2 S f, let expm := @some_expm ((1 + 1) + (1 + 1)) in
  [/\ mk_lattice (1, 1)%N (1%Re, 0%Re) (0%Re, 1%Re) (Float (n1 * n1)) (Float (n3 * n3)) = Ok L, exponential expm,
      not_tiny L kp, no_anomaly L (Complex host) wl kp &
      forall g : 'I_1, p_index L (l_incid L) wl kp g + p_index L (Complex host) wl kp g <> 0] /\
  [/\ @scattering_matrix_islands J1 1 expm (1, 1)%N L [::] host wl kp d pow = Ok S1, scattering_interface 1 L wl kp = Ok S2,
      multS S1 S2 = Ok S, tmat_incident 1 (1, 1)%N 1 0 1 = Ok unit_wave & compute_fluxes L wl unit_wave (S *m unit_wave) kp = Ok f].
Proof. exact (@lossless_stack J1 n1 n2 n3 d wl pow). Qed.
Print Assumptions C89_defined.

(** A film of index 4/3 on a medium of index 2. *)
Example C89_hypotheses_met J1 : let kp := (0%Re, 0%Re) in let host := RtoC (4 / 3 * (4 / 3)) in
  exists L S1 S2 S f, let expm := @some_expm ((1 + 1) + (1 + 1)) in
  [/\ mk_lattice (1, 1)%N (1%Re, 0%Re) (0%Re, 1%Re) (Float (1 * 1)) (Float (2 * 2)) = Ok L, exponential expm,
      not_tiny L kp, no_anomaly L (Complex host) 5 kp &
      forall g : 'I_1, p_index L (l_incid L) 5 kp g + p_index L (Complex host) 5 kp g <> 0] /\
  [/\ @scattering_matrix_islands J1 1 expm (1, 1)%N L [::] host 5 kp 1 3 = Ok S1, scattering_interface 1 L 5 kp = Ok S2,
      multS S1 S2 = Ok S, tmat_incident 1 (1, 1)%N 1 0 1 = Ok unit_wave & compute_fluxes L 5 unit_wave (S *m unit_wave) kp = Ok f].
Proof. by apply: (@C89_defined J1 1%Re (4 / 3)%Re 2%Re 1%Re 5%Re 3); lra. Qed.
