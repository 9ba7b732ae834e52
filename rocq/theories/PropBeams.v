(** Beams (khepri/beams.py). *)
From Coq Require Import Reals ZArith Lra Lia.
From mathcomp Require Import all_ssreflect all_algebra.
From Coquelicot Require Import Complex.
From Verif Require Import Base CField CFun RField ModelExpansion ModelBeams SpecBeams RotationProofs GridProofs BeamProofs
  ParaxialProofs AmplitudeProofs BeamTheorems.
Set Implicit Arguments. Unset Strict Implicit. Unset Printing Implicit Defensive.
Import GRing.Theory.
Local Open Scope ring_scope.

(** C58: the grid of the Brillouin zone.  A negative number of points gives an empty
    grid. *)
Theorem C58_defined shape a reciproc : is_ok (gen_bzi_grid shape a reciproc) <->
  [/\ shape.1 <> Z0, shape.2 <> Z0 & reciproc = None -> a <> 0%Re].
Proof. exact (grid_defined shape a reciproc). Qed.
Print Assumptions C58_defined.

Theorem C58_points shape a reciproc g : gen_bzi_grid shape a reciproc = Ok g ->
  let n := Z.to_nat shape.1 in let m := Z.to_nat shape.2 in
  size g = (n * m)%N /\
  forall i j, (i < n)%N -> (j < m)%N -> nth (0%Re, 0%Re) g (i * m + j) = in_basis (basis_of a reciproc) (middle n i) (middle m j).
Proof. exact (fun h => conj (grid_size h) (grid_nth h)). Qed.
Print Assumptions C58_points.

Theorem C58_inside shape a reciproc g p : gen_bzi_grid shape a reciproc = Ok g -> p \in g ->
  exists u v, [/\ p = in_basis (basis_of a reciproc) u v, (Rabs u < 1 / 2)%Re & (Rabs v < 1 / 2)%Re].
Proof. exact (fun h => @grid_inside _ _ _ _ h p). Qed.
Print Assumptions C58_inside.

Theorem C58_symmetric shape a reciproc g p : gen_bzi_grid shape a reciproc = Ok g -> p \in g -> opposite p \in g.
Proof. exact (fun h => @grid_opposite _ _ _ _ h p). Qed.
Print Assumptions C58_symmetric.

Theorem C58_zero_mean shape a reciproc g : gen_bzi_grid shape a reciproc = Ok g ->
  \sum_(p <- g) p.1 = 0 /\ \sum_(p <- g) p.2 = 0.
Proof. exact (@grid_mean shape a reciproc g). Qed.
Print Assumptions C58_zero_mean.

Theorem C58_distinct shape a reciproc g : gen_bzi_grid shape a reciproc = Ok g ->
  independent (basis_of a reciproc) -> uniq g.
Proof. exact (@grid_uniq shape a reciproc g). Qed.
Print Assumptions C58_distinct.

Example C58_example : exists g, gen_bzi_grid (Zpos 3, Zpos 2) 2 None = Ok g /\
  [/\ size g = 6%N, nth (0%Re, 0%Re) g 0 = ((- (PI / 3))%Re, (- (PI / 4))%Re) & uniq g].
Proof. exact grid_example. Qed.

(** C59: the rotation of a beam. *)
Theorem C59_rotation polar azimuthal polarization :
  let M := rotation_matrix polar azimuthal polarization in
  [/\ M^T *m M = 1%:M, \det M = 1 & M *m e_z = direction polar azimuthal].
Proof. exact (And3 (rotation_orth _ _ _) (rotation_det _ _ _) (rotation_direction _ _ _)). Qed.
Print Assumptions C59_rotation.

(** The fields are those of the beam at the point seen from its axes, turned back:
    nothing fails but the field function, and the norms are kept. *)
Theorem C59_fields field_fn r origin polar azimuthal polarization :
  let M := rotation_matrix polar azimuthal polarization in
  (forall e, field_fn (M^T *m (r - origin)) = Err e ->
     shifted_rotated_fields field_fn r origin polar azimuthal polarization = Err e) /\
  (forall E H, field_fn (M^T *m (r - origin)) = Ok (E, H) ->
     exists E' H', [/\ shifted_rotated_fields field_fn r origin polar azimuthal polarization = Ok (E', H'),
       E' = real_mx M *m E, H' = real_mx M *m H, sqnorm E' = sqnorm E & sqnorm H' = sqnorm H]).
Proof. exact (fields_rotated field_fn r origin polar azimuthal polarization). Qed.
Print Assumptions C59_fields.

(** A beam of normal incidence is not turned by its azimuth alone, but by azimuth and
    polarisation together. *)
Theorem C59_normal azimuthal polarization : rotation_matrix 0 azimuthal polarization = rotation_z (azimuthal + polarization)%Re.
Proof. exact (rotation_normal azimuthal polarization). Qed.
Print Assumptions C59_normal.

Example C59_example : rotation_matrix (PI / 2) 0 0 *m e_z = vec3 1%Re 0%Re 0%Re.
Proof. exact rotation_example. Qed.

(** C60: Gaussian and Laguerre-Gauss beams; [genlaguerre] is scipy's, with L_0 = 1. *)
Theorem C60_lowest genlaguerre x y z wl w0 er : (forall u, genlaguerre 0%N 0%N u = 1%Re) ->
  paraxial_laguerre genlaguerre x y z wl w0 er 0%N Z0 = paraxial_gaussian x y z wl w0 er.
Proof. exact (@lowest_beam genlaguerre x y z wl w0 er). Qed.
Print Assumptions C60_lowest.

Theorem C60_defined x y z wl w0 er : is_ok (paraxial_gaussian x y z wl w0 er) <-> [/\ wl <> 0, (0 < er) & w0 <> 0]%Re.
Proof. exact (beam_defined x y z wl w0 er). Qed.
Print Assumptions C60_defined.

Theorem C60_modulus x y z wl w0 er E H : paraxial_gaussian x y z wl w0 er = Ok (E, H) ->
  let ex := E ord0 ord0 in
  [/\ E = vec3 ex 0 0, H = vec3 0 (ex / RtoC (sqrt er)) 0, (0 < Cmod ex <= 1)%Re &
      Cmod ex = 1%Re <-> [/\ x = 0, y = 0 & z = 0]%Re].
Proof. exact (@beam_modulus x y z wl w0 er E H). Qed.
Print Assumptions C60_modulus.

(** The profile: a Gaussian whose width grows as sqrt(1 + (z / z_r)^2). *)
Theorem C60_profile x y z wl w0 er E H : paraxial_gaussian x y z wl w0 er = Ok (E, H) ->
  let zeta := (z * wl / (PI * (w0 * w0) * sqrt er))%Re in
  let w := (w0 * w0 * (1 + zeta * zeta))%Re in
  (Cmod (E ord0 ord0) * Cmod (E ord0 ord0) = w0 * w0 / w * exp (- (2 * (x * x + y * y) / w)))%Re.
Proof. exact (@beam_profile x y z wl w0 er E H). Qed.
Print Assumptions C60_profile.

Example C60_example : exists E H, [/\ paraxial_gaussian 0 0 3 2 5 4 = Ok (E, H) & (Cmod (E ord0 ord0) < 1)%Re].
Proof. exact beam_example. Qed.

(** C74: in a medium of permittivity er a forward beam has H = sqrt(er) E (in units of
    the vacuum impedance).  Only in vacuum. *)
Theorem C74_vacuum_partial x y z wl w0 er E H : paraxial_gaussian x y z wl w0 er = Ok (E, H) ->
  H (inord 1) ord0 = RtoC (sqrt er) * E ord0 ord0 <-> er = 1%Re.
Proof. exact (@beam_impedance x y z wl w0 er E H). Qed.
Print Assumptions C74_vacuum_partial.

Theorem C74_medium_refuted : exists wl w0 er E H, [/\ (1 < er)%Re, paraxial_gaussian 0 0 0 wl w0 er = Ok (E, H) &
  H (inord 1) ord0 <> RtoC (sqrt er) * E ord0 ord0].
Proof. exact beam_impedance_wrong. Qed.
Print Assumptions C74_medium_refuted.

(** C77: the Gaussian beam solves the paraxial wave equation of its medium, which is
    so in vacuum only: the wave number lacks the refractive index. *)
Theorem C77_vacuum_partial wl w0 : wl <> 0%Re -> w0 <> 0%Re ->
  forall x y z, paraxial_at (wavenumber wl 1) (fun x y z => gaussian_ex x y z wl w0 1) x y z.
Proof. exact (fun h1 h2 => @vacuum_paraxial wl w0 h1 h2). Qed.
Print Assumptions C77_vacuum_partial.

Theorem C77_medium_refuted : exists wl w0 er, [/\ wl <> 0%Re, w0 <> 0%Re, (0 < er)%Re &
  ~ paraxial_at (wavenumber wl er) (fun x y z => gaussian_ex x y z wl w0 er) 0 0 0].
Proof. exact medium_wrong. Qed.
Print Assumptions C77_medium_refuted.

(** In no other medium. *)
Theorem C77_only_vacuum_refuted wl w0 er : wl <> 0%Re -> w0 <> 0%Re -> (0 < er)%Re -> er <> 1%Re ->
  ~ paraxial_at (wavenumber wl er) (fun x y z => gaussian_ex x y z wl w0 er) 0 0 0.
Proof. exact (fun h1 h2 h3 h4 h => h4 (@medium_paraxial wl w0 er h1 h2 h3 h)). Qed.
Print Assumptions C77_only_vacuum_refuted.

(** C78: turning the point about the axis by an angle multiplies the field of a beam of
    charge l by exp(i l angle). *)
Theorem C78_charge genlaguerre x y z wl w0 er angle p l :
  laguerre_ex genlaguerre (cos angle * x - sin angle * y)%Re (sin angle * x + cos angle * y)%Re z wl w0 er p l =
  cexp (ci * RtoC (IZR l * angle)%Re) * laguerre_ex genlaguerre x y z wl w0 er p l.
Proof. exact (laguerre_turn genlaguerre x y z wl w0 er angle p l). Qed.
Print Assumptions C78_charge.

(** Beams of charge other than 0 vanish on their axis. *)
Theorem C78_dark genlaguerre z wl w0 er p l : l <> Z0 -> laguerre_ex genlaguerre 0 0 z wl w0 er p l = 0.
Proof. exact (@dark_axis genlaguerre z wl w0 er p l). Qed.
Print Assumptions C78_dark.

Example C78_example genlaguerre : laguerre_ex genlaguerre 0 1 0 1 1 1 0 (Zpos 1) = ci * laguerre_ex genlaguerre 1 0 0 1 1 1 0 (Zpos 1).
Proof. exact (charge_example genlaguerre). Qed.

(** C64: the amplitudes of a combination of the plane waves of the expansion, with the
    Bloch vector kp or another one of the zone, come out multiplied by the number of
    samples per side of a cell. *)
Theorem C64_scaled_partial bzs NS a orders kp s amp fields A :
  (0 < bzs.1)%N -> (0 < bzs.2)%N -> (0 < NS)%N -> a <> 0%Re -> separated NS orders ->
  Z.lt (Z.abs s.1) (Z.of_nat bzs.1) -> Z.lt (Z.abs s.2) (Z.of_nat bzs.2) ->
  let G := map (order_vec a) orders in
  (forall r c al be, (r < bzs.2 * NS)%N -> (c < bzs.1 * NS)%N -> (al < 2)%N -> (be < 2)%N ->
    fields r c al be = plane_waves (vadd kp (zone_vec a bzs s)) G (amp al be) (grid_x a NS r c) (grid_y a NS r c)) ->
  amplitudes_from_fields (bzs.2 * NS) (bzs.1 * NS) fields (grid_x a NS) (grid_y a NS) G kp bzs = Ok A ->
  size A = 4%N /\ forall k m, (k < 4)%N -> (m < size orders)%N -> size (nth [::] A k) = size orders /\
  nth 0 (nth [::] A k) m = if Z.eqb s.1 Z0 && Z.eqb s.2 Z0 then NS%:R * amp (k %/ 2)%N (k %% 2)%N m else 0.
Proof. exact (fun h1 h2 h3 h4 h5 h6 h7 h8 => @amplitudes_scaled bzs NS a orders kp s amp h1 h2 h3 h4 h5 h6 h7 fields h8 A). Qed.
Print Assumptions C64_scaled_partial.

Theorem C64_defined N0 N1 fields x y G kp bzs :
  is_ok (amplitudes_from_fields N0 N1 fields x y G kp bzs) <-> exists NS, square_cells N0 N1 bzs NS.
Proof. exact (amplitudes_defined N0 N1 fields x y G kp bzs). Qed.
Print Assumptions C64_defined.

(** A uniform field of amplitude 1, sampled at 2 x 2 points of one cell, has amplitude 2. *)
Theorem C64_normalised_refuted : exists fields A,
  [/\ forall r c al be, fields r c al be = 1,
      amplitudes_from_fields 2 2 fields (grid_x 1 2) (grid_y 1 2) [:: (0%Re, 0%Re)] (0%Re, 0%Re) (1, 1)%N = Ok A &
      nth 0 (nth [::] A 0) 0 = 2%:R].
Proof. exact uniform_amplitude. Qed.
Print Assumptions C64_normalised_refuted.

Example C64_example : separated 3 [:: (Zneg 1, Z0); (Z0, Z0); (Zpos 1, Z0)].
Proof. exact separated_example. Qed.
