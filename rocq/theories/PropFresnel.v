(** Properties C84 and C85: interfaces and films of uniform media in the T-matrix
    API. *)
From Coq Require Import Reals ZArith Lra.
From mathcomp Require Import all_ssreflect all_algebra.
From Coquelicot Require Import Complex.
From Verif Require Import Base CField CFun ModelRedheffer ModelExpansion ModelFourier ModelTmat SpecTmat
  ModelLattice SpecLattice SpecThinFilm SpecFresnel TmatExamples FilmProofs.
Set Implicit Arguments. Unset Strict Implicit. Unset Printing Implicit Defensive.
Import GRing.Theory.
Local Open Scope ring_scope.

(** ** C84 Fresnel's formulas *)

(** The matrix of an interface between any two media, applied to any waves: the
    quarters 0 and 1 are the s and p waves that go to the right, 2 and 3 those that
    go to the left.  No order and no polarisation is mixed with another, and the
    denominators are not 0. *)
Theorem C84_fresnel n L wl kp (S : 'M[C]_((n + n) + (n + n))) :
  scattering_interface n L wl kp = Ok S -> has_sqrt (l_incid L) -> forall v (g : 'I_n),
  let a := s_index L (l_incid L) wl kp g in let b := s_index L (l_emerg L) wl kp g in
  let c := p_index L (l_incid L) wl kp g in let d := p_index L (l_emerg L) wl kp g in
  let r := csqrt (num_val (l_incid L)) / csqrt (num_val (l_emerg L)) in
  [/\ a + b <> 0, c + d <> 0 &
  [/\ quarter_of (S *m v) 0 g 0 = fresnel_t a b * quarter_of v 0 g 0 + fresnel_r b a * quarter_of v 2 g 0,
      quarter_of (S *m v) 2 g 0 = fresnel_r a b * quarter_of v 0 g 0 + fresnel_t b a * quarter_of v 2 g 0,
      quarter_of (S *m v) 1 g 0 = r * fresnel_t c d * quarter_of v 1 g 0 + fresnel_r d c * quarter_of v 3 g 0 &
      quarter_of (S *m v) 3 g 0 = fresnel_r c d * quarter_of v 1 g 0 + r^-1 * fresnel_t d c * quarter_of v 3 g 0]].
Proof. exact (fun hS hs v g => interface_fresnel hS hs v g). Qed.
Print Assumptions C84_fresnel.

(** A glass surface, at an angle: s waves are reflected by -7/25. *)
Example C84_hypotheses_met : exists L S, let wl := (2 * PI)%Re in let kp := ((4 / 5)%Re, 0%Re) in
  [/\ mk_lattice (1, 1)%N (1%Re, 0%Re) (0%Re, 1%Re) (Float 1) (Float (16 / 9)) = Ok L,
      scattering_interface 1 L wl kp = Ok S, has_sqrt (l_incid L) &
      quarter_of (S *m unit_wave) 2 0 0 = RtoC (- 7 / 25)].
Proof. exact glass_at_an_angle. Qed.

(** ** C85 Films *)

(** A layer all of one medium, between media that are the incident one: Airy's
    formulas for each order and polarisation, whatever the number of slices.  For p
    waves: unless the interface carries a surface wave. *)
Theorem C85_film J1 p a1 a2 ei ee L n (expm : 'M[C]_((n + n) + (n + n)) -> 'M[C]_((n + n) + (n + n))) isl host wl kp d pow S :
  mk_lattice p a1 a2 ei ee = Ok L -> window_fits p -> exponential expm -> not_tiny L kp ->
  map snd isl = nseq (size isl) host -> no_anomaly L (Complex host) wl kp ->
  scattering_matrix_islands J1 expm p L isl host wl kp d pow = Ok S ->
  forall v (g : 'I_n),
  let a := s_index L (l_incid L) wl kp g in let b := s_index L (Complex host) wl kp g in
  let c := p_index L (l_incid L) wl kp g in let d' := p_index L (Complex host) wl kp g in
  let phi := cexp (ci * kz_of L (Complex host) wl kp g * RtoC d) in
  [/\ quarter_of (S *m v) 0 g 0 = airy_t a b a phi * quarter_of v 0 g 0 + airy_r a b a phi * quarter_of v 2 g 0,
      quarter_of (S *m v) 2 g 0 = airy_r a b a phi * quarter_of v 0 g 0 + airy_t a b a phi * quarter_of v 2 g 0 &
      c + d' <> 0 ->
      quarter_of (S *m v) 1 g 0 = airy_t c d' c phi * quarter_of v 1 g 0 + airy_r c d' c phi * quarter_of v 3 g 0 /\
      quarter_of (S *m v) 3 g 0 = airy_r c d' c phi * quarter_of v 1 g 0 + airy_t c d' c phi * quarter_of v 3 g 0].
Proof. exact (@film_layer J1 p a1 a2 ei ee L n expm isl host wl kp d pow S). Qed.
Print Assumptions C85_film.

(** A lossless film in which every order propagates always has a matrix. *)
Theorem C85_defined J1 p a1 a2 ei ee L n (expm : 'M[C]_((n + n) + (n + n)) -> 'M[C]_((n + n) + (n + n))) r r' wl kp d pow :
  mk_lattice p a1 a2 ei ee = Ok L -> window_fits p -> exponential expm -> not_tiny L kp -> (0 < p.1)%N ->
  n = l_ng L -> wl <> 0%Re -> num_val (l_incid L) = RtoC r -> (0 < r)%Re -> (0 < r')%Re ->
  (forall g, (g < l_ng L)%N -> exists x y, [/\ (0 < x)%Re, (0 < y)%Re, kz_of L (l_incid L) wl kp g = RtoC x &
     kz_of L (Complex (RtoC r')) wl kp g = RtoC y]) ->
  is_ok (scattering_matrix_islands J1 expm p L [::] (RtoC r') wl kp d pow).
Proof. exact (@film_ok J1 p a1 a2 ei ee L n expm r r' wl kp d pow). Qed.
Print Assumptions C85_defined.

(** A glass film of any thickness, cut in any number of slices. *)
Example C85_hypotheses_met J1 d pow : exists L S, let wl := (2 * PI)%Re in let kp := (0%Re, 0%Re) in
  [/\ mk_lattice (1, 1)%N (1%Re, 0%Re) (0%Re, 1%Re) (Float 1) (Float 1) = Ok L, not_tiny L kp,
      no_anomaly L (Complex (RtoC (16 / 9))) wl kp, exponential (@some_expm ((1 + 1) + (1 + 1))) &
      @scattering_matrix_islands J1 1 (@some_expm ((1 + 1) + (1 + 1))) (1, 1)%N L [::] (RtoC (16 / 9)) wl kp d pow = Ok S].
Proof. exact (glass_film J1 d pow). Qed.
