(** Properties C93-C97: the delay line of the T-matrix API, fields sampled from their
    Fourier coefficients, ranges given as text, grids of points. *)
From Coq Require Import Reals ZArith Lra String Ascii.
From mathcomp Require Import all_ssreflect all_algebra.
From Coquelicot Require Import Complex.
From Verif Require Import Base CField CFun ModelExpansion ModelFourier ModelLattice SpecLattice LatticeProofs LookupProofs TmatExamples
  ExpProofs ModelRest SpecRest DelayProofs SampleProofs SplitProofs.
Set Implicit Arguments. Unset Strict Implicit. Unset Printing Implicit Defensive.
Import GRing.Theory.
Local Open Scope ring_scope.

(** ** C93 The delay line is a layer of air *)

(** On lattices with vectors of equal length, or with one order along the second
    axis, it is the layer that the T-matrix gives for vacuum at normal incidence. *)
Theorem C93_layer_partial p a1 a2 ei ee L n J1 expm wl d pow S :
  mk_lattice p a1 a2 ei ee = Ok L -> window_fits p -> ei = Float 1 -> exponential expm -> not_tiny L (0%Re, 0%Re) ->
  n = l_ng L -> wl <> 0%Re ->
  p.2 = 1%N \/ (a1.1 * a1.1 + a1.2 * a1.2 = a2.1 * a2.1 + a2.2 * a2.2)%Re ->
  @scattering_matrix_islands J1 n expm p L [::] 1 wl (0%Re, 0%Re) d pow = Ok S -> scattering_air_tmp n L wl d = Ok S.
Proof. exact (fun h1 h2 => @delay_layer p a1 a2 ei ee L h1 h2 n J1 expm wl d pow S). Qed.
Print Assumptions C93_layer_partial.

Theorem C93_delay_partial p a1 a2 ei ee L n wl d :
  mk_lattice p a1 a2 ei ee = Ok L -> window_fits p -> n = l_ng L -> wl <> 0%Re ->
  p.2 = 1%N \/ (a1.1 * a1.1 + a1.2 * a1.2 = a2.1 * a2.1 + a2.2 * a2.2)%Re ->
  scattering_air_tmp n L wl d = Ok (each_order (fun g : 'I_n => cexp (ci * compute_kz (Float 1) wl (0%Re, 0%Re) (l_g L g) * RtoC d))).
Proof. exact (fun h1 h2 => @delay_ok p a1 a2 ei ee L h1 h2 n wl d). Qed.
Print Assumptions C93_delay_partial.

(** On a rectangular lattice it is not: the orders are taken row by row, those of the
    matrices column by column. *)
Theorem C93_rectangular_refuted J1 expm pow : exponential expm -> exists L (S S' : 'M[C]_((9 + 9) + (9 + 9))),
  [/\ mk_lattice (3, 3)%N (1%Re, 0%Re) (0%Re, (1 / 2)%Re) (Float 1) (Float 1) = Ok L,
      scattering_air_tmp 9 L (2 / 3) 1 = Ok S,
      scattering_matrix_islands J1 expm (3, 3)%N L [::] 1 (2 / 3) (0%Re, 0%Re) 1 pow = Ok S' & S <> S'].
Proof. exact (@delay_wrong J1 expm pow). Qed.
Print Assumptions C93_rectangular_refuted.

(** The mask of a disc, in the order of the rows. *)
Theorem C93_mask p a1 a2 ei ee L radius i j : mk_lattice p a1 a2 ei ee = Ok L -> window_fits p -> (i < p.1)%N -> (j < p.2)%N ->
  let g := order_vector (l_b L) (Z.sub (Z.of_nat i) (Z.of_nat (p.1 %/ 2))) (Z.sub (Z.of_nat j) (Z.of_nat (p.2 %/ 2))) in
  nth false (restrict_radius_mask L radius) (i * p.2 + j) <-> (sqrt (g.1 * g.1 + g.2 * g.2) < radius)%Re.
Proof. exact (@mask_at p a1 a2 ei ee L radius i j). Qed.
Print Assumptions C93_mask.

(** A layer of air that meets the hypotheses. *)
Example C93_hypotheses_met J1 pow : exists L S, [/\ mk_lattice (1, 1)%N (1%Re, 0%Re) (0%Re, 1%Re) (Float 1) (Float 1) = Ok L,
  window_fits (1, 1)%N, exponential (@some_expm ((1 + 1) + (1 + 1))), not_tiny L (0%Re, 0%Re) & 1%N = l_ng L /\
  scattering_matrix_islands J1 (@some_expm ((1 + 1) + (1 + 1))) (1, 1)%N L [::] 1 1 (0%Re, 0%Re) 2 pow = Ok S].
Proof.
have [L hL] := @mk_lattice_ok (1, 1)%N (Float 1) (Float 1) erefl; exists L; have [mi me] := one_media hL.
have hf : window_fits (1, 1)%N by left.
have [S hS] : is_ok (@scattering_matrix_islands J1 1 (@some_expm ((1 + 1) + (1 + 1))) (1, 1)%N L [::] (num_val (l_incid L)) 1 (0%Re, 0%Re) 2 pow).
  apply: (homogeneous_layer_ok _ _ _ hL) => //; rewrite ?mi.
  - exact: some_expm_exponential.
  - exact: (one_not_tiny hL).
  - by rewrite (one_ng hL).
  - by apply/eqP => /(congr1 fst) /=; lra.
  - by rewrite /=; lra.
  - by apply: (one_no_anomaly hL (r := 1%Re)) => //=; have := PI_RGT_0; nra.
exists S; split=> //; [exact: some_expm_exponential | exact: (one_not_tiny hL) | ].
by rewrite (one_ng hL); split=> //; move: hS; rewrite mi.
Qed.

(** ** C94 fourier2direct2 *)

(** The amplitudes of the T-matrix API, reshaped, give the sum of their plane waves on
    the points of the grid. *)
Theorem C94_reshaped_partial p a1 a2 ei ee L kp v a res0 : mk_lattice p a1 a2 ei ee = Ok L -> p.2 = p.1 ->
  exists F, fourier2direct2 (inr (reshaped p.1 v)) (kx_array L kp) (ky_array L kp) a res0 None = Ok F /\
    forall i j, F i j = wave_sum (p.1 * p.1) v (fun g => shifted kp (l_g L g)) (linspace_from 0 a res0.1 i) (linspace_from 0 a res0.2 j).
Proof. exact (@direct_lattice p a1 a2 ei ee L kp v a res0). Qed.
Print Assumptions C94_reshaped_partial.

(** Not as a vector: each order gets the amplitude of another one. *)
Theorem C94_vector_refuted : exists L F (v : seq C), [/\ mk_lattice (3, 3)%N (1%Re, 0%Re) (0%Re, 1%Re) (Float 1) (Float 1) = Ok L,
  size v = 9%N, fourier2direct2 (inl v) (kx_array L (0%Re, 0%Re)) (ky_array L (0%Re, 0%Re)) 1 (3, 3)%N None = Ok F &
  exists i j, [/\ (i < 3)%N, (j < 3)%N & F i j <> wave_sum 9 (nth 0 v) (fun g => shifted (0%Re, 0%Re) (l_g L g))
    (linspace_from 0 1 3 i) (linspace_from 0 1 3 j)]].
Proof. exact direct_vector. Qed.
Print Assumptions C94_vector_refuted.
Example C94_hypotheses_met : is_ok (mk_lattice (3, 3)%N (1%Re, 0%Re) (0%Re, 1%Re) (Float 1) (Float 1)) /\ (3, 3)%N.2 = (3, 3)%N.1.
Proof. by split=> //; apply: mk_lattice_ok. Qed.

(** ** C95 fourier2real_fft *)

(** It returns the Fourier series on the grid a k / N, divided by the number of points,
    times a phase on another grid. *)
Theorem C95_series_partial (A : array2) (m b N : nat) (a : R) (kp : C * C) (N' : nat) :
  a_rows A = m -> a_cols A = m -> a <> 0%Re -> N = (m + b + b)%N -> (0 < N)%N ->
  exists F, fourier2real_fft A a (N, N') kp = Ok F /\
  forall r c, (r < N)%N -> (c < N)%N -> F r c * RtoC (INR N * INR N) =
    bloch_sum m (a_at A) a (0%Re, 0%Re) (a * INR r / INR N) (a * INR c / INR N) *
    cexp (ci * (kp.1 * RtoC (linspace_from 0 a N c) + kp.2 * RtoC (linspace_from 0 a N r))).
Proof. exact (@fft_value A m b N a kp N'). Qed.
Print Assumptions C95_series_partial.

(** Numbers of orders and of points of different parities. *)
Theorem C95_parity (A : array2) (m b N : nat) (a : R) (kp : C * C) (N' : nat) :
  a_rows A = m -> a_cols A = m -> N = (m + b + b).+1 -> N <> 2%N -> fourier2real_fft A a (N, N') kp = Err ValueError.
Proof. exact (@fft_parity A m b N a kp N'). Qed.
Print Assumptions C95_parity.

(** The phase of the Bloch wave does not belong to the series: one order, three points
    along each axis.  The value is not that of the wave, on either grid and with
    either axis first. *)
Theorem C95_bloch_refuted : exists F, let A := Array2 3 3 (fun i j => if (i == 2%N) && (j == 1%N) then 1 else 0) in
  fourier2real_fft A 1 (3, 3)%N (RtoC PI, 0) = Ok F /\
  let kp : vec2 := (PI, 0%Re) in let B := bloch_sum 3 (a_at A) 1 kp in let v := F 2%N 0%N * RtoC 9 in
  [/\ v <> B (linspace_from 0 1 3 2) (linspace_from 0 1 3 0), v <> B (linspace_from 0 1 3 0) (linspace_from 0 1 3 2),
      v <> B (2 / 3)%Re 0%Re & v <> B 0%Re (2 / 3)%Re].
Proof. exact fft_bloch_wrong. Qed.
Print Assumptions C95_bloch_refuted.

(** The inverse transform it uses undoes the forward one, for arrays of any shape. *)
Theorem C95_inverse A F : fft2 A = Ok F -> exists B, [/\ ifft2 F = Ok B, a_rows B = a_rows A, a_cols B = a_cols A &
  forall x y, (x < a_rows A)%N -> (y < a_cols A)%N -> a_at B x y = a_at A x y].
Proof. exact (@ifft2_fft2 A F). Qed.
Print Assumptions C95_inverse.

(** Three orders and five points. *)
Example C95_constant : let A := Array2 3 3 (fun i j => if (i == 1%N) && (j == 1%N) then 1 else 0) in
  exists F, fourier2real_fft A 1 (5, 5)%N (0, 0) = Ok F.
Proof. by have [F [hF _]] := @fft_value (Array2 3 3 (fun i j => if (i == 1%N) && (j == 1%N) then 1 else 0)) 3 1 5 1 (0, 0) 5 erefl erefl R1_neq_R0 erefl isT; exists F. Qed.

(** ** C96 Ranges given as text *)

Local Open Scope string_scope.
Theorem C96_accepted parse_float parse_int a b c (x y : R) (k : Z) : colon_free a -> colon_free b -> colon_free c ->
  parse_float a = Some x -> parse_float b = Some y -> parse_int c = Some k ->
  str2linspace_args parse_float parse_int (a ++ ":" ++ b ++ ":" ++ c) = Ok (x, y, k).
Proof. exact (@range_ok parse_float parse_int a b c x y k). Qed.
Print Assumptions C96_accepted.

Theorem C96_three_fields parse_float parse_int s : str2linspace_args parse_float parse_int s <> Err AssertionError <->
  exists a b c, [/\ colon_free a, colon_free b, colon_free c & s = a ++ ":" ++ b ++ ":" ++ c].
Proof. exact (@range_fields parse_float parse_int s). Qed.
Print Assumptions C96_three_fields.

Theorem C96_value parse_float parse_int s (x y : R) (k : Z) : str2linspace_args parse_float parse_int s = Ok (x, y, k) ->
  exists a b c, [/\ s = a ++ ":" ++ b ++ ":" ++ c, parse_float a = Some x, parse_float b = Some y & parse_int c = Some k].
Proof. exact (@range_value parse_float parse_int s x y k). Qed.
Print Assumptions C96_value.

Example C96_range : str2linspace_args (fun s => if String.eqb s "1.5" then Some (3 / 2)%Re else if String.eqb s "2" then Some 2%Re else None)
  (fun s => if String.eqb s "10" then Some (Zpos 10) else None) "1.5:2:10" = Ok ((3 / 2)%Re, 2%Re, (Zpos 10)).
Proof. by []. Qed.

(** ** C97 Grids of points *)

Theorem C97_coords x0 x1 y0 y1 z0 z1 nx ny nz : let: (shape, X, Y, z) := coords x0 x1 y0 y1 z0 z1 (nx, ny, nz) in
  [/\ shape = (ny, nx), forall r, equal_steps x0 x1 nx (X r), forall c, equal_steps y0 y1 ny (fun r => Y r c),
      size z = nz & (0 < nz)%N -> equal_steps z0 z1 nz (nth 0%Re z)].
Proof. exact (coords_grid x0 x1 y0 y1 z0 z1 nx ny nz). Qed.
Print Assumptions C97_coords.
Example C97_three : let: (_, X, _, _) := coords 0 1 0 1 0 1 (3, 2, 2)%N in X 0%N 1%N = (1 / 2)%Re.
Proof. by rewrite /coords /linspace_from /=; lra. Qed.
