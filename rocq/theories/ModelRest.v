(** Model of khepri/alternative.py:197-218, khepri/factory.py, the resampling of
    khepri/draw.py:90-106, khepri/misc.py:4-10 and :28-32, khepri/fields.py:33-44,
    khepri/tmat/fields.py and khepri/tmat/scattering.py:84-92.  Definitions only. *)
From Coq Require Import Reals ZArith String Ascii.
From mathcomp Require Import all_ssreflect all_algebra.
From Coquelicot Require Import Complex.
From Verif Require Import Base CField CFun ModelRedheffer ModelLayer ModelExpansion ModelFourier ModelDevice
  ModelDraw ModelLattice.
Set Implicit Arguments. Unset Strict Implicit. Unset Printing Implicit Defensive.
Import GRing.Theory.
Local Open Scope ring_scope.

(** * Layers without objects *)

Section Layers.
(** numpy.linalg.eig (khepri/alternative.py:173). *)
Variable eig : forall m, 'M[C]_m -> 'rV[C]_m * 'M[C]_m.

(** khepri/alternative.py:203-206 and :215-218: S, or S and (LI, WI, VI) when
    return_eigenspace is true.  WI, VI, LI come in this order from the solvers. *)
Definition with_eigenspace {n} (return_eigenspace : bool) (S : smat C_fieldType (n + n))
    (m : 'M[C]_(n + n) * 'M[C]_(n + n) * 'rV[C]_(n + n)) :
    smat C_fieldType (n + n) * option ('rV[C]_(n + n) * 'M[C]_(n + n) * 'M[C]_(n + n)) :=
  (S, if return_eigenspace then Some (m.2, m.1.1, m.1.2) else None).

(** khepri/alternative.py:197-206 scattering_uniform_layer. *)
Definition scattering_uniform_layer (n : nat) (e : expansion) (kp : C * C) (wl : R) (eps_layer : C) (depth : R)
    (return_eigenspace : bool) :=
  do k <- krows n e kp wl 1;
  do f <- free_space_eigenmodes k.1.1 k.1.2;
  let k0 := (2 * PI / wl)%Re in
  do m <- solve_uniform_layer k.1.1 k.1.2 eps_layer 1;
  do S <- build_scatmat m.1.1 m.1.2 f.1 f.2 m.2 depth k0;
  Ok (with_eigenspace return_eigenspace S m).

(** khepri/alternative.py:208-218 scattering_structured_layer. *)
Definition scattering_structured_layer (n : nat) (e : expansion) (kp : C * C) (wl : R) (epsilon_map : array2)
    (depth : R) (return_eigenspace : bool) :=
  do k <- krows n e kp wl 1;
  do f <- free_space_eigenmodes k.1.1 k.1.2;
  let k0 := (2 * PI / wl)%Re in
  do Cm <- convolution_matrix n epsilon_map (e_pw e);
  do m <- solve_structured_layer (@eig _) k.1.1 k.1.2 Cm;
  do S <- build_scatmat m.1.1 m.1.2 f.1 f.2 m.2 depth k0;
  Ok (with_eigenspace return_eigenspace S m).
End Layers.

(** * The woodpile *)

(** Drawing.canvas() as an array of permittivities (khepri/draw.py:91-95), and its .T. *)
Definition picture (d : drawing C_eqType) : array2 := Array2 (d_shape d).1 (d_shape d).2 (d_canvas d).
Definition transposed (A : array2) : array2 := Array2 (a_cols A) (a_rows A) (fun i j => a_at A j i).

(** khepri/factory.py:3-24 make_woodpile.  The permittivity of the rods is real: the
    canvas is an array of floats.  Crystal(pw) takes its defaults
    (khepri/crystal.py:20-28): square lattice of pitch 1, vacuum on both sides. *)
Definition make_woodpile (n : nat) (rods_w rods_eps rods_shift rods_height : R) (pw resolution : nat * nat) :
    res (crystal n) :=
  do p0 <- @mk_drawing C_eqType resolution 1 None;
  let pattern := draw_rectangle p0 0%Re 0%Re 1%Re rods_w (RtoC rods_eps) in
  do q0 <- @mk_drawing C_eqType resolution 1 None;
  let q1 := draw_rectangle q0 0%Re rods_shift 1%Re rods_w (RtoC rods_eps) in
  let pattern2 := draw_rectangle q1 0%Re (- rods_shift)%Re 1%Re rods_w (RtoC rods_eps) in
  do cl <- mk_crystal n pw (LatticeName "square") 1%Re false 1 1;
  let c1 := add_layer_pixmap cl "A" (picture pattern) rods_height in
  let c2 := add_layer_pixmap c1 "B" (transposed (picture pattern)) rods_height in
  let c3 := add_layer_pixmap c2 "C" (picture pattern2) rods_height in
  let c4 := add_layer_pixmap c3 "D" (transposed (picture pattern2)) rods_height in
  set_device c4 [:: "A"; "B"; "C"; "D"]%string (inr [:: false; false; false; false]).

(** * Grids of points *)

(** np.linspace(start, stop, n)[k]; a single point is the start. *)
Definition linspace_from (start stop : R) (n k : nat) : R :=
  if n == 1%N then start else (start + INR k * ((stop - start) / INR (n - 1)))%Re.

(** khepri/misc.py:28-32 coords: the arrays X and Y, of shape (resolution[1],
    resolution[0]), and the list z. *)
Definition coords (xmin xmax ymin ymax zmin zmax : R) (resolution : nat * nat * nat) :
    (nat * nat) * (nat -> nat -> R) * (nat -> nat -> R) * seq R :=
  let: (nx, ny, nz) := resolution in
  ((ny, nx), fun _ c => linspace_from xmin xmax nx c, fun r _ => linspace_from ymin ymax ny r,
   [seq linspace_from zmin zmax nz k | k <- iota 0 nz]).

(** * Resampling of a drawing *)

Section Resample.
Variable d : drawing R_eqType.

(** khepri/draw.py:35 np.min and np.max of the coordinates of the pixels. *)
Definition pixels : seq (nat * nat) := [seq (i, j) | i <- iota 0 (d_shape d).1, j <- iota 0 (d_shape d).2].
Definition lowest (f : nat -> nat -> R) : R := foldl (fun m p => Rmin m (f p.1 p.2)) (f 0 0)%N pixels.
Definition highest (f : nat -> nat -> R) : R := foldl (fun m p => Rmax m (f p.1 p.2)) (f 0 0)%N pixels.
Definition box_x0 : R := lowest (dX d).
Definition box_x1 : R := highest (dX d).
Definition box_y0 : R := lowest (dY d).
Definition box_y1 : R := highest (dY d).

(** scipy.interpolate.RegularGridInterpolator, method "linear", along one axis: the
    cell of x in the grid of n points and the distance from its left end, as a
    fraction.  (At a point of the grid either neighbouring cell gives the same value.) *)
Definition cell (grid : nat -> R) (n : nat) (x : R) : nat :=
  minn (count (fun k => Rltb (grid k) x) (iota 0 n) - 1) (n - 2).
Definition fraction (grid : nat -> R) (n : nat) (x : R) : R :=
  let i := cell grid n x in ((x - grid i) / (grid i.+1 - grid i))%Re.
(** The grid must be strictly ascending. *)
Definition ascending (grid : nat -> R) (n : nat) : bool := all (fun k => Rltb (grid k) (grid k.+1)) (iota 0 (n - 1)).

(** khepri/draw.py:97-106 canvas(shape) with the default interpolation, and the
    coordinates that return_xy adds.  Simplified: a drawing with a single row or
    column of pixels, where the answer depends on the version of scipy, is reported
    as a ValueError, like a grid that does not ascend. *)
Definition canvas_shape (shape : nat * nat) : res ((nat -> nat -> R) * (nat -> nat -> R) * (nat -> nat -> R)) :=
  let: (m1, m2) := d_shape d in
  let gx k := linspace_from box_x0 box_x1 m1 k in
  let gy k := linspace_from box_y0 box_y1 m2 k in
  if (m1 < 2)%N || (m2 < 2)%N || ~~ ascending gx m1 || ~~ ascending gy m2 then Err ValueError else
  let X (i j : nat) := linspace_from box_x0 box_x1 shape.1 i in
  let Y (i j : nat) := linspace_from box_y0 box_y1 shape.2 j in
  let at_point x y :=
    let i := cell gx m1 x in let j := cell gy m2 y in
    let u := fraction gx m1 x in let v := fraction gy m2 y in
    (d_canvas d i j * (1 - u) * (1 - v) + d_canvas d i.+1 j * u * (1 - v) +
     d_canvas d i j.+1 * (1 - u) * v + d_canvas d i.+1 j.+1 * u * v)%Re in
  Ok (fun i j => at_point (X i j) (Y i j), X, Y).
End Resample.

(** * From Fourier coefficients to fields *)

(** The coefficients: a vector, or an array with two axes.  khepri/tmat/fields.py:16
    ffield.T.reshape(ng, 1, 1): .T of a vector is the vector. *)
Definition transposed_items (ffield : seq C + array2) : seq C :=
  match ffield with
  | inl v => v
  | inr A => [seq a_at A i j | j <- iota 0 (a_cols A), i <- iota 0 (a_rows A)]
  end.
(** kx.flatten() and ky.flatten(), khepri/tmat/fields.py:9-10. *)
Definition items (A : array2) : seq C := [seq a_at A i j | i <- iota 0 (a_rows A), j <- iota 0 (a_cols A)].

(** khepri/tmat/fields.py:3-16 fourier2direct2: the value at [i, j].  [extent] is
    (0, a, 0, a) by default. *)
Definition fourier2direct2 (ffield : seq C + array2) (kx ky : array2) (a : R) (target_resolution : nat * nat)
    (extent : option (R * R * (R * R))) : res (nat -> nat -> C) :=
  let: (e0, e1, (e2, e3)) := if extent is Some e then e else ((0, a), (0, a))%Re in
  let ux := items kx in let uy := items ky in
  let ng := size ux in
  let F := transposed_items ffield in
  if size uy != ng then Err ValueError else
  if size F != ng then Err ValueError else
  Ok (fun i j =>
    let x := linspace_from e0 e1 target_resolution.1 i in
    let y := linspace_from e2 e3 target_resolution.2 j in
    \sum_(g < ng) nth 0 F g * cexp (ci * (nth 0 ux g * RtoC x + nth 0 uy g * RtoC y))).

(** np.fft.ifft2, np.fft.ifftshift and np.pad with zeros, khepri/fields.py:39, :43. *)
Definition ifft2 (A : array2) : res array2 :=
  if (a_rows A == 0%N) || (a_cols A == 0%N) then Err ValueError else
  Ok (Array2 (a_rows A) (a_cols A) (fun x y =>
    (\sum_(k < a_rows A) \sum_(l < a_cols A)
       a_at A k l * cexp (ci * RtoC (2 * PI * INR k * INR x / INR (a_rows A))%Re) *
                    cexp (ci * RtoC (2 * PI * INR l * INR y / INR (a_cols A))%Re)) / RtoC (INR (a_rows A * a_cols A)))).
Definition ifftshift (A : array2) : array2 :=
  let sh N i := ((i + N %/ 2) %% N)%N in
  Array2 (a_rows A) (a_cols A) (fun i j => a_at A (sh (a_rows A) i) (sh (a_cols A) j)).
(** np.pad(A, (before, after)): the same pair serves both axes. *)
Definition pad (A : array2) (before after : nat) : array2 :=
  Array2 (a_rows A + before + after) (a_cols A + before + after) (fun i j =>
    if [&& before <= i, i < before + a_rows A, before <= j & j < before + a_cols A]%N
    then a_at A (i - before) (j - before) else 0).
(** Python's // on integers, rounding down. *)
Definition half_of (a b : nat) : Z := Z.div (Z.sub (Z.of_nat a) (Z.of_nat b)) 2.

(** khepri/fields.py:33-44 fourier2real_fft: the value at [r, c].  Negative paddings
    raise ValueError; the product with the phase broadcasts axes of length 1. *)
Definition fourier2real_fft (ffield : array2) (a : R) (target_resolution : nat * nat) (kp : C * C) :
    res (nat -> nat -> C) :=
  let N := target_resolution.1 in
  let before := half_of N (a_rows ffield) in let after := half_of N (a_cols ffield) in
  if Z.ltb before Z0 || Z.ltb after Z0 then Err ValueError else
  let ext_fft := pad ffield (Z.to_nat before) (Z.to_nat after) in
  let phase (r c : nat) := cexp (ci * (kp.1 * RtoC (linspace_from 0 a N c) + kp.2 * RtoC (linspace_from 0 a N r))) in
  do F <- ifft2 (ifftshift ext_fft);
  let fits len := (len == N) || (len == 1%N) in
  if ~~ (fits (a_rows F) && fits (a_cols F)) then Err ValueError else
  let pick len i := (if len == 1%N then 0%N else i) in
  Ok (fun r c => a_at F (pick (a_rows F) r) (pick (a_cols F) c) * phase r c).

(** * The delay line of the T-matrix API *)

(** kzs.flat, khepri/tmat/scattering.py:89: row by row. *)
Definition w_flat_rows (w : grid) (g : nat) : vec2 := w_at w (g %/ w_cols w) (g %% w_cols w).

(** khepri/tmat/scattering.py:84-92 scattering_air_tmp; n = prod(pw).  The loop fills
    as many orders as the window has; too many leave the matrix. *)
Definition scattering_air_tmp (n : nat) (L : lattice) (wavelength depth : R) : res 'M[C]_((n + n) + (n + n)) :=
  if Req_EM_T wavelength 0 then Err ZeroDivisionError else
  if (n < l_ng L)%N then Err IndexError else
  let row : 'rV[C]_n := \row_g (if (g < l_ng L)%N then
    cexp (ci * compute_kz (Float 1) wavelength (0%Re, 0%Re) (w_flat_rows (window L) g) * RtoC depth) else 0) in
  Ok (diag_mx (row_mx (row_mx row row) (row_mx row row))).

(** khepri/tmat/lattice.py:180-184 g_vectors, row by row, and :212-214
    restrict_radius_mask. *)
Definition lattice_g_vectors (L : lattice) : seq vec2 := [seq w_flat_rows (window L) g | g <- iota 0 (l_ng L)].
Definition restrict_radius_mask (L : lattice) (radius : R) : seq bool :=
  [seq Rltb (sqrt (g.1 * g.1 + g.2 * g.2)%Re) radius | g <- lattice_g_vectors L].

(** * Command-line ranges *)

(** str.split(":"). *)
Fixpoint split_colon (s : string) : seq string :=
  match s with
  | EmptyString => [:: EmptyString]
  | String c s' =>
      if Ascii.eqb c ":"%char then EmptyString :: split_colon s'
      else match split_colon s' with
           | [::] => [:: String c EmptyString]
           | h :: t => String c h :: t
           end
  end.

Section Parse.
(** float(s) and int(s); they raise ValueError on other texts. *)
Variables (parse_float : string -> option R) (parse_int : string -> option Z).
(** khepri/misc.py:4-10 str2linspace_args. *)
Definition str2linspace_args (s : string) : res (R * R * Z) :=
  match split_colon s with
  | [:: a; b; c] =>
      do mn <- get (parse_float a) ValueError;
      do mx <- get (parse_float b) ValueError;
      do ct <- get (parse_int c) ValueError;
      Ok (mn, mx, ct)
  | _ => Err AssertionError
  end.
End Parse.
