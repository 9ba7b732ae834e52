(** Model of khepri/beams.py.  Definitions only. *)
From Coq Require Import Reals ZArith.
From mathcomp Require Import all_ssreflect all_algebra.
From Coquelicot Require Import Complex.
From Verif Require Import Base CField CFun RField ModelRedheffer ModelExpansion ModelFourier ModelMisc ModelDraw.
Set Implicit Arguments. Unset Strict Implicit. Unset Printing Implicit Defensive.
Import GRing.Theory.
Local Open Scope ring_scope.

(** * Rotations *)
Definition mat3 (a b c d e f g h i : R) : 'M[R]_3 :=
  \matrix_(p, q) nth 0%Re (nth [::] [:: [:: a; b; c]; [:: d; e; f]; [:: g; h; i]] p) q.
Definition vec3 {T : ringType} (a b c : T) : 'cV[T]_3 := \col_p nth 0 [:: a; b; c] p.

(** khepri/beams.py:14-18. *)
Definition rotation_y (t : R) : 'M[R]_3 := mat3 (cos t) 0 (sin t) 0 1 0 (- sin t)%Re 0 (cos t).
(** khepri/beams.py:20-24. *)
Definition rotation_z (t : R) : 'M[R]_3 := mat3 (cos t) (- sin t)%Re 0 (sin t) (cos t) 0 0 0 1.
(** khepri/beams.py:29-45. *)
Definition rotation_p (ux uy uz c s : R) : 'M[R]_3 :=
  mat3 (c + ux * ux * (1 - c))%Re (ux * uy * (1 - c) - uz * s)%Re (ux * uz * (1 - c) + uy * s)%Re
       (uy * ux * (1 - c) + uz * s)%Re (c + uy * uy * (1 - c))%Re (uy * uz * (1 - c) - ux * s)%Re
       (uz * ux * (1 - c) - uy * s)%Re (uz * uy * (1 - c) + ux * s)%Re (c + uz * uz * (1 - c))%Re.
(** khepri/beams.py:6-47 rotation_matrix. *)
Definition rotation_matrix (polar azimuthal polarization : R) : 'M[R]_3 :=
  let ux := (cos azimuthal * sin polar)%Re in
  let uy := (sin azimuthal * sin polar)%Re in
  let uz := cos polar in
  rotation_p ux uy uz (cos polarization) (sin polarization) *m rotation_z azimuthal *m rotation_y polar.

(** khepri/beams.py:50-100 shifted_rotated_fields at one point.  [field_fn] is the
    field function at one point (it works entry by entry on arrays); axes of length
    one and the print statement are ignored. *)
Definition shifted_rotated_fields (field_fn : 'cV[R]_3 -> res ('cV[C]_3 * 'cV[C]_3)) (r origin : 'cV[R]_3)
    (polar azimuthal polarization : R) : res ('cV[C]_3 * 'cV[C]_3) :=
  let mat := rotation_matrix polar azimuthal polarization in
  do rf <- solve mat r;
  do og <- solve mat origin;
  do eh <- field_fn (rf - og);
  Ok (map_mx RtoC mat *m eh.1, map_mx RtoC mat *m eh.2).

(** * Paraxial beams *)
(** Division by zero is ZeroDivisionError for the Python floats 2*pi/wl, NonFinite for
    arrays; the square root of a negative permittivity is NonFinite. *)
Definition rayleigh (w0 er wl : R) : R := (PI * (w0 * w0) * sqrt er / wl)%Re.
Definition beam_guard (w0 er wl : R) (A : Type) (k : A) : res A :=
  if Req_EM_T wl 0 then Err ZeroDivisionError
  else if Rlt_dec 0 er then (if Req_EM_T w0 0 then Err NonFinite else Ok k) else Err NonFinite.

(** khepri/beams.py:135-160 _paraxial_gaussian_field_fn at one point. *)
Definition gaussian_ex (x y z wl w0 er : R) : C :=
  let k := (2 * PI / wl)%Re in
  let z_r := rayleigh w0 er wl in
  let w_z := (w0 * sqrt (1 + (z / z_r) * (z / z_r)))%Re in
  let r := sqrt (x * x + y * y)%Re in
  RtoC (w0 / w_z)%Re * RtoC (exp (- (r * r) / (w_z * w_z)))%Re *
  cexp (ci * RtoC (k * z + k * (r * r) / 2 * z / (z * z + z_r * z_r) - atan (z / z_r))%Re).
Definition paraxial_gaussian (x y z wl w0 er : R) : res ('cV[C]_3 * 'cV[C]_3) :=
  let ex := gaussian_ex x y z wl w0 er in
  beam_guard w0 er wl (vec3 ex 0 0, vec3 0 (ex / RtoC (sqrt er)) 0).

(** khepri/beams.py:104-133 _paraxial_laguerre_gaussian_field_fn at one point;
    [genlaguerre p l] is scipy's generalised Laguerre polynomial. *)
Definition laguerre_ex (genlaguerre : nat -> nat -> R -> R) (x y z wl w0 er : R) (p : nat) (l : Z) : C :=
  let k := (2 * PI / wl)%Re in
  let z_r := rayleigh w0 er wl in
  let N := (INR (Z.abs_nat l) + 2 * INR p)%Re in
  let w_z := (w0 * sqrt (1 + (z / z_r) * (z / z_r)))%Re in
  let phi := atan2 x y in
  let r := sqrt (x * x + y * y)%Re in
  RtoC (w0 / w_z)%Re * RtoC ((r * sqrt 2 / w_z) ^ (Z.abs_nat l))%Re * RtoC (exp (- (r * r) / (w_z * w_z)))%Re *
  RtoC (genlaguerre p (Z.abs_nat l) (2 * (r * r) / (w_z * w_z))%Re) *
  cexp (- ci * RtoC (IZR l * phi)%Re) *
  cexp (ci * RtoC (k * z + k * (r * r) / 2 * z / (z * z + z_r * z_r) - (N + 1) * atan (z / z_r))%Re).
Definition paraxial_laguerre (genlaguerre : nat -> nat -> R -> R) (x y z wl w0 er : R) (p : nat) (l : Z) :
    res ('cV[C]_3 * 'cV[C]_3) :=
  let ex := laguerre_ex genlaguerre x y z wl w0 er p l in
  beam_guard w0 er wl (vec3 ex 0 0, vec3 0 (ex / RtoC (sqrt er)) 0).

(** * Amplitudes *)
(** khepri/beams.py:164-191 amplitudes_from_fields.  [fields] has the axes (row, column,
    electric or magnetic, component); [x] and [y] are arrays of positions; [G] is
    e.g_vectors.  The result is the array [j, g] with j = Ex, Ey, Hx, Hy.  np.split
    wants equal parts; the blocks left over in the uninitialised Fdft are
    NonFinite. *)
Section Amplitudes.
Variables (N0 N1 : nat) (fields : nat -> nat -> nat -> nat -> C) (x y : nat -> nat -> R).
Variables (G : seq vec2) (kp : vec2) (bzs : nat * nat).
(** khepri/beams.py:167-168. *)
Definition unphased (i j a b : nat) : C :=
  fields i j a b / cexp (ci * RtoC (kp.1 * x i j + kp.2 * y i j)%Re).
(** khepri/beams.py:169-170, :175-176: the arrays split along both axes; the axes
    are (block of rows, block of columns, row, column). *)
Definition split2 {T} (A : nat -> nat -> T) : arr4 T :=
  let h := (N0 %/ bzs.2)%N in let w := (N1 %/ bzs.1)%N in
  Arr4 (bzs.2, bzs.1, h, w) (fun p q i j => A (p * h + i)%N (q * w + j)%N).
(** np.swapaxes(F, 0, 1), khepri/beams.py:172. *)
Definition swap01 {T} (A : arr4 T) : arr4 T :=
  let: (a, b, c, d) := d4 A in Arr4 (b, a, c, d) (fun i j k l => at4 A j i k l).
(** khepri/beams.py:177-184: reshape(-1, NS, NS). *)
Definition cell {T} (NS : nat) (A : arr4 T) (b i j : nat) : T := flat4 A ((b * NS + i) * NS + j)%N.

Definition amplitudes_from_fields : res (seq (seq C)) :=
  if (bzs.1 == 0%N) || (bzs.2 == 0%N) then Err ZeroDivisionError else
  if ((N1 %% bzs.1)%N != 0%N) || ((N0 %% bzs.2)%N != 0%N) then Err ValueError else
  let NS := (N0 %/ bzs.2)%N in
  if NS == 0%N then Err ValueError else
  if ((N0 * N1) %% (NS * NS))%N != 0%N then Err ValueError else
  let nb := ((N0 * N1) %/ (NS * NS))%N in
  if (bzs.1 * bzs.2 < nb)%N then Err IndexError else
  if (nb < bzs.1 * bzs.2)%N then Err NonFinite else
  let pts := [seq (i, j) | i <- iota 0 NS, j <- iota 0 NS] in
  Ok [seq [seq \sum_(i < nb)
        slow_dft [seq (cell NS (swap01 (split2 (fun r c => unphased r c (j %/ 2) (j %% 2)))) i p.1 p.2,
                       (cell NS (split2 x) i p.1 p.2, cell NS (split2 y) i p.1 p.2)) | p <- pts] g.1 g.2
        / nb%:R / NS%:R | g <- G] | j <- iota 0 4].
End Amplitudes.

(** * Brillouin-zone grid *)
(** np.arange(start, stop, step): the length is the ceiling of (stop - start) / step. *)
Definition ceil (x : R) : Z := Z.opp (Int_part (- x)).
Definition arange (start stop step : R) : seq R :=
  [seq (start + INR k * step)%Re | k <- iota 0 (Z.to_nat (ceil ((stop - start) / step)%Re))].
(** khepri/beams.py:193-207 gen_bzi_grid: the points in C order. *)
Definition gen_bzi_grid (shape : Z * Z) (a : R) (reciproc : option (vec2 * vec2)) : res (seq vec2) :=
  do bb <- (match reciproc with
            | None => if Req_EM_T a 0 then Err ZeroDivisionError
                      else Ok (((2 * PI / a)%Re, 0%Re), (0%Re, (2 * PI / a)%Re))
            | Some bb => Ok bb
            end);
  if Z.eqb shape.1 Z0 || Z.eqb shape.2 Z0 then Err ZeroDivisionError else
  let si := (1 / IZR shape.1)%Re in let sj := (1 / IZR shape.2)%Re in
  Ok [seq ((bb.1.1 * i + bb.2.1 * j)%Re, (bb.1.2 * i + bb.2.2 * j)%Re)
     | i <- arange (- (1 / 2) + si / 2)%Re (1 / 2) si, j <- arange (- (1 / 2) + sj / 2)%Re (1 / 2) sj].
