(** Model of the lattice side of the T-matrix API: khepri/tmat/tools.py,
    khepri/tmat/lattice.py, the matrices U, V, A of khepri/tmat/matrices.py and the
    functions of khepri/tmat/scattering.py built on them.  Definitions only.

    Simplified: exact numbers instead of float32/float64 (dtype), and a real
    in-plane wavevector kp. *)
From Coq Require Import Reals ZArith.
From mathcomp Require Import all_ssreflect all_algebra.
From Coquelicot Require Import Complex.
From Verif Require Import Base CField CFun ModelRedheffer ModelExpansion ModelFourier Blk ModelTmat.
Set Implicit Arguments. Unset Strict Implicit. Unset Printing Implicit Defensive.
Import GRing.Theory.
Local Open Scope ring_scope.

(** khepri/constants.py:3-5 c, mu0, mu0c. *)
Definition light_speed : R := 299792458%Re.
Definition mu0 : R := (4 * PI * / 10 ^ 7)%Re.
Definition mu0c : R := (mu0 * light_speed)%Re.
(** np.finfo(float).eps and sys.float_info.epsilon. *)
Definition float_eps : R := (/ 2 ^ 52)%Re.

(** A permittivity: a Python float or a Python complex. *)
Inductive num := Float of R | Complex of C.
Definition num_val (x : num) : C := match x with Float r => RtoC r | Complex z => z end.
(** cmath.sqrt. *)
Definition cmath_sqrt (x : num) : C := csqrt (num_val x).
(** np.sqrt: nan for a negative float. *)
Definition np_sqrt (x : num) : res C :=
  match x with
  | Float r => if Rlt_dec r 0 then Err NonFinite else Ok (csqrt (RtoC r))
  | Complex z => Ok (csqrt z)
  end.

(** khepri/tmat/tools.py:16-23 grid_center. *)
Definition grid_center (shape : nat * nat) : res (nat * nat) :=
  if odd shape.1 != odd shape.2 then Err AssertionError else
  if odd shape.1 then Ok ((shape.1 - 1) %/ 2, (shape.2 - 1) %/ 2)%N
  else Ok (shape.1 %/ 2, shape.2 %/ 2)%N.

(** khepri/tmat/tools.py:26-36 grid_size: ((nx, ny), q). *)
Definition grid_size (pw : nat * nat) : res ((nat * nat) * (nat * nat)) :=
  if odd pw.1 != odd pw.2 then Err AssertionError else
  if odd pw.1 then
    let nx := ((pw.1 - 1) %/ 2)%N in let ny := ((pw.2 - 1) %/ 2)%N in
    Ok ((nx, ny), (4 * nx + 1, 4 * ny + 1)%N)
  else
    let nx := (pw.1 %/ 2)%N in let ny := (pw.2 %/ 2)%N in
    Ok ((nx, ny), (4 * nx, 4 * ny)%N).

(** A two-dimensional array of reciprocal vectors (gx and gy together). *)
Record grid := Grid { w_rows : nat; w_cols : nat; w_at : nat -> nat -> vec2 }.
(** g.T.flatten() and g.T.flat. *)
Definition w_ng (w : grid) : nat := (w_rows w * w_cols w)%N.
Definition w_flat (w : grid) (g : nat) : vec2 := w_at w (g %% w_rows w) (g %/ w_rows w).

(** khepri/tmat/lattice.py:32-38 gvectors. *)
Definition gvectors (b1 b2 : vec2) (shape : nat * nat) : res grid :=
  do c <- grid_center shape;
  let m1 i := IZR (Z.sub (Z.of_nat i) (Z.of_nat c.1)) in
  let m2 j := IZR (Z.sub (Z.of_nat j) (Z.of_nat c.2)) in
  Ok (Grid shape.1 shape.2 (fun i j =>
    ((b1.1 * m1 i + b2.1 * m2 j)%Re, (b1.2 * m1 i + b2.2 * m2 j)%Re))).

(** khepri/tmat/lattice.py:41-58 the attributes of a CartesianLattice. *)
Record lattice := Lattice
  { l_pw : nat * nat; l_q : nat * nat; l_b : vec2 * vec2; l_G : grid; l_area : R; l_incid : num; l_emerg : num }.
Definition mk_lattice (pw : nat * nat) (a1 a2 : vec2) (eps_incid eps_emerg : num) : res lattice :=
  do b <- reciproc a1 a2;
  do nq <- grid_size pw;
  do G <- gvectors b.1 b.2 nq.2;
  Ok (Lattice pw nq.2 b G (unitcellarea a1 a2) eps_incid eps_emerg).

(** khepri/tmat/lattice.py:60-66 nx and ny. *)
Definition quarter (q : nat) : nat := if odd q then ((q - 1) %/ 4)%N else (q %/ 4)%N.

(** a[start:stop] on an axis of length [len]: first index and length. *)
Definition py_slice (len start : nat) (stop : Z) : nat * nat :=
  let stop' := if Z.ltb stop Z0 then Z.add stop (Z.of_nat len) else stop in
  let hi := minn (Z.to_nat stop') len in
  let lo := minn start len in
  (lo, (hi - lo)%N).

(** khepri/tmat/lattice.py:68-88 gx and gy: G[nx:q[0]-nx, ny:q[0]-ny]. *)
Definition window (L : lattice) : grid :=
  let nx := quarter (l_q L).1 in
  let ny := quarter (l_q L).2 in
  let r := py_slice (l_q L).1 nx (Z.sub (Z.of_nat (l_q L).1) (Z.of_nat nx)) in
  let c := py_slice (l_q L).2 ny (Z.sub (Z.of_nat (l_q L).1) (Z.of_nat ny)) in
  Grid r.2 c.2 (fun i j => w_at (l_G L) (r.1 + i) (c.1 + j)).

(** The in-plane vector kp + g and its norm. *)
Definition uvec (kp g : vec2) : vec2 := ((kp.1 + g.1)%Re, (kp.2 + g.2)%Re).
Definition unorm (kp g : vec2) : R := sqrt ((uvec kp g).1 ^ 2 + (uvec kp g).2 ^ 2).

(** khepri/tmat/tools.py:38-46 compute_kz, one entry.  [wavelength] is not 0. *)
Definition compute_kz (epsilon : num) (wavelength : R) (kp g : vec2) : C :=
  let kz := csqrt (num_val epsilon * RtoC ((twopi / wavelength) ^ 2)%Re - RtoC (unorm kp g ^ 2)%Re) in
  let flip := (if Rlt_dec (snd kz) 0 then true else false) ||
    ((if Rle_dec (Rabs (snd kz)) (1 / 10 ^ 8) then true else false) && (if Rlt_dec (fst kz) 0 then true else false)) in
  if flip then - kz else kz.

(** The direction of kp + g, khepri/tmat/tools.py:50-55 and :62-67. *)
Definition udir (kp g : vec2) : vec2 :=
  if Rlt_dec (unorm kp g ^ 2) float_eps then (1%Re, 0%Re)
  else (((uvec kp g).1 / unorm kp g)%Re, ((uvec kp g).2 / unorm kp g)%Re).
(** khepri/tmat/tools.py:48-57 compute_eta, one entry. *)
Definition compute_eta (kp g : vec2) : vec2 := ((udir kp g).2, (- (udir kp g).1)%Re).
(** khepri/tmat/tools.py:60-69 compute_mu, one entry: division by zero for a zero
    permittivity. *)
Definition compute_mu (kz : C) (epsilon : num) (wavelength : R) (kp g : vec2) : res (C * C) :=
  if num_val epsilon == 0 then Err NonFinite else
  let f := kz / (cmath_sqrt epsilon * RtoC twopi / RtoC wavelength) in
  Ok (f * RtoC (udir kp g).1, f * RtoC (udir kp g).2).

(** The view M[a, b] (a, b < 4) of an array of shape (4ng, 4ng),
    khepri/tmat/matrices.py:18, 54, 140. *)
Definition quad {n} (B : nat -> nat -> 'M[C]_n) : 'M[C]_((n + n) + (n + n)) :=
  (block_mx (block_mx (B 0 0) (B 0 1) (B 1 0) (B 1 1)) (block_mx (B 0 2) (B 0 3) (B 1 2) (B 1 3))
           (block_mx (B 2 0) (B 2 1) (B 3 0) (B 3 1)) (block_mx (B 2 2) (B 2 3) (B 3 2) (B 3 3)))%N.

(** khepri/tmat/matrices.py:9-41 matrix_u. *)
Definition matrix_u {n} (kz : 'I_n -> C) (eta : 'I_n -> vec2) (mu : 'I_n -> C * C) (eps : num) (wavelength : R) :
    res 'M[C]_((n + n) + (n + n)) :=
  if num_val eps == 0 then Err ZeroDivisionError else
  if ~~ [forall g, kz g != 0] then Err NonFinite else
  let hU := RtoC mu0c / cmath_sqrt eps in
  let c1 := cmath_sqrt eps * RtoC PI / RtoC wavelength in
  let dg g := c1 / kz g in
  let dgmugy g := dg g * (mu g).2 in
  let dgmugx g := dg g * (mu g).1 in
  let dgetagx g := dg g * RtoC (eta g).1 in
  let dgetagy g := dg g * RtoC (eta g).2 in
  Ok (quad (fun a b => dgf (match a, b with
    | 0%N, 0%N | 2%N, 0%N => dgmugy
    | 0%N, 1%N | 2%N, 1%N => fun g => - dgmugx g
    | 1%N, 0%N => dgetagy
    | 3%N, 0%N => fun g => - dgetagy g
    | 1%N, 1%N => fun g => - dgetagx g
    | 3%N, 1%N => dgetagx
    | 0%N, 2%N => fun g => - hU * dgetagy g
    | 2%N, 2%N => fun g => hU * dgetagy g
    | 1%N, 2%N | 3%N, 2%N => fun g => hU * dgmugy g
    | 1%N, 3%N | 3%N, 3%N => fun g => - hU * dgmugx g
    | 2%N, 3%N => fun g => - hU * dgetagx g
    | 0%N, 3%N => fun g => hU * dgetagx g
    | _, _ => fun _ => 0
    end))).

(** khepri/tmat/matrices.py:43-73 matrix_v. *)
Definition matrix_v {n} (eta : 'I_n -> vec2) (mu : 'I_n -> C * C) (eps : num) : res 'M[C]_((n + n) + (n + n)) :=
  do s <- np_sqrt eps;
  let hV := s / RtoC mu0c in
  Ok (quad (fun a b => dgf (match a, b with
    | 0%N, 0%N | 0%N, 2%N => fun g => RtoC (eta g).1
    | 1%N, 0%N | 1%N, 2%N => fun g => RtoC (eta g).2
    | 2%N, 0%N => fun g => hV * (mu g).1
    | 3%N, 0%N => fun g => hV * (mu g).2
    | 0%N, 1%N => fun g => - (mu g).1
    | 1%N, 1%N => fun g => - (mu g).2
    | 2%N, 1%N | 2%N, 3%N => fun g => hV * RtoC (eta g).1
    | 3%N, 1%N | 3%N, 3%N => fun g => hV * RtoC (eta g).2
    | 2%N, 2%N => fun g => - hV * (mu g).1
    | 3%N, 2%N => fun g => - hV * (mu g).2
    | 0%N, 3%N => fun g => (mu g).1
    | 1%N, 3%N => fun g => (mu g).2
    | _, _ => fun _ => 0
    end))).

(** The entries of the window in the order of .T.flat. *)
Definition l_g (L : lattice) (g : nat) : vec2 := w_flat (window L) g.
Definition l_ng (L : lattice) : nat := w_ng (window L).

(** compute_mu on the whole window, khepri/tmat/lattice.py:125-129. *)
Definition window_mu {n} (L : lattice) (eps : num) (wavelength : R) (kp : vec2) : res ('I_n -> C * C) :=
  if num_val eps == 0 then Err NonFinite else
  Ok (fun g : 'I_n => match compute_mu (compute_kz eps wavelength kp (l_g L g)) eps wavelength kp (l_g L g) with
                      | Ok m => m | Err _ => (0, 0) end).

(** khepri/tmat/lattice.py:131-159 U, Vi, Ve.  A zero wavelength divides by zero. *)
Definition lattice_U (n : nat) (L : lattice) (wavelength : R) (kp : vec2) : res 'M[C]_((n + n) + (n + n)) :=
  if n != l_ng L then Err ValueError else
  if Req_EM_T wavelength 0 then Err ZeroDivisionError else
  do mu <- @window_mu n L (l_incid L) wavelength kp;
  matrix_u (fun g : 'I_n => compute_kz (l_incid L) wavelength kp (l_g L g)) (fun g : 'I_n => compute_eta kp (l_g L g)) mu
    (l_incid L) wavelength.
Definition lattice_V (n : nat) (L : lattice) (eps : num) (wavelength : R) (kp : vec2) : res 'M[C]_((n + n) + (n + n)) :=
  if n != l_ng L then Err ValueError else
  if Req_EM_T wavelength 0 then Err ZeroDivisionError else
  do mu <- @window_mu n L eps wavelength kp;
  matrix_v (fun g : 'I_n => compute_eta kp (l_g L g)) mu eps.
Definition lattice_Vi n L := @lattice_V n L (l_incid L).
Definition lattice_Ve n L := @lattice_V n L (l_emerg L).

(** khepri/tmat/scattering.py:130-134 scattering_interface. *)
Definition scattering_interface (n : nat) (L : lattice) (wavelength : R) (kp : vec2) : res 'M[C]_((n + n) + (n + n)) :=
  do U <- lattice_U n L wavelength kp;
  do Ve <- lattice_Ve n L wavelength kp;
  interface U Ve.

(** khepri/tmat/tools.py:71-73 coords_from_index: np.unravel_index in Fortran order
    minus n. *)
Definition coords_from_index (p n : nat * nat) (g : nat) : res (Z * Z) :=
  if (g < p.1 * p.2)%N then
    Ok (Z.sub (Z.of_nat (g %% p.1)) (Z.of_nat n.1), Z.sub (Z.of_nat (g %/ p.1)) (Z.of_nat n.2))
  else Err ValueError.

(** table[i, j] with Python integers. *)
Definition lookup (T : array2) (i j : Z) : res C :=
  do a <- py_index (a_rows T) i;
  do b <- py_index (a_cols T) j;
  Ok (a_at T a b).
(** indices[g]. *)
Definition index_row (indices : seq (Z * Z)) (g : nat) : res (Z * Z) :=
  if (g < size indices)%N then Ok (nth (Z0, Z0) indices g) else Err IndexError.

(** The coefficients used by the double loop of khepri/tmat/matrices.py:152-165
    (and :89-107): for each g_j the list over g_i. *)
Definition order_lookups (indices : seq (Z * Z)) (nx ny ng : nat) (T : array2) : res (seq (seq C)) :=
  mapM (fun g_j => mapM (fun g_i =>
    do mj <- index_row indices g_j;
    do mi <- index_row indices g_i;
    lookup T (Z.add (Z.sub mi.1 mj.1) (Z.of_nat (2 * nx))) (Z.add (Z.sub mi.2 mj.2) (Z.of_nat (2 * ny))))
    (iota 0 ng)) (iota 0 ng).
Definition looked (s : seq (seq C)) (g_i g_j : nat) : C := nth 0 (nth [::] s g_j) g_i.

(** khepri/tmat/matrices.py:127-131 (and :78-84). *)
Definition ieo (wavelength : R) : C := ci / RtoC mu0c * RtoC (twopi / wavelength)%Re.
Definition iseo (wavelength : R) : C := ci * RtoC mu0c / RtoC (twopi / wavelength)%Re.
Definition imo (wavelength : R) : C := ci * RtoC mu0c * RtoC (twopi / wavelength)%Re.
Definition ismo (wavelength : R) : C := ci / RtoC mu0c / RtoC (twopi / wavelength)%Re.

(** khepri/tmat/matrices.py:124-166 matrix_a: diagonals first, then the loop. *)
Definition matrix_a (n : nat) (indices : seq (Z * Z)) (w : grid) (eps_g epsinv_g : array2) (wavelength : R)
    (kp : vec2) : res 'M[C]_((n + n) + (n + n)) :=
  let nx := (w_rows w %/ 2)%N in
  let ny := (w_cols w %/ 2)%N in
  if Req_EM_T wavelength 0 then Err ZeroDivisionError else
  if n != w_ng w then Err ValueError else
  let ux (g : 'I_n) := RtoC (uvec kp (w_flat w g)).1 in
  let uy (g : 'I_n) := RtoC (uvec kp (w_flat w g)).2 in
  do e <- order_lookups indices nx ny n eps_g;
  do v <- order_lookups indices nx ny n epsinv_g;
  let e_ i j := looked e i j in
  let v_ i j := looked v i j in
  let k := wavelength in
  Ok (quad (fun a b => match a, b with
    | 2%N, 0%N => dgf (fun g => - ismo k * (ux g * uy g))
    | 3%N, 0%N => dgf (fun g => - ismo k * uy g ^+ 2) + \matrix_(i, j) (ieo k * e_ i j)
    | 2%N, 1%N => dgf (fun g => ismo k * ux g ^+ 2) - \matrix_(i, j) (ieo k * e_ i j)
    | 3%N, 1%N => dgf (fun g => ismo k * (ux g * uy g))
    | 0%N, 2%N => \matrix_(i, j) (iseo k * ux i * v_ i j * uy j)
    | 1%N, 2%N => dgf (fun _ => - imo k) + \matrix_(i, j) (iseo k * uy i * v_ i j * uy j)
    | 0%N, 3%N => dgf (fun _ => imo k) - \matrix_(i, j) (iseo k * ux i * v_ i j * ux j)
    | 1%N, 3%N => - \matrix_(i, j) (iseo k * uy i * v_ i j * ux j)
    | _, _ => 0
    end)).

(** gx[i1, i2], gy[i1, i2] of khepri/tmat/matrices.py:91-101 for one order.  Numba
    does not check bounds; the model raises IndexError. *)
Definition order_g (w : grid) (indices : seq (Z * Z)) (g : nat) : res vec2 :=
  do m <- index_row indices g;
  do i1 <- py_index (w_rows w) (Z.add m.1 (Z.of_nat (w_rows w %/ 2)));
  do i2 <- py_index (w_cols w) (Z.add m.2 (Z.of_nat (w_cols w %/ 2)));
  Ok (w_at w i1 i2).
(** khepri/tmat/matrices.py:77-121 matrix_a_old: one double loop over all entries. *)
Definition matrix_a_old (n : nat) (indices : seq (Z * Z)) (w : grid) (eps_g epsinv_g : array2) (wavelength : R)
    (kp : vec2) : res 'M[C]_((n + n) + (n + n)) :=
  let nx := (w_rows w %/ 2)%N in
  let ny := (w_cols w %/ 2)%N in
  if Req_EM_T wavelength 0 then Err ZeroDivisionError else
  if n != w_ng w then Err ValueError else
  do gs <- mapM (order_g w indices) (iota 0 n);
  do e <- order_lookups indices nx ny n eps_g;
  do v <- order_lookups indices nx ny n epsinv_g;
  let ux (g : 'I_n) := RtoC (kp.1 + (nth (0%Re, 0%Re) gs g).1)%Re in
  let uy (g : 'I_n) := RtoC (kp.2 + (nth (0%Re, 0%Re) gs g).2)%Re in
  let k := wavelength in
  Ok (quad (fun a b => \matrix_(i, j)
    (let same (z : C) := if i == j then z else 0 in
     let epsg := looked e i j in
     let epsinvg := looked v i j in
     match a, b with
    | 2%N, 0%N => same (- ismo k * ux i * uy j)
    | 3%N, 0%N => same (- ismo k * uy i * uy j) + ieo k * epsg
    | 2%N, 1%N => same (ismo k * ux i * ux j) - ieo k * epsg
    | 3%N, 1%N => same (ismo k * uy i * ux j)
    | 1%N, 2%N => same (- imo k) + iseo k * uy i * epsinvg * uy j
    | 0%N, 3%N => same (imo k) - iseo k * ux i * epsinvg * ux j
    | 0%N, 2%N => iseo k * ux i * epsinvg * uy j
    | 1%N, 3%N => - iseo k * uy i * epsinvg * ux j
    | _, _ => 0
    end))).

(** khepri/tmat/tools.py:75-84 epsilon_g. *)
Fixpoint add_tables (inverse : bool) (host : C) (islands : seq (array2 * C)) (acc : array2) : res array2 :=
  match islands with
  | [::] => Ok acc
  | (bf, eps) :: rest =>
      do ti <- mask_trsf inverse eps;
      do th <- mask_trsf inverse host;
      if (a_rows bf != a_rows acc) || (a_cols bf != a_cols acc) then Err ValueError else
      add_tables inverse host rest (Array2 (a_rows acc) (a_cols acc) (fun i j => a_at acc i j + (ti - th) * a_at bf i j))
  end.
Definition epsilon_g (q : nat * nat) (islands : seq (array2 * C)) (host : C) (inverse : bool) : res array2 :=
  let n := (q.1 %/ 2, q.2 %/ 2)%N in
  do th <- mask_trsf inverse host;
  if ~~ ((n.1 < q.1) && (n.2 < q.2))%N then Err IndexError else
  add_tables inverse host islands (Array2 q.1 q.2 (fun i j => if (i == n.1) && (j == n.2) then th else 0)).

(** fourier.transform on the arrays Gx, Gy of the lattice. *)
Definition grid_transform (J1 : R -> R) (s : shape) (G : grid) (area : R) : res array2 :=
  do l <- transform J1 s [seq w_at G (i %/ w_cols G) (i %% w_cols G) | i <- iota 0 (w_ng G)] area;
  Ok (Array2 (w_rows G) (w_cols G) (fun i j => nth 0 l (i * w_cols G + j))).

(** khepri/tmat/scattering.py:54-81 scattering_matrix_islands (and, with one island,
    :25-51 scattering_matrix).  [pw] is the argument of the function, [L] the
    lattice. *)
Definition scattering_matrix_islands (J1 : R -> R) (n : nat) (expm : 'M[C]_((n + n) + (n + n)) -> 'M[C]_((n + n) + (n + n)))
    (pw : nat * nat) (L : lattice) (islands : seq (shape * C)) (host : C) (wavelength : R) (kp : vec2)
    (depth : R) (slicing_pow : nat) : res 'M[C]_((n + n) + (n + n)) :=
  do nq <- grid_size pw;
  do data <- mapM (fun isl => do t <- grid_transform J1 isl.1 (l_G L) (l_area L); Ok (t, isl.2)) islands;
  do epsg <- epsilon_g nq.2 data host false;
  do epsinvg <- epsilon_g nq.2 data host true;
  do U <- lattice_U n L wavelength kp;
  do Vi <- lattice_Vi n L wavelength kp;
  let nn := (w_rows (window L) %/ 2, w_cols (window L) %/ 2)%N in
  do indices <- mapM (coords_from_index pw nn) (iota 0 (pw.1 * pw.2));
  do A <- matrix_a n indices (window L) epsg epsinvg wavelength kp;
  @sliced_layer C_fieldType (n + n) expm U A Vi (RtoC depth) slicing_pow.

(** khepri/tmat/tools.py:86-98 incident. *)
Definition tmat_incident (n : nat) (pw : nat * nat) (E0 p_pol s_pol : C) : res 'cV[C]_((n + n) + (n + n)) :=
  let g0 := (pw.1 %/ 2 + pw.1 * (pw.2 %/ 2))%N in
  if n != (pw.1 * pw.2)%N then Err ValueError else
  if ~~ (g0 < n)%N then Err IndexError else
  let one (v : C) : 'cV[C]_n := \col_g (if (g : nat) == g0 then v else 0) in
  Ok (col_mx (col_mx (one (s_pol * E0)) (one (p_pol * E0))) (col_mx 0 0)).

(** The quarter P[a*ng:(a+1)*ng]. *)
Definition quarter_of {n} (P : 'cV[C]_((n + n) + (n + n))) (a : nat) : 'cV[C]_n :=
  match a with
  | 0 => usubmx (usubmx P)
  | 1 => dsubmx (usubmx P)
  | 2 => usubmx (dsubmx P)
  | _ => dsubmx (dsubmx P)
  end%N.
Definition sqmod (z : C) : R := (Cmod z ^ 2)%Re.

(** khepri/tmat/tools.py:100-120 compute_currents. *)
Definition compute_currents (n : nat) (P_in P_sca : 'cV[C]_((n + n) + (n + n))) (L : lattice) (wavelength : R)
    (kp_inc : vec2) : res (('I_n -> C) * ('I_n -> C) * ('I_n -> C)) :=
  if n != l_ng L then Err IndexError else
  if Req_EM_T wavelength 0 then Err ZeroDivisionError else
  let q := (l_area L / (2 * mu0c * twopi / wavelength))%Re in
  let kgz_inc (g : 'I_n) := compute_kz (l_incid L) wavelength kp_inc (l_g L g) in
  let kgz_emerg (g : 'I_n) := compute_kz (l_emerg L) wavelength kp_inc (l_g L g) in
  let mask g := if Rle_dec (Rabs (snd (kgz_inc g))) float_eps then true else false in
  let maske g := if Rlt_dec (Rabs (snd (kgz_emerg g))) float_eps then true else false in
  let two P a b g := RtoC (sqmod (quarter_of P a g 0%R) + sqmod (quarter_of P b g 0%R))%Re in
  let j1plus g := if mask g then RtoC q * kgz_inc g * two P_in 0%N 1%N g else 0 in
  let j1minus g := if mask g then RtoC q * kgz_inc g * two P_sca 2%N 3%N g else 0 in
  let absorbing := if Rlt_dec (Rabs (snd (num_val (l_emerg L)))) float_eps then false else true in
  let j3plus g := if absorbing then 0 else if maske g then RtoC q * kgz_emerg g * two P_sca 0%N 1%N g else 0 in
  Ok (j1plus, j1minus, j3plus).

(** khepri/tmat/tools.py:122-143 compute_fluxes.  kp is not used: compute_currents is
    called with its default. *)
Definition compute_fluxes (n : nat) (L : lattice) (wavelength : R) (pin pout : 'cV[C]_((n + n) + (n + n)))
    (kp : vec2) : res (R * R * R) :=
  do js <- compute_currents pin pout L wavelength (0%Re, 0%Re);
  let: (j1plus, j1minus, j3plus) := js in
  let inc := \sum_(g < n) j1plus g in
  if inc == 0 then Err NonFinite else
  let R_tot := Cmod ((\sum_(g < n) j1minus g) / inc) in
  let T_tot := Cmod ((\sum_(g < n) j3plus g) / inc) in
  Ok (R_tot, T_tot, (1 - R_tot - T_tot)%Re).
