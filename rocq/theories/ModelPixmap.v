(** Model of khepri/fourier.py:65-68 and of the T-matrix layers that use it.
    Definitions only. *)
From Coq Require Import Reals.
From mathcomp Require Import all_ssreflect all_algebra.
From Coquelicot Require Import Complex.
From Verif Require Import Base CField ModelExpansion ModelFourier ModelTmat ModelLattice.
Set Implicit Arguments. Unset Strict Implicit. Unset Printing Implicit Defensive.
Import GRing.Theory.
Local Open Scope ring_scope.

(** khepri/fourier.py:65-68 transform_pixmap.  The vectors Gx, Gy are not used. *)
Definition transform_pixmap (map : array2) (sigma : R) : res array2 :=
  if Req_EM_T sigma 0%Re then Err NonFinite else
  do F <- fft2 map;
  Ok (Array2 (a_rows F) (a_cols F) (fun i j => a_at F i j / RtoC sigma)).

(** numpy's broadcasting to the shape [q], for [eps_g += coef * bf] of
    khepri/tmat/tools.py:83: an axis of length 1 is repeated. *)
Definition broadcast (q : nat * nat) (t : array2) : res array2 :=
  let fits n m := (n == m) || (n == 1%N) in
  if fits (a_rows t) q.1 && fits (a_cols t) q.2 then
    Ok (Array2 q.1 q.2 (fun i j => a_at t (if a_rows t == 1%N then 0%N else i) (if a_cols t == 1%N then 0%N else j)))
  else Err ValueError.

(** khepri/tmat/scattering.py:57: the table of an island, a shape ([inl]) or a picture
    ([inr]), in the form in which khepri/tmat/tools.py:81-83 adds it. *)
Definition island_table (J1 : R -> R) (q : nat * nat) (L : lattice) (isl : shape + array2) : res array2 :=
  match isl with
  | inl s => grid_transform J1 s (l_G L) (l_area L)
  | inr map => do t <- transform_pixmap map (l_area L); broadcast q t
  end.

(** khepri/tmat/scattering.py:54-81 scattering_matrix_islands (and, with one island,
    :25-51 scattering_matrix), pictures included. *)
Definition scattering_matrix_pictures (J1 : R -> R) (n : nat) (expm : 'M[C]_((n + n) + (n + n)) -> 'M[C]_((n + n) + (n + n)))
    (pw : nat * nat) (L : lattice) (islands : seq ((shape + array2) * C)) (host : C) (wavelength : R) (kp : vec2)
    (depth : R) (slicing_pow : nat) : res 'M[C]_((n + n) + (n + n)) :=
  do nq <- grid_size pw;
  do data <- mapM (fun isl => do t <- island_table J1 nq.2 L isl.1; Ok (t, isl.2)) islands;
  do epsg <- epsilon_g nq.2 data host false;
  do epsinvg <- epsilon_g nq.2 data host true;
  do U <- lattice_U n L wavelength kp;
  do Vi <- lattice_Vi n L wavelength kp;
  let nn := (w_rows (window L) %/ 2, w_cols (window L) %/ 2)%N in
  do indices <- mapM (coords_from_index pw nn) (iota 0 (pw.1 * pw.2));
  do A <- matrix_a n indices (window L) epsg epsinvg wavelength kp;
  @sliced_layer C_fieldType (n + n) expm U A Vi (RtoC depth) slicing_pow.
