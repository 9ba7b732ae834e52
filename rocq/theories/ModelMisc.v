(** Model of khepri/misc.py, khepri/tools.py:26-30, khepri/constants.py,
    khepri/tmat/lattice.py:161-178 and khepri/eigentricks.py:42-55.
    Definitions only. *)
From Coq Require Import Reals ZArith String.
From mathcomp Require Import all_ssreflect all_algebra.
From Coquelicot Require Import Complex.
From Verif Require Import Base CField CFun.
Set Implicit Arguments. Unset Strict Implicit. Unset Printing Implicit Defensive.
Import GRing.Theory.

(** * Arrays *)

(** Numpy arrays with two, three and four axes; entries outside the shape are
    never looked at. *)
Record arr2 (T : Type) := Arr2 { r2 : nat; c2 : nat; at2 : nat -> nat -> T }.
Record arr3 (T : Type) := Arr3 { d3 : nat * nat * nat; at3 : nat -> nat -> nat -> T }.
Record arr4 (T : Type) := Arr4 { d4 : nat * nat * nat * nat; at4 : nat -> nat -> nat -> nat -> T }.
Arguments Arr2 {T}. Arguments Arr3 {T}. Arguments Arr4 {T}.

(** The items of an array in C order, which is what reshape sees. *)
Definition flat2 {T} (A : arr2 T) (k : nat) : T := at2 A (k %/ c2 A) (k %% c2 A).
Definition flat4 {T} (A : arr4 T) (k : nat) : T :=
  let: (a, b, c, d) := d4 A in at4 A (k %/ (b * c * d)) (k %/ (c * d) %% b) (k %/ d %% c) (k %% d).

(** np.swapaxes(A, 1, 2) of an array with four axes. *)
Definition swap12 {T} (A : arr4 T) : arr4 T :=
  let: (a, b, c, d) := d4 A in Arr4 (a, c, b, d) (fun i j k l => at4 A i k j l).

(** khepri/misc.py:12-18 block_split.  Slices are clipped to the shape; blocks of
    different shapes make np.asarray raise ValueError. *)
Definition block_split {T} (S : arr2 T) : res (arr4 T) :=
  let m := r2 S %/ 2 in
  let lo := minn m (c2 S) in let hi := minn (2 * m) (c2 S) in
  if lo != (hi - lo)%N then Err ValueError else
  Ok (Arr4 (2, 2, m, lo) (fun a b i j => at2 S (a * m + i) (b * lo + j))).

(** khepri/tools.py:26-30 block2dense. *)
Definition block2dense {T} (B : arr4 T) : arr2 T :=
  let: (b0, b1, s0, s1) := d4 B in
  Arr2 (b0 * s0) (b1 * s1) (fun i j => flat4 (swap12 B) (i * (b1 * s1) + j)).

(** khepri/misc.py:20-26 split.  [r] is the number of rows and [h] the number of
    columns.  reshape with -1 fails when the other axes are empty or do not divide
    the size. *)
Definition split {T} (A : arr2 T) (nrows ncols : nat) : res (arr3 T) :=
  let r := r2 A in let h := c2 A in
  if nrows == 0 then Err ZeroDivisionError else
  let q := h %/ nrows in
  let known := q * nrows * ncols in
  if known == 0 then Err ValueError else
  if (r * h) %% known != 0 then Err ValueError else
  let u := r * h %/ known in
  let B := swap12 (Arr4 (q, nrows, u, ncols) (fun a b c d => flat2 A (((a * nrows + b) * u + c) * ncols + d))) in
  Ok (Arr3 (q * u, nrows, ncols) (fun k i j => flat4 B ((k * nrows + i) * ncols + j))).

(** * Strided convolution *)

(** An array as numpy stores it: the address of entry (i, j) is
    start + i * stride0 + j * stride1 (in items). *)
Record view (T : Type) := View { v_rows : nat; v_cols : nat; v_start : Z; v_str : Z * Z; v_mem : Z -> T }.
Definition address {T} (V : view T) (i j : Z) : Z :=
  Z.add (v_start V) (Z.add (Z.mul i (v_str V).1) (Z.mul j (v_str V).2)).
Definition pixel {T} (V : view T) (i j : nat) : T := v_mem V (address V (Z.of_nat i) (Z.of_nat j)).

Section Convolution.
Variable F : fieldType.
(** khepri/misc.py:40: the number of windows along one axis. *)
Definition windows (len f : nat) (stride : Z) : Z := Z.add (Zpos xH) (Z.div (Z.sub (Z.of_nat len) (Z.of_nat f)) stride).
(** khepri/misc.py:41-42: the address of windows[i, j, a, b]. *)
Definition window_address (V : view F) (stride : Z) (i j a b : nat) : Z :=
  Z.add (v_start V) (Z.add (Z.add (Z.mul (Z.of_nat i) (Z.mul (v_str V).1 stride)) (Z.mul (Z.of_nat j) (Z.mul (v_str V).2 stride)))
                          (Z.add (Z.mul (Z.of_nat a) (v_str V).1) (Z.mul (Z.of_nat b) (v_str V).2))).
(** khepri/misc.py:36-44 strided_convolution: the result, and the list of the
    addresses that are read.  as_strided rejects negative lengths. *)
Definition strided_convolution (V : view F) (weight : arr2 F) (stride : Z) : res (arr2 F * seq Z) :=
  if Z.eqb stride Z0 then Err ZeroDivisionError else
  let h := windows (v_rows V) (r2 weight) stride in
  let w := windows (v_cols V) (c2 weight) stride in
  if Z.ltb h Z0 || Z.ltb w Z0 then Err ValueError else
  let ad := window_address V stride in
  Ok (Arr2 (Z.to_nat h) (Z.to_nat w)
        (fun i j => \sum_(a < r2 weight) \sum_(b < c2 weight) (v_mem V (ad i j a b) * at2 weight a b)%R)%R,
      flatten [seq flatten [seq flatten [seq [seq ad i j a b | b <- iota 0 (c2 weight)] | a <- iota 0 (r2 weight)]
                           | j <- iota 0 (Z.to_nat w)] | i <- iota 0 (Z.to_nat h)]).
End Convolution.

(** * Units, khepri/constants.py *)
Definition lightspeed : R := 299792458.
Definition planck : R := (66261 / 10000 * / 10 ^ 34)%Re.
Definition electronvolt : R := (1602 / 1000 * / 10 ^ 19)%Re.
(** khepri/constants.py:10-11. *)
Definition fn2ev (f pitch : R) : res R :=
  if Req_EM_T (pitch * / 10 ^ 6)%Re 0%Re then Err ZeroDivisionError else
  Ok (planck * f * lightspeed / (pitch * / 10 ^ 6) / electronvolt)%Re.
(** khepri/constants.py:12-13. *)
Definition ev2fn (fev pitch : R) : R := (fev / planck / lightspeed * (pitch * / 10 ^ 6) * electronvolt)%Re.

(** * Paths, khepri/tmat/lattice.py:161-178 *)

(** khepri/tmat/lattice.py:162 the dictionary main_k_points. *)
Definition main_k_points (a : R) (name : string) : res (R * R) :=
  if String.eqb name "G" then Ok (0%Re, 0%Re)
  else if String.eqb name "X" then Ok (0%Re, (99 / 100 * PI / a)%Re)
  else if String.eqb name "M" then Ok ((99 / 100 * PI / a)%Re, (99 / 100 * PI / a)%Re)
  else Err KeyError.

(** khepri/tmat/lattice.py:175-176: range(r) is empty when r <= 0. *)
Definition segment (start stop : R * R) (r : Z) : seq (R * R) :=
  [seq ((start.1 + (stop.1 - start.1) * INR j / IZR r)%Re, (start.2 + (stop.2 - start.2) * INR j / IZR r)%Re)
  | j <- iota 0 (Z.to_nat r)].
(** khepri/tmat/lattice.py:171-176. *)
Fixpoint trajectory (a : R) (k_points : seq string) (resolutions : seq Z) : res (seq (R * R)) :=
  match resolutions, k_points with
  | r :: rs, k :: (k' :: _) as ks =>
      do start <- main_k_points a k;
      do stop <- main_k_points a k';
      do rest <- trajectory a (behead k_points) rs;
      Ok (segment start stop r ++ rest)
  | _, _ => Ok [::]
  end.
(** khepri/tmat/lattice.py:161-178 bz_path. *)
Definition bz_path (k_points : seq string) (resolutions : seq Z) (a : R) : res (seq (R * R)) :=
  if Req_EM_T a 0%Re then Err ZeroDivisionError else
  if size k_points <= 1 then Err AssertionError else
  let rs := match resolutions with
            | [::] => nseq (size k_points - 1) (Z.of_nat 10)
            | [:: r] => nseq (size k_points - 1) r
            | _ => resolutions
            end in
  if size rs != (size k_points - 1)%N then Err AssertionError else trajectory a k_points rs.

(** * Bands *)

(** khepri/eigentricks.py:42-43 on_shell with the default tolerance, of a real
    number. *)
Definition on_shell (w : R) : bool := if Rle_dec (Rabs (Rabs w - 1))%Re (/ 10 ^ 10)%Re then true else false.
(** khepri/eigentricks.py:47-55 band_structure, given the eigenvalues found by
    scipy.linalg.eig.  With finite matrices scattering_eigenvalues never returns
    None. *)
Definition band_structure (w : seq C) : seq R :=
  let w1 := [seq fst z | z <- w] in
  let w2 := [seq x <- w1 | if Rlt_dec 0 x then true else false] in
  let w3 := [seq x <- w2 | if Rlt_dec x 1 then true else false] in
  [seq x <- w3 | on_shell x].
