(** Model of the Fourier side: khepri/tools.py convolution_matrix and
    khepri/fourier.py.  Definitions only. *)
From Coq Require Import Reals ZArith.
From mathcomp Require Import all_ssreflect all_algebra.
From Coquelicot Require Import Complex.
From Verif Require Import Base CField CFun ModelExpansion.
Set Implicit Arguments. Unset Strict Implicit. Unset Printing Implicit Defensive.
Import GRing.Theory.
Local Open Scope ring_scope.

(** A two-dimensional numpy array of numbers: its shape and its entries
    (entries outside the shape are never looked at). *)
Record array2 := Array2 { a_rows : nat; a_cols : nat; a_at : nat -> nat -> C }.

(** Indexing of an axis of length [N] with a Python integer: negative indices
    count from the end, indices beyond either end raise IndexError. *)
Definition py_index (N : nat) (i : Z) : res nat :=
  if Z.leb Z0 i && Z.ltb i (Z.of_nat N) then Ok (Z.to_nat i)
  else if Z.leb (Z.opp (Z.of_nat N)) i && Z.ltb i Z0 then Ok (Z.to_nat (Z.add i (Z.of_nat N)))
  else Err IndexError.

(** exp(-2 pi i k x / N), the kernel of numpy.fft. *)
Definition fft_kernel (N k x : nat) : C :=
  cexp (- (ci * RtoC (2 * PI * INR k * INR x / INR N)%Re)).

(** np.fft.fft2 (khepri/tools.py:34).  An axis of length 0 raises ValueError. *)
Definition fft2 (A : array2) : res array2 :=
  if (a_rows A == 0%N) || (a_cols A == 0%N) then Err ValueError else
  Ok (Array2 (a_rows A) (a_cols A) (fun k l =>
    \sum_(x < a_rows A) \sum_(y < a_cols A)
       a_at A x y * fft_kernel (a_rows A) k x * fft_kernel (a_cols A) l y)).

(** np.fft.fftshift (khepri/tools.py:34): roll both axes by N//2. *)
Definition fftshift (A : array2) : array2 :=
  let sh N i := ((i + (N - N %/ 2)) %% N)%N in
  Array2 (a_rows A) (a_cols A) (fun i j => a_at A (sh (a_rows A) i) (sh (a_cols A) j)).

(** khepri/tools.py:45-55: the entry of the convolution matrix in row
    qrow*P + prow and column qcol*P + pcol. *)
Definition conv_entry_at (A : array2) (P row col : nat) : res C :=
  let g0 := Z.add (Z.of_nat (a_rows A %/ 2)) (Z.sub (Z.of_nat (row %% P)) (Z.of_nat (col %% P))) in
  let g1 := Z.add (Z.of_nat (a_cols A %/ 2)) (Z.sub (Z.of_nat (row %/ P)) (Z.of_nat (col %/ P))) in
  do i <- py_index (a_rows A) g0;
  do j <- py_index (a_cols A) g1;
  Ok (a_at A i j).

(** khepri/tools.py:38-56 convolution_matrix_fourier.  The side of the matrix is
    prod(harmonics); [n] is the size fixed by the caller: when the two differ
    later numpy operations with vectors of size n fail (ValueError), which the
    model reports here. *)
Definition convolution_matrix_fourier (n : nat) (A : array2) (harmonics : nat * nat) : res 'M[C]_n :=
  let P := harmonics.1 in
  if (P * harmonics.2 != n)%N then Err ValueError else
  if [forall row : 'I_n, forall col : 'I_n, if conv_entry_at A P row col is Ok _ then true else false] then
    Ok (\matrix_(row, col) (if conv_entry_at A P row col is Ok v then v else 0))
  else Err IndexError.

(** khepri/tools.py:33-35 convolution_matrix. *)
Definition convolution_matrix (n : nat) (structure : array2) (harmonics : nat * nat) : res 'M[C]_n :=
  do F <- fft2 structure;
  let S := fftshift F in
  let fourier := Array2 (a_rows S) (a_cols S)
    (fun i j => a_at S i j / RtoC (INR (a_rows structure * a_cols structure))) in
  convolution_matrix_fourier n fourier harmonics.

(** khepri/fourier.py:7-20 fexpz (element-wise). *)
Definition fexpz (z : C) : C :=
  if Rlt_dec (1 / 100)%Re (Cmod z) then (cexp z - 1) / z
  else 1 + z / 2%:R * (1 + z / 3%:R * (1 + z / 4%:R * (1 + z / 5%:R * (1 + z / 6%:R * (1 + z / 7%:R))))).

(** khepri/fourier.py:28-39 transform_rectangle, one entry. *)
Definition transform_rectangle (ll0 ll1 ur0 ur1 : R) (Gx Gy sigma : R) : C :=
  let a := (ur0 - ll0)%Re in
  let b := (ur1 - ll1)%Re in
  RtoC (a * b / sigma)%Re * fexpz (- ci * RtoC Gx * RtoC a) * fexpz (- ci * RtoC Gy * RtoC b)
    * cexp (- ci * RtoC (ll0 * Gx + ll1 * Gy)%Re).

(** np.isclose(x, 0.0) with the default tolerances: |x| <= 1e-8. *)
Definition isclose0 (x : R) : bool := if Rle_dec (Rabs x) (1 / 100000000)%Re then true else false.

(** khepri/fourier.py:42-58 transform_disc, one entry.  scipy.special.jv(1, .)
    is the parameter [J1]; radius 0 divides by zero off the origin. *)
Definition transform_disc (J1 : R -> R) (center0 center1 radius : R) (Gx Gy sigma : R) : C :=
  let norm := (sqrt (Gx * Gx + Gy * Gy) * radius)%Re in
  if isclose0 Gx && isclose0 Gy then RtoC (PI * (radius * radius) / sigma)%Re
  else RtoC (PI * (radius * radius) / sigma * 2)%Re
       * cexp (- ci * RtoC (center0 * Gx + center1 * Gy)%Re) * RtoC (J1 norm / norm)%Re.

(** The shapes whose transform_<name> exists (khepri/fourier.py:23-25, :61-62);
    any other name makes getattr raise AttributeError.  transform_pixmap (:65-68)
    returns a two-dimensional array that the crystal's layers cannot use; it is
    in ModelPixmap, with the layers of the T-matrix API. *)
Inductive shape :=
| Rectangle (ll0 ll1 ur0 ur1 : R)
| Disc (center0 center1 radius : R)
| Uniform
| OtherShape.

(** khepri/fourier.py:23-25 transform, on the list of g-vectors. *)
Definition transform (J1 : R -> R) (s : shape) (G : seq vec2) (sigma : R) : res (seq C) :=
  if Req_EM_T sigma 0%Re then Err NonFinite else
  match s with
  | Rectangle ll0 ll1 ur0 ur1 => Ok [seq transform_rectangle ll0 ll1 ur0 ur1 g.1 g.2 sigma | g <- G]
  | Disc c0 c1 r =>
      if Req_EM_T r 0%Re then Err NonFinite else
      Ok [seq transform_disc J1 c0 c1 r g.1 g.2 sigma | g <- G]
  | Uniform => Ok [seq 0 | _ <- G]
  | OtherShape => Err AttributeError
  end.

(** khepri/fourier.py:145-159 combine_fourier_masks; a list is numpy's 1-D array.
    An empty island list, or islands of length 0, raise IndexError; adding arrays
    of different lengths raises ValueError (numpy would broadcast length 1; not
    modelled: all transforms of one layer have the same length). *)
Definition mask_trsf (inverse : bool) (x : C) : res C :=
  if inverse then (if x == 0 then Err ZeroDivisionError else Ok x^-1) else Ok x.
Fixpoint add_masks (inverse : bool) (host : C) (islands : seq (seq C * C)) (acc : seq C) : res (seq C) :=
  match islands with
  | [::] => Ok acc
  | (bf, eps) :: rest =>
      do ti <- mask_trsf inverse eps;
      do th <- mask_trsf inverse host;
      if size bf != size acc then Err ValueError else
      add_masks inverse host rest [seq p.1 + (ti - th) * p.2 | p <- zip acc bf]
  end.
Definition combine_fourier_masks (islands : seq (seq C * C)) (host : C) (inverse : bool) : res (seq C) :=
  match islands with
  | [::] => Err IndexError
  | (bf0, _) :: _ =>
      let length := size bf0 in
      if length == 0%N then Err IndexError else
      let center := ((length - 1) %/ 2)%N in
      do th <- mask_trsf inverse host;
      add_masks inverse host islands (mkseq (fun i => if i == center then th else 0) length)
  end.

(** ndarray.reshape((r, c)) of a 1-D array (row-major). *)
Definition reshape (l : seq C) (rc : nat * nat) : res array2 :=
  if size l != (rc.1 * rc.2)%N then Err ValueError else
  Ok (Array2 rc.1 rc.2 (fun i j => nth 0 l (i * rc.2 + j))).

(** khepri/fourier.py:75-91 dft, one output entry: the two nested loops with the
    running powers KXk, KYl.  dx = a/len(field): no rows divide by zero. *)
Fixpoint dft_inner (row : nat -> C) (KXk KY : C) (l todo : nat) (acc KYl : C) : C :=
  match todo with
  | 0%N => acc
  | t.+1 => dft_inner row KXk KY l.+1 t (acc + row l * KXk * KYl) (KYl * KY)
  end.
Fixpoint dft_outer (field : nat -> nat -> C) (cols : nat) (KX KY : C) (k todo : nat) (acc KXk : C) : C :=
  match todo with
  | 0%N => acc
  | t.+1 => dft_outer field cols KX KY k.+1 t (dft_inner (field k) KXk KY 0 cols acc 1) (KXk * KX)
  end.
Definition dft (A : array2) (kx ky a : R) : res C :=
  if a_rows A == 0%N then Err ZeroDivisionError else
  let dx := (a / INR (a_rows A))%Re in
  let KX := cexp (- ci * RtoC kx * RtoC dx) in
  let KY := cexp (- ci * RtoC ky * RtoC dx) in
  Ok (dft_outer (a_at A) (a_cols A) KX KY 0 (a_rows A) 0 1).

(** khepri/fourier.py:94-104 slow_dft, one output entry. *)
Definition slow_dft (vals : seq (C * (R * R))) (kx ky : R) : C :=
  foldl (fun acc v => acc + v.1 * cexp (- ci * RtoC (kx * v.2.1 + ky * v.2.2)%Re)) 0 vals.

(** khepri/fourier.py:136-142 idft at one point (x, y); coefficients with their
    wavevectors. *)
Definition idft (coefs : seq (C * (C * C))) (x y : R) : C :=
  foldr (fun f acc => f.1 * cexp (ci * (f.2.1 * RtoC x + f.2.2 * RtoC y)) + acc) 0 coefs.

(** khepri/fourier.py:107-134 idft2: the entry [k, l] (k along the first axis).
    The running powers are those of the loops. *)
Fixpoint running (z w : C) (k : nat) : C :=
  match k with 0%N => z | k'.+1 => running z w k' * w end.
Definition idft2 (coefs : seq (C * (R * R))) (xmin xmax ymin ymax : R) (rows cols k l : nat) : C :=
  let dx := ((xmax - xmin) / INR rows)%Re in
  let dy := ((ymax - ymin) / INR cols)%Re in
  foldl (fun acc f =>
    let KX := cexp (ci * RtoC f.2.1 * RtoC dx) in
    let KY := cexp (ci * RtoC f.2.2 * RtoC dy) in
    let KXk := running (cexp (ci * RtoC f.2.1 * RtoC xmin)) KX k in
    let KYl := running (cexp (ci * RtoC f.2.2 * RtoC ymin)) KY l in
    acc + f.1 * KXk * KYl) 0 coefs.
