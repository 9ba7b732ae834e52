(** Model of the source and the flux formula of khepri/alternative.py.
    Definitions only. *)
From Coq Require Import Reals.
From mathcomp Require Import all_ssreflect all_algebra.
From Coquelicot Require Import Complex.
From Verif Require Import Base CField CFun ModelExpansion.
Set Implicit Arguments. Unset Strict Implicit. Unset Printing Implicit Defensive.
Import GRing.Theory.
Local Open Scope ring_scope.

(** np.abs(z)**2, computed exactly. *)
Definition abs2 (z : C) : R := (fst z * fst z + snd z * snd z)%Re.

(** np.linalg.norm of a (complex) 3-vector, and np.cross. *)
Definition norm3 (v : C * C * C) : R := sqrt (abs2 v.1.1 + abs2 v.1.2 + abs2 v.2)%Re.
Definition np_cross (a b : C * C * C) : C * C * C :=
  (a.1.2 * b.2 - a.2 * b.1.2, a.2 * b.1.1 - a.1.1 * b.2, a.1.1 * b.1.2 - a.1.2 * b.1.1).
Definition div3 (v : C * C * C) (x : R) : C * C * C :=
  (v.1.1 / RtoC x, v.1.2 / RtoC x, v.2 / RtoC x).
Definition neg3 (v : C * C * C) : C * C * C := (- v.1.1, - v.1.2, - v.2).
Definition lin3 (a b : C) (u v : C * C * C) : C * C * C :=
  (a * u.1.1 + b * v.1.1, a * u.1.2 + b * v.1.2, a * u.2 + b * v.2).

(** khepri/alternative.py:111-120: the TE and TM unit vectors.  In the branch
    |kp| < 1e-8, kbar (:110) is not used, so knorm = 0 does no harm there. *)
Definition pol_frame (k : C * C * C) : res ((C * C * C) * (C * C * C)) :=
  let kpnorm := sqrt (abs2 k.1.1 + abs2 k.1.2)%Re in
  let knorm := norm3 k in
  if Rlt_dec (Rabs kpnorm) (1 / 100000000)%Re then
    Ok ((1, 0, 0), (0, 1, 0))
  else
    let kbar := div3 k knorm in
    let aTE0 := neg3 (np_cross (0, 0, -1) kbar) in
    if Req_EM_T (norm3 aTE0) 0%Re then Err NonFinite else
    let aTE := div3 aTE0 (norm3 aTE0) in
    let aTM0 := np_cross aTE kbar in
    if Req_EM_T (norm3 aTM0) 0%Re then Err NonFinite else
    Ok (aTE, div3 aTM0 (norm3 aTM0)).

(** khepri/alternative.py:104-107 and :126: the (normalised) polarisation vector
    pxy (three components; :127 keeps the first two). *)
Definition pol_vector (te tm : C) (k : C * C * C) (normalize : bool) : res (C * C * C) :=
  let pol_norm := sqrt (abs2 te + abs2 tm)%Re in
  if normalize then
    if Req_EM_T pol_norm 0%Re then Err NonFinite else
    do f <- pol_frame k; Ok (lin3 (te / RtoC pol_norm) (tm / RtoC pol_norm) f.1 f.2)
  else
    do f <- pol_frame k; Ok (lin3 te tm f.1 f.2).

(** khepri/alternative.py:101-128 incident.  [n] is prod(pw); on an empty
    array delta[(N-1)//2] = delta[-1] raises IndexError. *)
Definition incident (n : nat) (te tm : C) (k : C * C * C) (normalize : bool) :
    res 'cV[C]_(n + n) :=
  do p <- pol_vector te tm k normalize;
  if n == 0%N then Err IndexError else
  let delta := \col_(j < n) (if (j == ((n - 1) %/ 2)%N :> nat) then 1 else 0) in
  Ok (col_mx (p.1.1 *: delta) (p.1.2 *: delta)).

(** khepri/alternative.py:235-245 poynting_fluxes: the list t of fluxes per
    order; np.sum(t) is its total.  kz = 0 and Re kzi = 0 divide by zero. *)
Definition flux_kzi (k0 : R) (kp : C * C) (epsi : C) : C :=
  Cconj (csqrt (RtoC k0 ^+ 2 * epsi - kp.1 ^+ 2 - kp.2 ^+ 2)) / RtoC k0.
Definition poynting_fluxes (n : nat) (e : expansion) (c_output : 'cV[C]_(n + n)) (kp : C * C)
    (wavelength : R) (epsi epse : C) : res 'rV[R]_n :=
  if Req_EM_T wavelength 0%Re then Err ZeroDivisionError else
  let k0 := (2 * PI / wavelength)%Re in
  let kzi := flux_kzi k0 kp epsi in
  do k <- krows n e kp wavelength epse;
  let kx := k.1.1 in let ky := k.1.2 in let kz := k.2 in
  if Req_EM_T (fst kzi) 0%Re then Err NonFinite else
  if [exists j, kz 0 j == 0] then Err NonFinite else
  let sx (j : 'I_n) := c_output (lshift n j) 0 in
  let sy (j : 'I_n) := c_output (rshift n j) 0 in
  let sz j := - (kx 0 j * sx j + ky 0 j * sy j) / kz 0 j in
  Ok (\row_j (fst (kz 0%R j) / fst kzi * (abs2 (sx j) + abs2 (sy j) + abs2 (sz j)))%Re).
Definition total {n} (t : 'rV[R]_n) : R := \sum_j t 0 j.
