(** Model of the layer and half-space solvers of khepri/alternative.py.
    Definitions only. *)
From Coq Require Import Reals.
From mathcomp Require Import all_ssreflect all_algebra.
From Coquelicot Require Import Complex.
From Verif Require Import Base CField CFun ModelRedheffer.
Set Implicit Arguments. Unset Strict Implicit. Unset Printing Implicit Defensive.
Import GRing.Theory.
Local Open Scope ring_scope.

Section Cores.
Variable F : fieldType.

(** khepri/alternative.py:181-195 build_scatmat, with the diagonal of line 186
    (the propagator exp(-lambdas*dbar*k0)) passed as the row vector [x]. *)
Definition build_core {m} (WI VI W0 V0 : 'M[F]_m) (x : 'rV[F]_m) : res (smat F m) :=
  do t1 <- solve WI W0;
  do t2 <- solve VI V0;
  let A := t1 + t2 in
  let B := t1 - t2 in
  let X := diag_mx x in
  do ax <- solve A X;
  let T := A - X *m B *m ax *m B in
  do S11 <- solve T (X *m B *m ax *m A - B);
  do ab <- solve A B;
  do S12 <- solve T (X *m (A - B *m ab));
  Ok (Smat S11 S12 S12 S11).

(** khepri/alternative.py:50-56, the end of scattering_reflection. *)
Definition reflection_core {m} (W0 V0 Wref Vref : 'M[F]_m) : res (smat F m) :=
  do w <- solve W0 Wref;
  do v <- solve V0 Vref;
  let A := w + v in
  let B := w - v in
  do ab <- solve A B;
  do iA <- inv A;
  Ok (Smat (- ab) (2%:R *: iA) (2%:R^-1 *: (A - B *m ab)) (B *m iA)).

(** khepri/alternative.py:76-82, the end of scattering_transmission. *)
Definition transmission_core {m} (W0 V0 Wtrans Vtrans : 'M[F]_m) : res (smat F m) :=
  do w <- solve W0 Wtrans;
  do v <- solve V0 Vtrans;
  let A := w + v in
  let B := w - v in
  do iA <- inv A;
  do ab <- solve A B;
  Ok (Smat (B *m iA) (2%:R^-1 *: (A - B *m ab)) (2%:R *: iA) (- ab)).

(** The division of a matrix by a row of eigenvalues, khepri/alternative.py:49,
    :75, :98, :154, :177 (numpy broadcasting: column j is divided by entry j).
    A zero eigenvalue (Rayleigh anomaly) makes numpy go on with inf/nan; the
    model stops. *)
Definition divcols {p m} (Q : 'M[F]_(p, m)) (l : 'rV[F]_m) : res 'M[F]_(p, m) :=
  if [forall j, l 0 j != 0] then Ok (\matrix_(i, j) (Q i j / l 0 j)) else Err NonFinite.

End Cores.

Section Numbers.
Variable n : nat.
Implicit Types kx ky : 'rV[C]_n.

(** np.diag(KX): khepri/alternative.py:35-36, :62-63, :86-87, :134-135. *)
Notation dg := diag_mx.

(** khepri/alternative.py:38-41, :64-67 (Qref). [ur] is divided out at the end. *)
Definition Qref kx ky (er ur : C) : 'M[C]_(n + n) :=
  ur^-1 *: block_mx
    (dg kx *m dg ky)                      ((er * ur)%:M - dg kx *m dg kx)
    (dg ky *m dg ky - (er * ur)%:M)       (- (dg ky *m dg kx)).

(** khepri/alternative.py:43-47, :68-72: Kz = conj(csqrt(ur er - kx^2 - ky^2)),
    eigenvals = hstack((1j Kz, 1j Kz)). *)
Definition half_kz kx ky (er ur : C) : 'rV[C]_n :=
  \row_j Cconj (csqrt (ur * er - kx 0 j ^+ 2 - ky 0 j ^+ 2)).
Definition twice (v : 'rV[C]_n) : 'rV[C]_(n + n) := row_mx v v.

(** khepri/alternative.py:32-56 scattering_reflection.  Simplified: ur = 0 is
    reported as NonFinite at once. *)
Definition scattering_reflection kx ky (W0 V0 : 'M[C]_(n + n)) (er ur : C) :
    res (smat _ (n + n) * 'M[C]_(n + n) * 'M[C]_(n + n) * 'rV[C]_(n + n)) :=
  if ur == 0 then Err NonFinite else
  let eigenvals := twice (ci *: half_kz kx ky er ur) in
  let Wref := 1%:M in
  do Vref <- divcols (Qref kx ky er ur) eigenvals;
  do S <- reflection_core W0 V0 Wref Vref;
  Ok (S, Wref, Vref, eigenvals).

(** khepri/alternative.py:59-82 scattering_transmission. *)
Definition scattering_transmission kx ky (W0 V0 : 'M[C]_(n + n)) (er ur : C) :
    res (smat _ (n + n) * 'M[C]_(n + n) * 'M[C]_(n + n) * 'rV[C]_(n + n)) :=
  if ur == 0 then Err NonFinite else
  let eigenvals := twice (ci *: half_kz kx ky er ur) in
  let Wtrans := 1%:M in
  do Vtrans <- divcols (Qref kx ky er ur) eigenvals;
  do S <- transmission_core W0 V0 Wtrans Vtrans;
  Ok (S, Wtrans, Vtrans, eigenvals).

(** The square-root branch of khepri/alternative.py:93-96 and :146-149:
    -1j*sqrt(-kz2) where Re kz2 < 0, sqrt(kz2) elsewhere. *)
Definition kz_branch (kz2 : C) : C :=
  if Rlt_dec (fst kz2) 0%Re then - (ci * csqrt (- kz2)) else csqrt kz2.

(** khepri/alternative.py:84-99 free_space_eigenmodes: returns (W, V).
    [KX*KY] of line 89 is the element-wise product of two diagonal matrices. *)
Definition free_space_eigenmodes kx ky : res ('M[C]_(n + n) * 'M[C]_(n + n)) :=
  let Q := block_mx
    (dg (\row_j (kx 0 j * ky 0 j)))          (1%:M - dg (\row_j (kx 0 j ^+ 2)))
    (dg (\row_j (ky 0 j ^+ 2)) - 1%:M)       (- dg (\row_j (ky 0 j * kx 0 j))) in
  let W := 1%:M in
  let kz := \row_j kz_branch (1 - kx 0 j ^+ 2 - ky 0 j ^+ 2) in
  let eigenvalues := twice (ci *: kz) in
  do V <- divcols Q eigenvalues;
  Ok (W, V).

(** khepri/alternative.py:138-142: the matrix P of solve_uniform_layer. *)
Definition uniform_P kx ky (er mr : C) : 'M[C]_(n + n) :=
  er^-1 *: block_mx
    (dg (\row_j (kx 0 j * ky 0 j)))                 ((er * mr)%:M - dg (\row_j (kx 0 j ^+ 2)))
    (dg (\row_j (ky 0 j ^+ 2)) - (mr * er)%:M)      (- dg (\row_j (ky 0 j * kx 0 j))).
(** khepri/alternative.py:143. *)
Definition uniform_Q kx ky (er mr : C) : 'M[C]_(n + n) := (er / mr) *: uniform_P kx ky er mr.

(** khepri/alternative.py:130-156 solve_uniform_layer: returns (W, V, eigenvalues).
    er = 0 or m_r = 0 would divide by zero. *)
Definition solve_uniform_layer kx ky (er mr : C) :
    res ('M[C]_(n + n) * 'M[C]_(n + n) * 'rV[C]_(n + n)) :=
  if (er == 0) || (mr == 0) then Err NonFinite else
  let Q := uniform_Q kx ky er mr in
  let W := 1%:M in
  let kz := \row_j kz_branch (mr * er - kx 0 j ^+ 2 - ky 0 j ^+ 2) in
  let eigenvalues := twice (ci *: kz) in
  do V <- divcols Q eigenvalues;
  Ok (W, V, eigenvalues).

(** khepri/alternative.py:163-166: Pi of solve_structured_layer, [IC] being the
    inverse of the convolution matrix (solve(C, KY) = C^-1 KY). *)
Definition structured_P kx ky (IC : 'M[C]_n) : 'M[C]_(n + n) :=
  block_mx (dg kx *m (IC *m dg ky))             (1%:M - dg kx *m (IC *m dg kx))
           (dg ky *m (IC *m dg ky) - 1%:M)      (- (dg ky *m (IC *m dg kx))).
(** khepri/alternative.py:167-170: Qi. *)
Definition structured_Q kx ky (Cm : 'M[C]_n) : 'M[C]_(n + n) :=
  block_mx (dg kx *m dg ky)             (Cm - dg kx *m dg kx)
           (dg ky *m dg ky - Cm)        (- (dg ky *m dg kx)).

(** khepri/alternative.py:158-178 solve_structured_layer: returns (WI, VI, lam).
    numpy.linalg.eig is the parameter [eig] (it returns eigenvalues and the
    matrix of eigenvectors). *)
Definition solve_structured_layer
    (eig : 'M[C]_(n + n) -> 'rV[C]_(n + n) * 'M[C]_(n + n)) kx ky (Cm : 'M[C]_n) :
    res ('M[C]_(n + n) * 'M[C]_(n + n) * 'rV[C]_(n + n)) :=
  do IC <- inv Cm;
  let Pi := structured_P kx ky IC in
  let Qi := structured_Q kx ky Cm in
  let (lam2i, WI) := eig (Pi *m Qi) in
  let lam := map_mx csqrt lam2i in
  do VI <- divcols (Qi *m WI) lam;
  Ok (WI, VI, lam).

End Numbers.

(** khepri/alternative.py:186: the diagonal of X. dbar (the thickness) and k0
    are real. *)
Definition propagator {m} (lambdas : 'rV[C]_m) (dbar k0 : R) : 'rV[C]_m :=
  map_mx (fun l => cexp (- l * RtoC dbar * RtoC k0)) lambdas.

(** khepri/alternative.py:181-195 build_scatmat. *)
Definition build_scatmat {m} (WI VI W0 V0 : 'M[C]_m) (lambdas : 'rV[C]_m) (dbar k0 : R) :
    res (smat _ m) :=
  build_core WI VI W0 V0 (propagator lambdas dbar k0).
