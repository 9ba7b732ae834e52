(** Model of khepri/eigentricks.py:29-40.  Definitions only. *)
From mathcomp Require Import all_ssreflect all_algebra.
From Verif Require Import Base ModelRedheffer ModelTmat.
Set Implicit Arguments. Unset Strict Implicit. Unset Printing Implicit Defensive.
Import GRing.Theory.
Local Open Scope ring_scope.

(** khepri/eigentricks.py:29-40 scattering_eigenvalues.  [eig] is scipy.linalg.eig of
    two matrices: the finite eigenvalues with their vectors, one by one instead of an
    array of values and an array of columns (LAPACK reports an infinite value where the
    second matrix is singular; it is left out here).  Numbers are exact, so that the test
    for nan never returns None.  The third result is given when [dos] is set. *)
Definition scattering_eigenvalues {F : fieldType} {k} (eig : 'M[F]_(k + k) -> 'M[F]_(k + k) -> seq (F * 'cV[F]_(k + k)))
    (S : 'M[F]_(k + k)) (dos : bool) : res (seq (F * 'cV[F]_(k + k)) * option F) :=
  let: (Sl, Sr) := scattering_splitlr S in
  let wv := eig Sl Sr in
  if dos then do d <- scattering_det S; Ok (wv, Some d) else Ok (wv, None).
