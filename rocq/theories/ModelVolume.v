(** Model of khepri/crystal.py:335-343 and khepri/misc.py:53-55.
    Definitions only. *)
From Coq Require Import Reals ZArith String.
From mathcomp Require Import all_ssreflect all_algebra.
From Coquelicot Require Import Complex Rbar.
From Verif Require Import Base CField CFun ModelDevice ModelFields.
Set Implicit Arguments. Unset Strict Implicit. Unset Printing Implicit Defensive.
Import GRing.Theory.
Local Open Scope ring_scope.

(** khepri/misc.py:53-55 poynting_vector, at one point: np.cross(E, np.conj(H)). *)
Definition poynting_vector (E H : C * C * C) : C * C * C :=
  let: (a, b, c) := E in
  let: (x, y, z) := (Cconj H.1.1, Cconj H.1.2, Cconj H.2) in
  (b * z - c * y, c * x - a * z, a * y - b * x).

(** khepri/crystal.py:335-343 fields_volume, at one point of the (x, y) mesh: the
    electric and the magnetic fields at each depth.  np.array([]) has a single axis,
    so that fields[:, 0, ...] raises IndexError without depths. *)
Definition fields_volume {n} (c : crystal n) (x y : R) (z : seq R)
    (incident_fields : option 'cV[C]_((n + n) + (n + n))) : res (seq (C * C * C) * seq (C * C * C)) :=
  do inc <- match incident_fields with Some f => Ok f | None => source_fields c end;
  do l <- mapM (fun zi => fields_coords_xy c x y zi (Some inc)) z;
  if z is [::] then Err IndexError else Ok (unzip1 l, unzip2 l).
