(** Specification of the Fourier coefficients of a disc. *)
From Coq Require Import Reals.
From Coquelicot Require Import Coquelicot.
Open Scope R_scope.

(** The Bessel function of the first kind and order one (Bessel's integral). *)
Definition bessel_one (x : R) : R := RInt (fun t => cos (t - x * sin t)) 0 (2 * PI) / (2 * PI).

(** The integral of exp(-i G.x)/sigma over the disc of centre (c0, c1) and radius r, in
    polar coordinates about the centre. *)
Definition disc_coefficient (c0 c1 r gx gy sigma : R) : C :=
  let phase s t := gx * (c0 + s * cos t) + gy * (c1 + s * sin t) in
  (RInt (fun s => s * RInt (fun t => cos (phase s t)) 0 (2 * PI)) 0 r / sigma,
   - (RInt (fun s => s * RInt (fun t => sin (phase s t)) 0 (2 * PI)) 0 r / sigma)).

(** A wavevector that is zero or has a component above 1e-8. *)
Definition not_small (gx gy : R) : Prop := (gx = 0 /\ gy = 0) \/ 1 / 100000000 < Rabs gx \/ 1 / 100000000 < Rabs gy.
