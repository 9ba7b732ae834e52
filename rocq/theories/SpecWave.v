(** Specification vocabulary for C111: the plane wave that [incident] describes
    (T-matrix API). *)
From Coq Require Import Reals.
From mathcomp Require Import all_ssreflect all_algebra.
From Coquelicot Require Import Complex.
From Verif Require Import Base CField CFun ModelExpansion ModelLattice.
Set Implicit Arguments. Unset Strict Implicit. Unset Printing Implicit Defensive.
Import GRing.Theory.
Local Open Scope ring_scope.

(** [u] is the direction of the in-plane wavevector; the x axis at normal incidence
    (below the threshold of the code). *)
Definition direction (kp u : vec2) : Prop :=
  (kp.1 ^ 2 + kp.2 ^ 2 < / 2 ^ 52 -> u = (1, 0))%Re /\
  (/ 2 ^ 52 <= kp.1 ^ 2 + kp.2 ^ 2 -> exists m, 0 < m /\ m ^ 2 = kp.1 ^ 2 + kp.2 ^ 2 /\ kp = (m * u.1, m * u.2))%Re.

(** The Fourier coefficients (Ex, Ey, Hx, Hy) of a plane wave of order [g0] with
    amplitudes [s] of the polarisation perpendicular to the plane of incidence and [p]
    of the other one: [cs] is the cosine of the angle of incidence, [Y] the admittance
    of the medium. *)
Definition plane_wave {n} (g0 : nat) (u : vec2) (cs Y s p : C) (F : 'cV[C]_((n + n) + (n + n))) : Prop :=
  forall g : 'I_n, let one (x : C) := if (g : nat) == g0 then x else 0 in
  [/\ quarter_of F 0 g 0 = one (s * RtoC u.2 - p * cs * RtoC u.1),
      quarter_of F 1 g 0 = one (- s * RtoC u.1 - p * cs * RtoC u.2),
      quarter_of F 2 g 0 = one (Y * (s * cs * RtoC u.1 + p * RtoC u.2)) &
      quarter_of F 3 g 0 = one (Y * (s * cs * RtoC u.2 - p * RtoC u.1))].
