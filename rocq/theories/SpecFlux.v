(** Specification vocabulary for energy flux: the z component of the Poynting
    vector, averaged over the unit cell, as a sum over diffraction orders. *)
From Coq Require Import Reals.
From mathcomp Require Import all_ssreflect all_algebra.
From Coquelicot Require Import Complex.
From Verif Require Import Base CField CFun SpecLayer SpecEnergy.
Set Implicit Arguments. Unset Strict Implicit. Unset Printing Implicit Defensive.
Import GRing.Theory.
Local Open Scope ring_scope.

(** Sum over the orders of Re (Ex conj(Hy) - Ey conj(Hx)), H = i u.  The first half of
    the vectors holds the x components, the second half the y components. *)
Definition poynting_z {n} (E u : 'cV[C]_(n + n)) : R :=
  \sum_(j < n) fst (E (lshift n j) 0 * Cconj (ci * u (rshift n j) 0)
                  - E (rshift n j) 0 * Cconj (ci * u (lshift n j) 0)).

(** Flux to the right through a plane in a medium with modes (W, V), the
    right-going amplitudes being [a] and the left-going ones [b]. *)
Definition port_flux {n} (W V : 'M[C]_(n + n)) (a b : 'cV[C]_(n + n)) : R :=
  poynting_z (tangential W V a b).1 (tangential W V a b).2.

(** Dielectric operators: lossless, and passive (for the time factor
    exp(+i omega t) absorption is a negative imaginary part). *)
Definition lossless_op {n} (A : 'M[C]_n) : Prop := adj A = A.
Definition passive_op {n} (A : 'M[C]_n) : Prop :=
  forall x : 'cV[C]_n, (snd ((adj x *m A *m x) 0%R 0%R) <= 0)%Re.

Definition real_row {n} (k : 'rV[C]_n) : Prop := forall j, snd (k 0 j) = 0%Re.
