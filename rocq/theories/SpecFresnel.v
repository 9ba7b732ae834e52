(** Specification vocabulary for uniform media in the T-matrix API: the quantity
    that plays the role of the refractive index in Fresnel's formulas.  Waves whose
    electric field is in the plane of the interface (s) see the normal wavevector
    kz, waves whose magnetic field is (p) see kz / eps. *)
From Coq Require Import Reals.
From mathcomp Require Import all_ssreflect all_algebra.
From Coquelicot Require Import Complex.
From Verif Require Import CField ModelExpansion ModelLattice.
Set Implicit Arguments. Unset Strict Implicit. Unset Printing Implicit Defensive.
Import GRing.Theory.
Local Open Scope ring_scope.

(** The normal wavevector of order g in the medium [eps]. *)
Definition kz_of (L : lattice) (eps : num) (wavelength : R) (kp : vec2) (g : nat) : C :=
  compute_kz eps wavelength kp (l_g L g).
Definition s_index L eps wavelength kp g : C := kz_of L eps wavelength kp g.
Definition p_index L eps wavelength kp g : C := kz_of L eps wavelength kp g / num_val eps.
