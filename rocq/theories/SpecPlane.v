(** Specification vocabulary for the energy that crosses a plane of a device. *)
From Coq Require Import Reals.
From mathcomp Require Import all_ssreflect all_algebra.
From Coquelicot Require Import Complex.
From Verif Require Import Base CField CFun SpecFlux.
Set Implicit Arguments. Unset Strict Implicit. Unset Printing Implicit Defensive.

(** The flux of energy, averaged over the unit cell, of the tangential fields
    (Ex, Ey, ux, uy) given order by order. *)
Definition plane_flux {n} (v : 'cV[C]_((n + n) + (n + n))) : R := poynting_z (usubmx v) (dsubmx v).
