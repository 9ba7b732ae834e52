(** Textbook formulas at normal incidence: Fresnel coefficients and the Airy
    formulas of one film.  [n1], [n2], [n3] are refractive indices and [phi]
    the propagation factor exp(-i n2 k0 d) of the film. *)
From mathcomp Require Import all_ssreflect all_algebra.
From Coquelicot Require Import Complex.
From Verif Require Import CField.
Set Implicit Arguments. Unset Strict Implicit. Unset Printing Implicit Defensive.
Import GRing.Theory.
Local Open Scope ring_scope.

Definition fresnel_r (n1 n2 : C) : C := (n1 - n2) / (n1 + n2).
Definition fresnel_t (n1 n2 : C) : C := 2%:R * n1 / (n1 + n2).
Definition airy_r (n1 n2 n3 phi : C) : C :=
  (fresnel_r n1 n2 + fresnel_r n2 n3 * phi ^+ 2)
  / (1 + fresnel_r n1 n2 * fresnel_r n2 n3 * phi ^+ 2).
Definition airy_t (n1 n2 n3 phi : C) : C :=
  fresnel_t n1 n2 * fresnel_t n2 n3 * phi
  / (1 + fresnel_r n1 n2 * fresnel_r n2 n3 * phi ^+ 2).
