(** Theorems about the transform of a disc (khepri/fourier.py:42-58). *)
From Coq Require Import Reals List.
From mathcomp Require Import all_ssreflect all_algebra.
From Coquelicot Require Import Complex.
From Verif Require Import Base CField CFun ModelExpansion ModelFourier SpecDisc DiscProofs.
Set Implicit Arguments. Unset Strict Implicit. Unset Printing Implicit Defensive.
Import GRing.Theory.
Local Open Scope ring_scope.

(** ** C83 Transform of a disc *)

(** The coefficients of a disc are the integrals of the plane waves over the disc, if
    scipy's jv(1, .) is Bessel's function.  Missing: wavevectors below 1e-8 other than
    zero. *)
Theorem C83_disc_partial J1 c0 c1 r gx gy sigma : (forall x, J1 x = bessel_one x) -> r <> 0%Re -> sigma <> 0%Re -> not_small gx gy ->
  transform_disc J1 c0 c1 r gx gy sigma = disc_coefficient c0 c1 r gx gy sigma.
Proof. exact (@disc_exact J1 c0 c1 r gx gy sigma). Qed.
Print Assumptions C83_disc_partial.

(** The same for the list of wavevectors of a layer. *)
Theorem C83_layer_partial J1 c0 c1 r (G : seq vec2) sigma : (forall x, J1 x = bessel_one x) -> r <> 0%Re -> sigma <> 0%Re ->
  (forall g, In g G -> not_small g.1 g.2) ->
  transform J1 (Disc c0 c1 r) G sigma = Ok [seq disc_coefficient c0 c1 r g.1 g.2 sigma | g <- G].
Proof. exact (@disc_layer J1 c0 c1 r G sigma). Qed.
Print Assumptions C83_layer_partial.

(** A smaller wavevector is taken for zero: a disc far from the origin has the wrong
    phase. *)
Theorem C83_tiny_refuted J1 : exists c0 c1 r gx gy sigma, [/\ r <> 0%Re, sigma <> 0%Re &
  transform_disc J1 c0 c1 r gx gy sigma <> disc_coefficient c0 c1 r gx gy sigma].
Proof. exact (tiny_disc J1). Qed.
Print Assumptions C83_tiny_refuted.

(** A disc of radius 1/4 off the centre of a unit cell, orders (0,0) and (1,-2). *)
Example C83_hypotheses_met : exists J1, (forall x, J1 x = bessel_one x) /\
  forall g, In g [:: (0%Re, 0%Re); ((2 * PI)%Re, (- 4 * PI)%Re)] -> not_small g.1 g.2.
Proof. exact disc_example. Qed.
