(** Specification vocabulary for layers and interfaces: tangential fields and
    their continuity.  Nothing here mentions the formulas of build_scatmat. *)
From Coq Require Import Reals.
From mathcomp Require Import all_ssreflect all_algebra.
From Coquelicot Require Import Complex.
From Verif Require Import Base CField CFun.
Set Implicit Arguments. Unset Strict Implicit. Unset Printing Implicit Defensive.
Import GRing.Theory.
Local Open Scope ring_scope.

Section Spec.
Variables (F : fieldType) (m : nat).

(** Tangential (E, H) of a superposition of forward modes [cp] and backward
    modes [cm] in a medium whose modes have E-profile the columns of [W] and
    H-profile the columns of [V] (the convention of khepri/fields.py:46-51). *)
Definition tangential (W V : 'M[F]_m) (cp cm : 'cV[F]_m) : 'cV[F]_m * 'cV[F]_m :=
  (W *m (cp + cm), V *m (cm - cp)).

(** Continuity of the tangential fields at an interface between a medium with
    modes (WL,VL) on the left and (WR,VR) on the right. *)
Definition interface_response (WL VL WR VR : 'M[F]_m) (a1 a2 b1 b2 : 'cV[F]_m) : Prop :=
  tangential WL VL a1 b1 = tangential WR VR b2 a2.

(** A slab with modes (W,V) between two (infinitely thin) gaps with modes
    (W0,V0): forward modes are multiplied by [x], backward ones by [y], from
    the left face to the right face. *)
Definition slab_response (W V W0 V0 : 'M[F]_m) (x y : 'rV[F]_m) (a1 a2 b1 b2 : 'cV[F]_m) : Prop :=
  exists cp cm,
    tangential W0 V0 a1 b1 = tangential W V cp cm /\
    tangential W V (diag_mx x *m cp) (diag_mx y *m cm) = tangential W0 V0 b2 a2.
End Spec.

(** The slab of real thickness d: forward modes evolve as exp(-lambda k0 z),
    backward ones as exp(+lambda k0 z). *)
Definition layer_response {m} (W V W0 V0 : 'M[C]_m) (lam : 'rV[C]_m) (d k0 : R) :=
  slab_response W V W0 V0
    (map_mx (fun l => cexp (- (l * RtoC (d * k0)%Re))) lam)
    (map_mx (fun l => cexp (l * RtoC (d * k0)%Re)) lam).
