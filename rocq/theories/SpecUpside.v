(** Specification vocabulary for C118: a pile turned upside down. *)
From mathcomp Require Import all_ssreflect all_algebra.
From Coquelicot Require Import Complex.
From Verif Require Import Base CField.
Set Implicit Arguments. Unset Strict Implicit. Unset Printing Implicit Defensive.
Import GRing.Theory.
Local Open Scope ring_scope.

(** The waves of one side and one direction seen in a mirror parallel to the layers: the
    s waves are the same, the p waves change their sign (their in-plane electric field is
    taken in opposite senses for the two directions of propagation). *)
Definition mirrored {n} : 'M[C]_(n + n) := block_mx 1%:M 0 0 (- 1%:M).
(** In addition, the two sides of the pile are exchanged. *)
Definition upside {n} : 'M[C]_((n + n) + (n + n)) := block_mx 0 mirrored mirrored 0.
