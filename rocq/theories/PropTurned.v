(** Property C120: reciprocity between a device and the same device turned upside down. *)
From Coq Require Import Reals ZArith String Lra.
From mathcomp Require Import all_ssreflect all_algebra.
From Coquelicot Require Import Complex.
From Verif Require Import Base CField CFun ModelRedheffer SpecScatter ModelLayer SpecLayer ModelExpansion SpecExpansion
  ModelFlux ModelFourier ModelDevice SpecDevice ModelFields SpecFields SpecReciprocity SpecTwisted SpecProfile SpecReversed TurnedProofs.
Set Implicit Arguments. Unset Strict Implicit. Unset Printing Implicit Defensive.
Import GRing.Theory.
Local Open Scope ring_scope.

(** C120.  The crystal API lights a device from above only.  Light that goes through a
    device, lossy or not, goes back the same path through the device that the user builds
    by turning it upside down and lights with the opposite in-plane wavevector: the two
    transmissions are transposes of each other in the power-normalising form of the outer
    media. *)
Theorem C120_turned eig J1 n ei ee (c0 c ca ca' cb cb' c2 c2' : crystal n) ops wl te tm te' tm'
    (th ph th' ph' : R) kp kp' sa sb s2 mL mL' mR mR' l l2 : eigen_equation eig ->
  created c0 false ei ee -> all_calls (slab_call (fun f _ => is_slab f) (c_exp c0)) ops -> history eig J1 c0 ops c ->
  step eig J1 c (SetSource wl te tm th ph kp) ca -> step eig J1 ca Solve ca' ->
  step eig J1 c (SetSource wl te' tm' th' ph' kp') cb -> step eig J1 cb Solve cb' ->
  (c_kp cb).1 = - (c_kp ca).1 -> (c_kp cb).2 = - (c_kp ca).2 ->
  c_solution ca' = Some sa -> c_solution cb' = Some sb ->
  named_modes ca' Sref = Ok mL -> named_modes cb' Sref = Ok mL' ->
  named_modes ca' Strans = Ok mR -> named_modes cb' Strans = Ok mR' ->
  exchanged_outside cb c2 -> piled cb l -> piled c2 l2 -> same_profile (rev l) l2 ->
  step eig J1 c2 Solve c2' -> c_solution c2' = Some s2 ->
  forall a a' : 'cV[C]_(n + n), exchange mL.1 mL'.1 a (s21 (r_S s2) *m a') = exchange mR.1 mR'.1 (s21 (r_S sa) *m a) a'.
Proof. exact (@turned_transmission eig J1 n ei ee c0 c ca ca' cb cb' c2 c2' ops wl te tm te' tm' th ph th' ph' kp kp' sa sb s2 mL mL' mR mR' l l2). Qed.
Print Assumptions C120_turned.
(** A device that is the same from above and from below transmits, lit from above with
    opposite in-plane wavevectors, by transposed matrices. *)
Theorem C120_symmetric eig J1 n ei ee (c0 c ca ca' cb cb' : crystal n) ops wl te tm te' tm'
    (th ph th' ph' : R) kp kp' sa sb mL mL' mR mR' l : eigen_equation eig ->
  created c0 false ei ee -> all_calls (slab_call (fun f _ => is_slab f) (c_exp c0)) ops -> history eig J1 c0 ops c ->
  step eig J1 c (SetSource wl te tm th ph kp) ca -> step eig J1 ca Solve ca' ->
  step eig J1 c (SetSource wl te' tm' th' ph' kp') cb -> step eig J1 cb Solve cb' ->
  (c_kp cb).1 = - (c_kp ca).1 -> (c_kp cb).2 = - (c_kp ca).2 ->
  c_solution ca' = Some sa -> c_solution cb' = Some sb ->
  named_modes ca' Sref = Ok mL -> named_modes cb' Sref = Ok mL' ->
  named_modes ca' Strans = Ok mR -> named_modes cb' Strans = Ok mR' ->
  exchanged_outside cb cb -> piled cb l -> same_profile (rev l) l ->
  forall a a' : 'cV[C]_(n + n), exchange mL.1 mL'.1 a (s21 (r_S sb) *m a') = exchange mR.1 mR'.1 (s21 (r_S sa) *m a) a'.
Proof. exact (@symmetric_transmission eig J1 n ei ee c0 c ca ca' cb cb' ops wl te tm te' tm' th ph th' ph' kp kp' sa sb mL mL' mR mR' l). Qed.
Print Assumptions C120_symmetric.

(** An absorbing film between air and glass, and between glass and air (at normal
    incidence both illuminations coincide). *)
Example C120_hypotheses_met eig J1 : exists (c0 c ca ca' c2 c2' : crystal 1) ops sa s2 mL mR l l2,
  [/\ created c0 false (RtoC (1 * 1)%Re) (RtoC (2 * 2)%Re), all_calls (slab_call (fun f _ => is_slab f) (c_exp c0)) ops & history eig J1 c0 ops c] /\
  [/\ step eig J1 c (SetSource 3%Re 1 0 0%Re 0%Re None) ca, step eig J1 ca Solve ca',
      (c_kp ca).1 = - (c_kp ca).1 /\ (c_kp ca).2 = - (c_kp ca).2, c_solution ca' = Some sa &
      named_modes ca' Sref = Ok mL /\ named_modes ca' Strans = Ok mR] /\
  [/\ exchanged_outside ca c2, piled ca l /\ piled c2 l2, same_profile (rev l) l2, step eig J1 c2 Solve c2' & c_solution c2' = Some s2].
Proof.
apply: (@film_turned eig J1 1%Re 2%Re (1/2)%Re 3%Re (RtoC 2 - ci) 1 0) => /=; lra.
Qed.
(** The absorbing film in air meets those of the second. *)
Example C120_symmetric_hypotheses_met eig J1 : exists (c0 c ca ca' : crystal 1) ops sa mL mR l,
  [/\ created c0 false (RtoC (1 * 1)%Re) (RtoC (1 * 1)%Re), all_calls (slab_call (fun f _ => is_slab f) (c_exp c0)) ops & history eig J1 c0 ops c] /\
  [/\ step eig J1 c (SetSource 3%Re 1 0 0%Re 0%Re None) ca, step eig J1 ca Solve ca',
      (c_kp ca).1 = - (c_kp ca).1 /\ (c_kp ca).2 = - (c_kp ca).2, c_solution ca' = Some sa &
      named_modes ca' Sref = Ok mL /\ named_modes ca' Strans = Ok mR] /\
  [/\ exchanged_outside ca ca, piled ca l & same_profile (rev l) l].
Proof.
apply: (@film_in_air eig J1 1%Re (1/2)%Re 3%Re (RtoC 2 - ci) 1 0) => /=; lra.
Qed.
