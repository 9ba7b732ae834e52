(** C68: reciprocity of devices. *)
From Coq Require Import Reals ZArith Lra String.
From mathcomp Require Import all_ssreflect all_algebra.
From Coquelicot Require Import Complex.
From Verif Require Import Base CField CFun ModelRedheffer SpecScatter ModelLayer SpecLayer ModelExpansion SpecExpansion
  ModelFlux ModelFourier ModelDevice SpecDevice ModelFields SpecFields SpecReciprocity SpecTwisted ReciprocityTheorems TwistedTheorems TwistedExamples.
Set Implicit Arguments. Unset Strict Implicit. Unset Printing Implicit Defensive.
Import GRing.Theory.
Local Open Scope ring_scope.

(** One crystal made of slabs (pixmaps, uniform, analytical; lossy or not) of its
    own lattice or of either of the two lattices it is the sum of, between any two
    outer media, illuminated twice at one wavelength with opposite
    in-plane wavevectors (any incidence, any evanescent orders): the two solved
    scattering matrices are those of one reciprocal scatterer, the transmissions
    from both sides are transposes of each other in the power-normalising form of
    the outer media, the reflections from one side as well, and this form is
    non-degenerate, so either transmission determines the other. *)
Theorem C68_reciprocity eig J1 n ei ee (c0 c ca ca' cb cb' : crystal n) ops wl te tm te' tm'
    (th ph th' ph' : R) kp kp' sa sb mL mL' mR mR' : eigen_equation eig ->
  created c0 false ei ee -> all_calls (slab_call (fun f _ => is_slab f) (c_exp c0)) ops -> history eig J1 c0 ops c ->
  step eig J1 c (SetSource wl te tm th ph kp) ca -> step eig J1 ca Solve ca' ->
  step eig J1 c (SetSource wl te' tm' th' ph' kp') cb -> step eig J1 cb Solve cb' ->
  (c_kp cb).1 = - (c_kp ca).1 -> (c_kp cb).2 = - (c_kp ca).2 ->
  c_solution ca' = Some sa -> c_solution cb' = Some sb ->
  named_modes ca' Sref = Ok mL -> named_modes cb' Sref = Ok mL' ->
  named_modes ca' Strans = Ok mR -> named_modes cb' Strans = Ok mR' ->
  [/\ reciprocal mL.1 mL'.1 mR.1 mR'.1 (r_S sa) (r_S sb),
      nondegenerate mL.1 mL'.1 /\ nondegenerate mR.1 mR'.1 &
      forall a a' : 'cV[C]_(n + n),
      [/\ exchange mL.1 mL'.1 a (s12 (r_S sb) *m a') = exchange mR.1 mR'.1 (s21 (r_S sa) *m a) a',
          exchange mL.1 mL'.1 a (s11 (r_S sb) *m a') = exchange mL'.1 mL.1 a' (s11 (r_S sa) *m a) &
          exchange mR.1 mR'.1 (s22 (r_S sa) *m a) a' = exchange mR'.1 mR.1 (s22 (r_S sb) *m a') a]].
Proof. exact (@th_twisted_reciprocal eig J1 n ei ee c0 c ca ca' cb cb' ops wl te tm te' tm' th ph th' ph' kp kp' sa sb mL mL' mR mR'). Qed.
Print Assumptions C68_reciprocity.

(** An absorbing film between air and glass meets the hypotheses (at normal
    incidence both illuminations coincide). *)
Example C68_film eig J1 : exists (c0 c ca ca' : crystal 1) ops sa mL mR,
  [/\ created c0 false (RtoC (1 * 1)%Re) (RtoC (2 * 2)%Re), all_calls (slab_call (fun f _ => is_slab f) (c_exp c0)) ops & history eig J1 c0 ops c] /\
  [/\ step eig J1 c (SetSource 3%Re 1 0 0%Re 0%Re None) ca, step eig J1 ca Solve ca',
      (c_kp ca).1 = - (c_kp ca).1 /\ (c_kp ca).2 = - (c_kp ca).2, c_solution ca' = Some sa &
      named_modes ca' Sref = Ok mL /\ named_modes ca' Strans = Ok mR].
Proof.
apply: (@film_reciprocity eig J1 1%Re 2%Re (1/2)%Re 3%Re (RtoC 2 - ci) 1 0) => /=; lra.
Qed.
(** So does a layer of one of two gratings at an angle, under oblique incidence
    from two opposite sides. *)
Example C68_twisted eig J1 : exists (c0 c ca ca' cb cb' : crystal 9) ops sa sb mL mL' mR mR' kp kp',
  [/\ created c0 false 1 1, all_calls (slab_call (fun f _ => is_slab f) (c_exp c0)) ops /\
      (exists name who l, List.In (AddExtended name who l) ops) & history eig J1 c0 ops c] /\
  [/\ step eig J1 c (SetSource (/ 10)%Re 1 0 0%Re 0%Re kp) ca /\ step eig J1 ca Solve ca',
      step eig J1 c (SetSource (/ 10)%Re 1 0 0%Re 0%Re kp') cb /\ step eig J1 cb Solve cb',
      [/\ (c_kp ca).1 <> 0, (c_kp cb).1 = - (c_kp ca).1 & (c_kp cb).2 = - (c_kp ca).2],
      c_solution ca' = Some sa /\ c_solution cb' = Some sb &
      (named_modes ca' Sref = Ok mL /\ named_modes cb' Sref = Ok mL') /\
      (named_modes ca' Strans = Ok mR /\ named_modes cb' Strans = Ok mR')].
Proof. exact: twisted_reciprocity. Qed.
