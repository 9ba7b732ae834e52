(** Property C116: devices are described by what is found at each depth. *)
From Coq Require Import Reals String.
From mathcomp Require Import all_ssreflect all_algebra.
From Coquelicot Require Import Complex.
From Verif Require Import Base CField CFun ModelExpansion ModelFourier ModelDevice SpecDevice SpecProfile ProfileDevice ProfileExamples.
Set Implicit Arguments. Unset Strict Implicit. Unset Printing Implicit Defensive.
Local Open Scope ring_scope.

(** Two crystals whose devices have the same contents at every depth, between the same
    outer media and under the same light, have the same scattering matrix: layers may be
    cut, merged, renamed, or have no thickness. *)
Theorem C116_profile eig J1 n (c1 c2 c1' c2' : crystal n) l1 l2 sol1 sol2 :
  same_outside c1 c2 -> piled c1 l1 -> piled c2 l2 -> same_profile l1 l2 ->
  step eig J1 c1 Solve c1' -> step eig J1 c2 Solve c2' ->
  c_solution c1' = Some sol1 -> c_solution c2' = Some sol2 -> r_S sol1 = r_S sol2.
Proof. exact (@profile_S eig J1 n c1 c2 c1' c2' l1 l2 sol1 sol2). Qed.
Print Assumptions C116_profile.

(** And the same fluxes, order by order. *)
Theorem C116_fluxes eig J1 n (c1 c2 c1' c2' : crystal n) l1 l2 f1 f2 :
  same_outside c1 c2 -> piled c1 l1 -> piled c2 l2 -> same_profile l1 l2 -> c_void c1 = false ->
  step eig J1 c1 Solve c1' -> step eig J1 c2 Solve c2' ->
  poynting_flux_orders c1' = Ok f1 -> poynting_flux_orders c2' = Ok f2 -> f1 = f2.
Proof. exact (@profile_flux eig J1 n c1 c2 c1' c2' l1 l2 f1 f2). Qed.
Print Assumptions C116_fluxes.

(** A film of index 3 and depth 2, and the same film in two layers of depth 1. *)
Example C116_hypotheses_met eig J1 : exists (c0 c1 c2 c1' c2' : crystal 1) o1 o2 l1 l2,
  [/\ created c0 false (RtoC (1 * 1)%Re) (RtoC (1 * 1)%Re), history eig J1 c0 o1 c1 /\ history eig J1 c0 o2 c2,
      [/\ same_outside c1 c2, piled c1 l1, piled c2 l2, same_profile l1 l2 & l1 <> l2],
      step eig J1 c1 Solve c1' /\ step eig J1 c2 Solve c2' &
      is_ok (poynting_flux_orders c1') /\ is_ok (poynting_flux_orders c2')].
Proof. exact (profile_devices eig J1). Qed.
