(** Property C119: devices of the crystal API turned upside down. *)
From Coq Require Import Reals String.
From mathcomp Require Import all_ssreflect all_algebra.
From Coquelicot Require Import Complex.
From Verif Require Import Base CField CFun ModelRedheffer SpecScatter ModelExpansion ModelFourier ModelDevice SpecDevice SpecProfile SpecReversed ReversedProofs ReversedExamples.
Set Implicit Arguments. Unset Strict Implicit. Unset Printing Implicit Defensive.
Import GRing.Theory.
Local Open Scope ring_scope.

(** C119.  Two crystals, one with the contents of the other in the opposite order of
    depths and with the outer media exchanged: the scattering matrix of the one is that
    of the other seen from the other side. *)
Theorem C119_reversed eig J1 n (c1 c2 c1' c2' : crystal n) l1 l2 sol1 sol2 :
  exchanged_outside c1 c2 -> piled c1 l1 -> piled c2 l2 -> same_profile (rev l1) l2 ->
  step eig J1 c1 Solve c1' -> step eig J1 c2 Solve c2' ->
  c_solution c1' = Some sol1 -> c_solution c2' = Some sol2 -> r_S sol2 = flip (r_S sol1).
Proof. exact (@reversed_S eig J1 n c1 c2 c1' c2' l1 l2 sol1 sol2). Qed.
Print Assumptions C119_reversed.
(** A device that is the same from above and from below reflects and transmits the same
    from both sides. *)
Theorem C119_symmetric eig J1 n (c c' : crystal n) l sol :
  exchanged_outside c c -> piled c l -> same_profile (rev l) l ->
  step eig J1 c Solve c' -> c_solution c' = Some sol -> s22 (r_S sol) = s11 (r_S sol) /\ s12 (r_S sol) = s21 (r_S sol).
Proof. exact (@symmetric_S eig J1 n c c' l sol). Qed.
Print Assumptions C119_symmetric.
(** Repeated as the cell of a periodic pile, the two have inverse Bloch factors. *)
Theorem C119_bloch eig J1 n (c1 c2 c1' c2' : crystal n) l1 l2 sol1 sol2 w :
  exchanged_outside c1 c2 -> piled c1 l1 -> piled c2 l2 -> same_profile (rev l1) l2 ->
  step eig J1 c1 Solve c1' -> step eig J1 c2 Solve c2' ->
  c_solution c1' = Some sol1 -> c_solution c2' = Some sol2 -> w != 0 ->
  cell_factor (r_S sol1) w <-> cell_factor (r_S sol2) w^-1.
Proof. exact (@reversed_factor eig J1 n c1 c2 c1' c2' l1 l2 sol1 sol2 w). Qed.
Print Assumptions C119_bloch.

(** A film of index 3 between media of indices 1 and 2, and turned. *)
Example C119_hypotheses_met eig J1 : exists e (c1 c2 c1' c2' : crystal 1) o1 o2 l1 l2,
  [/\ history eig J1 (crystal_of 1 e false (RtoC (1 * 1)%Re) (RtoC (2 * 2)%Re)) o1 c1, history eig J1 (crystal_of 1 e false (RtoC (2 * 2)%Re) (RtoC (1 * 1)%Re)) o2 c2,
      [/\ exchanged_outside c1 c2, piled c1 l1, piled c2 l2 & same_profile (rev l1) l2],
      step eig J1 c1 Solve c1' & step eig J1 c2 Solve c2'].
Proof. exact (reversed_devices eig J1). Qed.
(** The film of index 3 between equal media. *)
Example C119_symmetric_hypotheses_met eig J1 : exists e (c c' : crystal 1) o l,
  [/\ history eig J1 (crystal_of 1 e false (RtoC (1 * 1)%Re) (RtoC (1 * 1)%Re)) o c, exchanged_outside c c, piled c l,
      same_profile (rev l) l & step eig J1 c Solve c'].
Proof. exact (symmetric_device eig J1). Qed.
(** A cell without reflection that doubles the waves. *)
Example C119_bloch_hypotheses_met : cell_factor (Smat 0 (RtoC 2)%:M (RtoC 2)%:M 0 : smat C_fieldType 1) (RtoC 2) /\ RtoC 2 != 0 :> C.
Proof. exact doubling_cell. Qed.
