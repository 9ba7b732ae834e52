(** Property C121: reciprocity between a T-matrix pile and the same pile turned upside
    down. *)
From Coq Require Import Reals ZArith String.
From mathcomp Require Import all_ssreflect all_algebra.
From Coquelicot Require Import Complex.
From Verif Require Import Base CField CFun ModelExpansion ModelFourier ModelTmat ModelLattice SpecLattice SpecExp ExpProofs ModelEz SpecEz SpecBloch SpecSupercell
  SpecProfile SpecTprofile TprofileExamples UpsideExamples TurnedPiles.
Set Implicit Arguments. Unset Strict Implicit. Unset Printing Implicit Defensive.
Import GRing.Theory.
Local Open Scope ring_scope.

(** C121.  Between equal media, light that goes from the order h to the order g through a
    pile goes from the order -g to the order -h through the pile turned upside down, for
    the opposite in-plane wavevector: with the normalisation by the normal wavevectors the
    transmission coefficients are the same, for each pair of polarisations.  Any
    permittivities and islands; windows with an odd number of orders. *)
Theorem C121_turned J1 n (expm : 'M[C]_((n + n) + (n + n)) -> 'M[C]_((n + n) + (n + n))) p a1 a2 em L wl kp
    q q' st st' name name' l l' d d' S Sb S' a b (g h : 'I_n) :
  is_expm expm -> mk_lattice p a1 a2 em em = Ok L -> window_fits p -> odd p.1 -> sound_project q st -> sound_project q' st' ->
  made_of q st name l -> made_of q' st' name' l' -> no_negative_depth l -> no_negative_depth l' -> same_profile (rev l) l' ->
  closed_at J1 expm p L wl kp q st d name S -> closed_at J1 expm p L wl (opposite kp) q st d name Sb ->
  closed_at J1 expm p L wl (opposite kp) q' st' d' name' S' ->
  weight L em wl kp false g * ulsubmx S (wave a g) (wave b h) =
  weight L em wl kp false h * ulsubmx S' (wave b (rev_ord h)) (wave a (rev_ord g)).
Proof. exact (@turned_pile_transmission J1 n expm p a1 a2 em L wl kp q q' st st' name name' l l' d d' S Sb S' a b g h). Qed.
Print Assumptions C121_turned.

(** A wall on a film, and the film on the wall. *)
Example C121_hypotheses_met J1 : exists L S S', let expm := @mexp ((1 + 1) + (1 + 1)) in let kp := (0%Re, 0%Re) in let wl := (/ 2)%Re in
  [/\ mk_lattice (1, 1)%N (1%Re, 0%Re) (0%Re, 1%Re) (Float 1) (Float 1) = Ok L, is_expm expm,
      closed_at J1 expm (1, 1)%N L wl kp parts wall_first 2 "pile" S /\ closed_at J1 expm (1, 1)%N L wl (opposite kp) parts wall_first 2 "pile" S,
      closed_at J1 expm (1, 1)%N L wl (opposite kp) parts film_first 2 "pile" S' &
      sound_project parts wall_first /\ sound_project parts film_first].
Proof. exact: turned_piles. Qed.
Example C121_opposite_profiles : let l := [:: (wall_contents, 1%Re); (film_contents, (/ 2)%Re)] in let l' := [:: (film_contents, (/ 2)%Re); (wall_contents, 1%Re)] in
  [/\ made_of parts wall_first "pile" l, made_of parts film_first "pile" l', no_negative_depth l, no_negative_depth l' & same_profile (rev l) l' /\ ~ same_profile l l'].
Proof. exact: upside_piles. Qed.
