(** Property C118: piles of the T-matrix API turned upside down. *)
From Coq Require Import Reals ZArith String.
From mathcomp Require Import all_ssreflect all_algebra.
From Coquelicot Require Import Complex.
From Verif Require Import Base CField CFun ModelExpansion ModelFourier ModelTmat ModelLattice SpecExp ExpProofs ModelEz SpecEz SpecBloch SpecSupercell
  SpecProfile SpecTprofile TprofileExamples SpecUpside UpsideProofs UpsideExamples.
Set Implicit Arguments. Unset Strict Implicit. Unset Printing Implicit Defensive.
Import GRing.Theory.
Local Open Scope ring_scope.

(** C118.  A pile whose contents are those of another pile in the opposite order of
    depths has its matrix with the two sides exchanged and the p waves reversed. *)
Theorem C118_upside J1 n (expm : 'M[C]_((n + n) + (n + n)) -> 'M[C]_((n + n) + (n + n))) p L wl kp q q' st st' name name' l l' d d' S S' :
  is_expm expm -> sound_project q st -> sound_project q' st' ->
  made_of q st name l -> made_of q' st' name' l' -> no_negative_depth l -> no_negative_depth l' -> same_profile (rev l) l' ->
  pile_at J1 expm p L wl kp q st d name S -> pile_at J1 expm p L wl kp q' st' d' name' S' -> S' = upside *m S *m upside.
Proof. exact (fun hx hs hs1 hm hm1 hd hd1 hp => @pile_upside J1 n expm p L wl kp hx q q' st st' name name' l l' hs hs1 hm hm1 hd hd1 hp d d' S S'). Qed.
Print Assumptions C118_upside.
(** The Bloch factors of the two are inverse of each other. *)
Theorem C118_bloch n (S S' : 'M[C]_((n + n) + (n + n))) w : w != 0 -> S' = upside *m S *m upside -> bloch_factor S w <-> bloch_factor S' w^-1.
Proof. exact: upside_bloch_iff. Qed.
Print Assumptions C118_bloch.
(** A pile that is the same from above and from below, absorbing or not, has a matrix
    that is the same from both sides, and Bloch factors in inverse pairs. *)
Theorem C118_symmetric J1 n (expm : 'M[C]_((n + n) + (n + n)) -> 'M[C]_((n + n) + (n + n))) p L wl kp q st name l d S :
  is_expm expm -> sound_project q st -> made_of q st name l -> no_negative_depth l -> same_profile (rev l) l ->
  pile_at J1 expm p L wl kp q st d name S -> S = upside *m S *m upside /\ forall w, w != 0 -> bloch_factor S w <-> bloch_factor S w^-1.
Proof. exact: pile_symmetric. Qed.
Print Assumptions C118_symmetric.

(** A wall on a film, and the film on the wall. *)
Example C118_hypotheses_met J1 : exists L S S', let expm := @mexp ((4 + 4) + (4 + 4)) in let kp := (0%Re, 0%Re) in let wl := (/ 2)%Re in
  [/\ mk_lattice (2, 2)%N (1%Re, 0%Re) (0%Re, 1%Re) (Float 1) (Float 1) = Ok L, is_expm expm,
      pile_at J1 expm (2, 2)%N L wl kp parts wall_first 2 "pile" S, pile_at J1 expm (2, 2)%N L wl kp parts film_first 2 "pile" S' &
      sound_project parts wall_first /\ sound_project parts film_first].
Proof. exact: upside_example. Qed.
Example C118_opposite_profiles : let l := [:: (wall_contents, 1%Re); (film_contents, (/ 2)%Re)] in let l' := [:: (film_contents, (/ 2)%Re); (wall_contents, 1%Re)] in
  [/\ made_of parts wall_first "pile" l, made_of parts film_first "pile" l', no_negative_depth l, no_negative_depth l' & same_profile (rev l) l' /\ ~ same_profile l l'].
Proof. exact: upside_piles. Qed.
Example C118_symmetric_hypotheses_met J1 : exists L S l, let expm := @mexp ((4 + 4) + (4 + 4)) in let kp := (0%Re, 0%Re) in let wl := (/ 2)%Re in
  [/\ is_expm expm, pile_at J1 expm (2, 2)%N L wl kp halves twice 2 "wall" S, sound_project halves twice, made_of halves twice "wall" l &
      no_negative_depth l /\ same_profile (rev l) l].
Proof. exact: symmetric_example. Qed.
