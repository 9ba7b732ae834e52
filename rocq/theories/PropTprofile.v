(** Property C117: piles of the T-matrix API are described by what is found at each
    depth. *)
From Coq Require Import Reals ZArith String.
From mathcomp Require Import all_ssreflect all_algebra.
From Coquelicot Require Import Complex.
From Verif Require Import Base CField CFun ModelExpansion ModelFourier ModelTmat ModelLattice SpecExp ExpProofs ModelEz SpecEz SpecBloch
  SpecProfile SpecTprofile TprofileProofs TprofileExamples.
Set Implicit Arguments. Unset Strict Implicit. Unset Printing Implicit Defensive.
Import GRing.Theory.
Local Open Scope ring_scope.

(** C117.  Two projects in the same lattice, under the same light, whose piles have the
    same islands and host medium at every depth, have the same matrix: layers may be
    cut, merged, repeated, nested, renamed, sliced otherwise, or have no thickness. *)
Theorem C117_profile J1 n (expm : 'M[C]_((n + n) + (n + n)) -> 'M[C]_((n + n) + (n + n))) p L wl kp q q' st st' name name' l l' d d' S S' :
  is_expm expm -> sound_project q st -> sound_project q' st' ->
  made_of q st name l -> made_of q' st' name' l' -> no_negative_depth l -> no_negative_depth l' -> same_profile l l' ->
  pile_at J1 expm p L wl kp q st d name S -> pile_at J1 expm p L wl kp q' st' d' name' S' -> S = S'.
Proof. exact (fun hx hs hs1 hm hm1 hd hd1 hp => @pile_profile J1 n expm p L wl kp hx q q' st st' name name' l l' hs hs1 hm hm1 hd hd1 hp d d' S S'). Qed.
Print Assumptions C117_profile.
(** With the last interface. *)
Theorem C117_closed J1 n (expm : 'M[C]_((n + n) + (n + n)) -> 'M[C]_((n + n) + (n + n))) p L wl kp q q' st st' name name' l l' d d' S S' :
  is_expm expm -> sound_project q st -> sound_project q' st' ->
  made_of q st name l -> made_of q' st' name' l' -> no_negative_depth l -> no_negative_depth l' -> same_profile l l' ->
  closed_at J1 expm p L wl kp q st d name S -> closed_at J1 expm p L wl kp q' st' d' name' S' -> S = S'.
Proof. exact (fun hx hs hs1 hm hm1 hd hd1 hp => @closed_profile J1 n expm p L wl kp hx q q' st st' name name' l l' hs hs1 hm hm1 hd hd1 hp d d' S S'). Qed.
Print Assumptions C117_closed.
(** A wall of depth 1 and a stack of two walls of depth 1/2, in a window of 2 x 2 orders. *)
Example C117_hypotheses_met J1 : exists L S S', let expm := @mexp ((4 + 4) + (4 + 4)) in let kp := (0%Re, 0%Re) in let wl := (/ 2)%Re in
  [/\ mk_lattice (2, 2)%N (1%Re, 0%Re) (0%Re, 1%Re) (Float 1) (Float 1) = Ok L, is_expm expm,
      closed_at J1 expm (2, 2)%N L wl kp whole [::] 1 "wall" S, closed_at J1 expm (2, 2)%N L wl kp halves twice 2 "wall" S' &
      sound_project whole [::] /\ sound_project halves twice].
Proof. exact: walls_example. Qed.
Example C117_same_profile : let l := [:: (wall_contents, 1%Re)] in let l' := [:: (wall_contents, (/ 2)%Re); (wall_contents, (/ 2)%Re)] in
  [/\ made_of whole [::] "wall" l, made_of halves twice "wall" l', same_profile l l' & l <> l'].
Proof. exact: walls_same. Qed.
