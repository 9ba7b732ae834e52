(** An example for C118: a wall on a film, and the film on the wall. *)
From Coq Require Import Reals ZArith Lra Lia String.
From mathcomp Require Import all_ssreflect all_fingroup all_algebra.
From Coquelicot Require Import Complex.
From Verif Require Import Base CField CFun ModelRedheffer SpecScatter ModelExpansion SpecExpansion ModelFourier SpecFourier FourierProofs Blk ModelDevice ModelTmat SpecTmat TmatProofs ModelLattice SpecLattice LatticeProofs LookupProofs
  SpecExp ExpProofs TmatTheorems ModelEz SpecEz EzProofs TableProofs SpecScale SpecSym MoveProofs FieldsProofs SpecBloch TmatEnergyProofs BlochProofs SpecLoss TmatExamples LossPiles DetProofs ConjProofs SpecProfile ProfileProofs SpecTprofile TprofileProofs TprofileExamples SpecUpside UpsideProofs.
Set Implicit Arguments. Unset Strict Implicit. Unset Printing Implicit Defensive.
Import GRing.Theory.
Local Open Scope ring_scope.

Definition film_contents : contents := ([::], (3%Re, 1%Re)).
Definition parts (name : string) : option recipe :=
  if String.eqb name "wall" then Some (wall_contents, 1%Re, 0%N) else
  if String.eqb name "film" then Some (film_contents, (/ 2)%Re, 0%N) else None.
Definition wall_first : stackings := [:: ("pile"%string, ([:: "wall"%string; "film"%string], None))].
Definition film_first : stackings := [:: ("pile"%string, ([:: "film"%string; "wall"%string], None))].

Lemma wall_first_made : made_of parts wall_first "pile" [:: (wall_contents, 1%Re); (film_contents, (/ 2)%Re)].
Proof.
exists [:: "wall"%string; "film"%string] => //.
apply: (@unrolled_stack wall_first "pile" [:: "wall"%string; "film"%string] None [:: "wall"%string; "film"%string]) => //.
apply: (@unrolled_cons wall_first "wall" [:: "film"%string] [:: "wall"%string] [:: "film"%string]); first by constructor.
by apply: (@unrolled_cons wall_first "film" [::] [:: "film"%string] [::]); constructor.
Qed.
Lemma film_first_made : made_of parts film_first "pile" [:: (film_contents, (/ 2)%Re); (wall_contents, 1%Re)].
Proof.
exists [:: "film"%string; "wall"%string] => //.
apply: (@unrolled_stack film_first "pile" [:: "film"%string; "wall"%string] None [:: "film"%string; "wall"%string]) => //.
apply: (@unrolled_cons film_first "film" [:: "wall"%string] [:: "film"%string] [:: "wall"%string]); first by constructor.
by apply: (@unrolled_cons film_first "wall" [::] [:: "wall"%string] [::]); constructor.
Qed.
Lemma upside_piles : let l := [:: (wall_contents, 1%Re); (film_contents, (/ 2)%Re)] in let l' := [:: (film_contents, (/ 2)%Re); (wall_contents, 1%Re)] in
  [/\ made_of parts wall_first "pile" l, made_of parts film_first "pile" l', no_negative_depth l, no_negative_depth l' & same_profile (rev l) l' /\ ~ same_profile l l'].
Proof.
have h1 : (0 <= 1)%Re by lra.
have h2 : (0 <= / 2)%Re by lra.
split; [exact: wall_first_made | exact: film_first_made | by apply: List.Forall_cons => //; apply: List.Forall_cons => //; exact: List.Forall_nil | by apply: List.Forall_cons => //; apply: List.Forall_cons => //; exact: List.Forall_nil | split=> //].
move=> h; have := h 0%Re (Rle_refl 0); rewrite /=.
by destruct (Rlt_dec 0 1) as [a|a]; destruct (Rlt_dec 0 (/ 2)) as [b|b]; try lra.
Qed.

Lemma upside_example J1 : exists L S S', let expm := @mexp ((4 + 4) + (4 + 4)) in let kp := (0%Re, 0%Re) in let wl := (/ 2)%Re in
  [/\ mk_lattice (2, 2)%N (1%Re, 0%Re) (0%Re, 1%Re) (Float 1) (Float 1) = Ok L, is_expm expm,
      pile_at J1 expm (2, 2)%N L wl kp parts wall_first 2 "pile" S, pile_at J1 expm (2, 2)%N L wl kp parts film_first 2 "pile" S' &
      sound_project parts wall_first /\ sound_project parts film_first].
Proof.
have [L hL] := @mk_lattice_ok (2, 2)%N (Float 1) (Float 1) erefl.
have hexp : is_expm (@mexp ((4 + 4) + (4 + 4))) by exact: mexpP.
have fits : window_fits (2, 2)%N by left.
have p0 := PI_RGT_0; have t0 : (0 < / 2)%Re by lra.
have x0 : (0 <= 1)%Re by lra.
have one0 : (0 < 1)%Re by lra.
have [_ _ _ _ [mi me _ _ _]] := mk_latticeE hL.
have ng : l_ng L = 4%N by rewrite (window_ng hL fits).
have gE (g : nat) : l_g L g = ((IZR (Z.sub (Z.of_nat (g %% 2)%N) 1) * twopi)%Re, (IZR (Z.sub (Z.of_nat (g %/ 2)%N) 1) * twopi)%Re).
  rewrite /l_g /w_flat (window_rows hL).1 (window_at hL) (zero_lattice hL) /order_vector /=.
  by congr (_, _); ring.
have pos (g : nat) : (g < 4)%N -> (0 < 1 * (2 * PI / (/ 2)) ^ 2 - ((0 + (l_g L g).1) ^ 2 + (0 + (l_g L g).2) ^ 2))%Re.
  by case: g => [|[|[|[|g]]]] // _; rewrite gE /twopi /=; (have -> : (2 * PI / (/ 2) = 4 * PI)%Re by field); nra.
have all : all_propagate 4 L (/ 2) (0%Re, 0%Re).
  move=> g; have h := pos g (ltn_ord g); have h' := sqrt_lt_R0 _ h.
  rewrite mi (@kz_value (Float 1) 1 (/ 2) (0%Re, 0%Re) (l_g L g) _ erefl (Rlt_le _ _ h')); first by split; [by []|exact: Rgt_not_eq].
  by rewrite sqrt_sqrt //; exact: Rlt_le.
have wa : absorbing_recipe 1 1 (wall_contents, 1%Re, 0%N).
  have [rects [h1 h2 h3 h4 _]] : absorbing_recipe 1 1 (pane 1) by apply: (@pane_absorbs 1 "pane") => //; lra.
  by exists rects; split.
have fa : absorbing_recipe 1 1 (film_contents, (/ 2)%Re, 0%N) by exists [::]; split=> //=; lra.
have [A hA] : is_ok (scattering_matrix_islands J1 (@mexp ((4 + 4) + (4 + 4))) (2, 2)%N L wall_contents.1 wall_contents.2 (/ 2) (0%Re, 0%Re) 1 0%N).
  apply: (layer_ok J1 one0 one0 hL fits hexp t0 wa _ _ _ all (r := 1%Re)) => //; last by rewrite mi.
  split; first by apply/eqP => /(congr1 fst) /=; lra.
  by move=> s e /= [[_ <-]|[]]; apply/eqP => /(congr1 fst) /=; lra.
have [B hB] : is_ok (scattering_matrix_islands J1 (@mexp ((4 + 4) + (4 + 4))) (2, 2)%N L film_contents.1 film_contents.2 (/ 2) (0%Re, 0%Re) (/ 2) 0%N).
  apply: (layer_ok J1 one0 one0 hL fits hexp t0 fa _ _ _ all (r := 1%Re)) => //; last by rewrite mi.
  by split=> //; apply/eqP => /(congr1 fst) /=; lra.
pose req name := if String.eqb name "wall" then Some A else if String.eqb name "film" then Some B else None.
have hreq : computed_at J1 (@mexp ((4 + 4) + (4 + 4))) (2, 2)%N L (/ 2) (0%Re, 0%Re) parts req.
  move=> name; rewrite /parts /req; case: (String.eqb name "wall"); first by exists A.
  by case: (String.eqb name "film") => //; exists B.
have pabs layer q : parts layer = Some q -> absorbing_recipe 1 1 q.
  by rewrite /parts; case: (String.eqb layer "wall"); [case=> <- | case: (String.eqb layer "film") => // -[<-]].
have pA : pile_at J1 (@mexp ((4 + 4) + (4 + 4))) (2, 2)%N L (/ 2) (0%Re, 0%Re) parts [::] 1 "wall" A by exists req.
have pB : pile_at J1 (@mexp ((4 + 4) + (4 + 4))) (2, 2)%N L (/ 2) (0%Re, 0%Re) parts [::] 1 "film" B by exists req.
have ri : num_val (Float 1) = RtoC 1 by [].
have [S hS] : is_ok (multS A B) := piles_join one0 one0 hL fits hexp t0 ri one0 all pabs pabs pA pB.
have [S' hS'] : is_ok (multS B A) := piles_join one0 one0 hL fits hexp t0 ri one0 all pabs pabs pB pA.
have e1 : @at_op C_fieldType (4 + 4) (Some A) (Some B) = Ok (Some S) by rewrite /at_op hS.
have e2 : @at_op C_fieldType (4 + 4) (Some B) (Some A) = Ok (Some S') by rewrite /at_op hS'.
have sound st : st = wall_first \/ st = film_first -> sound_project parts st.
  case=> ->; (split; first by move=> nm names z; rewrite /=; case: (_ == _));
    by move=> nm; rewrite /parts; case: String.eqb_spec => [->|_] //; case: String.eqb_spec => [->|].
exists L, S, S'; split=> //; [exists req => // | exists req => // | by split; apply: sound; [left|right]].
  by change (bind (bind (@at_op C_fieldType (4 + 4) (Some A) (Some B)) (fun a => Ok a)) (fun S1 => Ok S1) = Ok (Some S)); rewrite e1.
by change (bind (bind (@at_op C_fieldType (4 + 4) (Some B) (Some A)) (fun a => Ok a)) (fun S1 => Ok S1) = Ok (Some S')); rewrite e2.
Qed.
(** Two half walls are the same from both sides. *)
Lemma symmetric_example J1 : exists L S l, let expm := @mexp ((4 + 4) + (4 + 4)) in let kp := (0%Re, 0%Re) in let wl := (/ 2)%Re in
  [/\ is_expm expm, pile_at J1 expm (2, 2)%N L wl kp halves twice 2 "wall" S, sound_project halves twice, made_of halves twice "wall" l &
      no_negative_depth l /\ same_profile (rev l) l].
Proof.
have [L [S [S' [_ hx _ [A [B [hA _ _]]] [_ hs]]]]] := walls_example J1.
have h2 : (0 <= / 2)%Re by lra.
exists L, A, [:: (wall_contents, (/ 2)%Re); (wall_contents, (/ 2)%Re)]; split=> //; first exact: halves_made.
by split=> //; apply: List.Forall_cons => //; apply: List.Forall_cons => //; exact: List.Forall_nil.
Qed.
