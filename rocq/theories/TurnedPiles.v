(** Proofs for C121: reciprocity between a T-matrix pile and the same pile turned upside
    down. *)
From Coq Require Import Reals ZArith Lra Lia String.
From mathcomp Require Import all_ssreflect all_fingroup all_algebra.
From Coquelicot Require Import Complex.
From Verif Require Import Base CField CFun ModelRedheffer SpecScatter ModelExpansion SpecExpansion ModelFourier SpecFourier FourierProofs Blk ModelDevice ModelTmat SpecTmat TmatProofs ModelLattice SpecLattice LatticeProofs LookupProofs
  SpecExp ExpProofs TmatTheorems ModelEz SpecEz EzProofs TableProofs SpecScale SpecSym MoveProofs FieldsProofs SpecBloch TmatEnergyProofs BlochProofs SpecLoss TmatExamples LossPiles DetProofs ConjProofs ReciprocalPiles
  SpecProfile ProfileProofs SpecTprofile TprofileProofs TprofileExamples SpecUpside UpsideProofs UpsideExamples.
Set Implicit Arguments. Unset Strict Implicit. Unset Printing Implicit Defensive.
Import GRing.Theory.
Local Open Scope ring_scope.

(** Between equal media the last interface changes nothing. *)
Lemma closed_same J1 n (expm : 'M[C]_((n + n) + (n + n)) -> 'M[C]_((n + n) + (n + n))) p a1 a2 em L wl kp q st d name S :
  mk_lattice p a1 a2 em em = Ok L -> closed_at J1 expm p L wl kp q st d name S -> pile_at J1 expm p L wl kp q st d name S.
Proof.
move=> hL [A [B [hA hB hS]]]; have [_ _ _ _ [mi me _ _ _]] := mk_latticeE hL.
by move: hS; rewrite (equal_media _ hB) ?mi ?me // multS_1r => -[<-].
Qed.

Lemma mirrored_entry n (M : 'M[C]_(n + n)) a b (g h : 'I_n) :
  (mirrored *m M *m mirrored) (wave b h) (wave a g) = (if b then -1 else 1) * (if a then -1 else 1) * M (wave b h) (wave a g).
Proof.
rewrite -{1}(submxK M) /mirrored mulmx_block !mul0mx !mul1mx !addr0 !add0r mulmx_block !mulmx0 !mulmx1 !addr0 !add0r.
rewrite !mulNmx !mulmxN !mul1mx !mulmx1 opprK.
by case: a; case: b; rewrite /wave ?block_mxEul ?block_mxEur ?block_mxEdl ?block_mxEdr ?mulN1r ?mul1r ?opprK ?mulr1 ?mulrN1 ?mxE ?mul1r ?mulN1r.
Qed.
Lemma upside_ul n (S : 'M[C]_((n + n) + (n + n))) : ulsubmx (upside *m S *m upside) = mirrored *m drsubmx S *m mirrored.
Proof.
rewrite -{1}(submxK S) /upside mulmx_block !mul0mx !add0r ?addr0 mulmx_block !mulmx0 ?add0r ?addr0 block_mxKul.
by [].
Qed.

Lemma turned_pile_transmission J1 n (expm : 'M[C]_((n + n) + (n + n)) -> 'M[C]_((n + n) + (n + n))) p a1 a2 em L wl kp
    q q' st st' name name' l l' d d' S Sb S' a b (g h : 'I_n) :
  is_expm expm -> mk_lattice p a1 a2 em em = Ok L -> window_fits p -> odd p.1 -> sound_project q st -> sound_project q' st' ->
  made_of q st name l -> made_of q' st' name' l' -> no_negative_depth l -> no_negative_depth l' -> same_profile (rev l) l' ->
  closed_at J1 expm p L wl kp q st d name S -> closed_at J1 expm p L wl (opposite kp) q st d name Sb ->
  closed_at J1 expm p L wl (opposite kp) q' st' d' name' S' ->
  weight L em wl kp false g * ulsubmx S (wave a g) (wave b h) =
  weight L em wl kp false h * ulsubmx S' (wave b (rev_ord h)) (wave a (rev_ord g)).
Proof.
move=> hx hL hf ho hs hs' hm hm' hd hd' hp hS hSb hS'.
have [_ _ _ _ [mi me _ _ _]] := mk_latticeE hL.
have e := pile_upside hx hs hs' hm hm' hd hd' hp (closed_same hL hSb) (closed_same hL hS').
have := pile_transmission hL hf ho hx hS hSb a b g h; rewrite mi me.
rewrite e upside_ul mirrored_entry.
have wE pol (k : 'I_n) : weight L em wl kp pol k = (if pol then -1 else 1) * weight L em wl kp false k.
  by rewrite /weight mul1r; case: pol; rewrite ?mul1r // mulrA.
rewrite (wE a g) (wE b h); move: (weight L em wl kp false g) (weight L em wl kp false h) => u v h1.
have s2 (c : bool) : (if c then -1 else 1) * (if c then -1 else 1) = 1 :> C by case: c; rewrite ?mulN1r ?opprK ?mul1r.
have -> : u * ulsubmx S (wave a g) (wave b h) = (if a then -1 else 1) * ((if a then -1 else 1) * u * ulsubmx S (wave a g) (wave b h)).
  by rewrite !mulrA s2 mul1r.
by rewrite h1 !mulrA; congr (_ * _); rewrite mulrC mulrA mulrAC.
Qed.

(** A wall on a film, and the film on the wall, for one order. *)
Lemma turned_piles J1 : exists L S S', let expm := @mexp ((1 + 1) + (1 + 1)) in let kp := (0%Re, 0%Re) in let wl := (/ 2)%Re in
  [/\ mk_lattice (1, 1)%N (1%Re, 0%Re) (0%Re, 1%Re) (Float 1) (Float 1) = Ok L, is_expm expm,
      closed_at J1 expm (1, 1)%N L wl kp parts wall_first 2 "pile" S /\ closed_at J1 expm (1, 1)%N L wl (opposite kp) parts wall_first 2 "pile" S,
      closed_at J1 expm (1, 1)%N L wl (opposite kp) parts film_first 2 "pile" S' &
      sound_project parts wall_first /\ sound_project parts film_first].
Proof.
have [L hL] := @mk_lattice_ok (1, 1)%N (Float 1) (Float 1) erefl.
have hexp : is_expm (@mexp ((1 + 1) + (1 + 1))) by exact: mexpP.
have fits : window_fits (1, 1)%N by left.
have p0 := PI_RGT_0; have t0 : (0 < / 2)%Re by lra.
have x0 : (0 <= 1)%Re by lra.
have one0 : (0 < 1)%Re by lra.
have [_ _ _ _ [mi me _ _ _]] := mk_latticeE hL.
have ng : l_ng L = 1%N by rewrite (window_ng hL fits).
have pos (g : nat) : (g < 1)%N -> (0 < 1 * (2 * PI / (/ 2)) ^ 2 - ((0 + (l_g L g).1) ^ 2 + (0 + (l_g L g).2) ^ 2))%Re.
  by case: g => // _; rewrite (one_g hL) /=; (have -> : (2 * PI / (/ 2) = 4 * PI)%Re by field); nra.
have all : all_propagate 1 L (/ 2) (0%Re, 0%Re).
  move=> g; have h := pos g (ltn_ord g); have h' := sqrt_lt_R0 _ h.
  rewrite mi (@kz_value (Float 1) 1 (/ 2) (0%Re, 0%Re) (l_g L g) _ erefl (Rlt_le _ _ h')); first by split; [by []|exact: Rgt_not_eq].
  by rewrite sqrt_sqrt //; exact: Rlt_le.
have wa : absorbing_recipe 1 1 (wall_contents, 1%Re, 0%N).
  have [rects [h1 h2 h3 h4 _]] : absorbing_recipe 1 1 (pane 1) by apply: (@pane_absorbs 1 "pane") => //; lra.
  by exists rects; split.
have fa : absorbing_recipe 1 1 (film_contents, (/ 2)%Re, 0%N) by exists [::]; split=> //=; lra.
have [A hA] : is_ok (scattering_matrix_islands J1 (@mexp ((1 + 1) + (1 + 1))) (1, 1)%N L wall_contents.1 wall_contents.2 (/ 2) (0%Re, 0%Re) 1 0%N).
  apply: (layer_ok J1 one0 one0 hL fits hexp t0 wa _ _ _ all (r := 1%Re)) => //; last by rewrite mi.
  split; first by apply/eqP => /(congr1 fst) /=; lra.
  by move=> s e /= [[_ <-]|[]]; apply/eqP => /(congr1 fst) /=; lra.
have [B hB] : is_ok (scattering_matrix_islands J1 (@mexp ((1 + 1) + (1 + 1))) (1, 1)%N L film_contents.1 film_contents.2 (/ 2) (0%Re, 0%Re) (/ 2) 0%N).
  apply: (layer_ok J1 one0 one0 hL fits hexp t0 fa _ _ _ all (r := 1%Re)) => //; last by rewrite mi.
  by split=> //; apply/eqP => /(congr1 fst) /=; lra.
pose req name := if String.eqb name "wall" then Some A else if String.eqb name "film" then Some B else None.
have hreq : computed_at J1 (@mexp ((1 + 1) + (1 + 1))) (1, 1)%N L (/ 2) (0%Re, 0%Re) parts req.
  move=> name; rewrite /parts /req; case: (String.eqb name "wall"); first by exists A.
  by case: (String.eqb name "film") => //; exists B.
have pabs layer q : parts layer = Some q -> absorbing_recipe 1 1 q.
  by rewrite /parts; case: (String.eqb layer "wall"); [case=> <- | case: (String.eqb layer "film") => // -[<-]].
have pA : pile_at J1 (@mexp ((1 + 1) + (1 + 1))) (1, 1)%N L (/ 2) (0%Re, 0%Re) parts [::] 1 "wall" A by exists req.
have pB : pile_at J1 (@mexp ((1 + 1) + (1 + 1))) (1, 1)%N L (/ 2) (0%Re, 0%Re) parts [::] 1 "film" B by exists req.
have ri : num_val (Float 1) = RtoC 1 by [].
have [S hS] : is_ok (multS A B) := piles_join one0 one0 hL fits hexp t0 ri one0 all pabs pabs pA pB.
have [S' hS'] : is_ok (multS B A) := piles_join one0 one0 hL fits hexp t0 ri one0 all pabs pabs pB pA.
have e1 : @at_op C_fieldType (1 + 1) (Some A) (Some B) = Ok (Some S) by rewrite /at_op hS.
have e2 : @at_op C_fieldType (1 + 1) (Some B) (Some A) = Ok (Some S') by rewrite /at_op hS'.
have sound st : st = wall_first \/ st = film_first -> sound_project parts st.
  case=> ->; (split; first by move=> nm names z; rewrite /=; case: (_ == _));
    by move=> nm; rewrite /parts; case: String.eqb_spec => [->|_] //; case: String.eqb_spec => [->|].
have hi : scattering_interface 1 L (/ 2) (0%Re, 0%Re) = Ok 1%:M.
  apply: equal_media_def; rewrite ?mi ?me ?ng //.
  - by move=> hz; lra.
  - by apply/eqP => /(congr1 fst) /=; lra.
  by apply: (one_no_anomaly hL (r := 1%Re)) => //; (have -> : (2 * PI / (/ 2) = 4 * PI)%Re by field) => /=; nra.
have eo : opposite (0%Re, 0%Re) = (0%Re, 0%Re) by rewrite /opposite /= Ropp_0.
have cl st Z : pile_at J1 (@mexp ((1 + 1) + (1 + 1))) (1, 1)%N L (/ 2) (0%Re, 0%Re) parts st 2 "pile" Z ->
    closed_at J1 (@mexp ((1 + 1) + (1 + 1))) (1, 1)%N L (/ 2) (0%Re, 0%Re) parts st 2 "pile" Z.
  by move=> hZ; exists Z, 1%:M; split=> //; exact: multS_1r.
have qS : pile_at J1 (@mexp ((1 + 1) + (1 + 1))) (1, 1)%N L (/ 2) (0%Re, 0%Re) parts wall_first 2 "pile" S.
  exists req => //.
  by change (bind (bind (@at_op C_fieldType (1 + 1) (Some A) (Some B)) (fun a => Ok a)) (fun S1 => Ok S1) = Ok (Some S)); rewrite e1.
have qS' : pile_at J1 (@mexp ((1 + 1) + (1 + 1))) (1, 1)%N L (/ 2) (0%Re, 0%Re) parts film_first 2 "pile" S'.
  exists req => //.
  by change (bind (bind (@at_op C_fieldType (1 + 1) (Some B) (Some A)) (fun a => Ok a)) (fun S1 => Ok S1) = Ok (Some S')); rewrite e2.
by exists L, S, S'; cbv zeta; rewrite eo; split=> //; [split; exact: cl | exact: cl | split; apply: sound; [left|right]].
Qed.
