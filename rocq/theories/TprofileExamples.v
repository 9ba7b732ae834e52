(** An example for C117: a wall of depth 1, and two walls of depth 1/2. *)
From Coq Require Import Reals ZArith Lra Lia String.
From mathcomp Require Import all_ssreflect all_fingroup all_algebra.
From Coquelicot Require Import Complex.
From Verif Require Import Base CField CFun ModelRedheffer SpecScatter ModelExpansion SpecExpansion ModelFourier SpecFourier FourierProofs Blk ModelDevice ModelTmat SpecTmat TmatProofs ModelLattice SpecLattice LatticeProofs LookupProofs
  SpecExp ExpProofs TmatTheorems ModelEz SpecEz EzProofs TableProofs SpecScale SpecSym MoveProofs FieldsProofs SpecBloch TmatEnergyProofs BlochProofs SpecLoss TmatExamples LossPiles DetProofs ConjProofs SpecProfile ProfileProofs SpecTprofile TprofileProofs.
Set Implicit Arguments. Unset Strict Implicit. Unset Printing Implicit Defensive.
Import GRing.Theory.
Local Open Scope ring_scope.

Definition wall_contents : contents := ([:: (Rectangle 0 0 (/ 2) 1, (2%Re, 1%Re))], (1%Re, 1%Re)).
Definition whole (name : string) : option recipe := if String.eqb name "wall" then Some (wall_contents, 1%Re, 0%N) else None.
Definition halves (name : string) : option recipe := if String.eqb name "half" then Some (wall_contents, (/ 2)%Re, 0%N) else None.
Definition twice : stackings := [:: ("wall"%string, ([:: "half"%string], Some (Zpos (xO xH))))].

Lemma whole_made : made_of whole [::] "wall" [:: (wall_contents, 1%Re)].
Proof. by exists [:: "wall"%string] => //; constructor. Qed.
Lemma halves_made : made_of halves twice "wall" [:: (wall_contents, (/ 2)%Re); (wall_contents, (/ 2)%Re)].
Proof.
exists [:: "half"%string; "half"%string] => //.
apply: (@unrolled_stack twice "wall" [:: "half"%string] (Some (Zpos (xO xH))) [:: "half"%string]) => //.
by apply: (@unrolled_cons twice "half" [::] [:: "half"%string] [::]); constructor.
Qed.
Lemma walls_profile : same_profile [:: (wall_contents, 1%Re)] [:: (wall_contents, (/ 2)%Re); (wall_contents, (/ 2)%Re)].
Proof.
move=> z hz /=; destruct (Rlt_dec z 1) as [h|h]; destruct (Rlt_dec z (/ 2)) as [h1|h1]; try lra; try reflexivity.
  by destruct (Rlt_dec (z - / 2) (/ 2)) as [h2|h2]; [reflexivity | lra].
by destruct (Rlt_dec (z - / 2) (/ 2)) as [h2|h2]; [lra | reflexivity].
Qed.

Lemma walls_example J1 : exists L S S', let expm := @mexp ((4 + 4) + (4 + 4)) in let kp := (0%Re, 0%Re) in let wl := (/ 2)%Re in
  [/\ mk_lattice (2, 2)%N (1%Re, 0%Re) (0%Re, 1%Re) (Float 1) (Float 1) = Ok L, is_expm expm,
      closed_at J1 expm (2, 2)%N L wl kp whole [::] 1 "wall" S, closed_at J1 expm (2, 2)%N L wl kp halves twice 2 "wall" S' &
      sound_project whole [::] /\ sound_project halves twice].
Proof.
have [L hL] := @mk_lattice_ok (2, 2)%N (Float 1) (Float 1) erefl.
have hexp : is_expm (@mexp ((4 + 4) + (4 + 4))) by exact: mexpP.
have fits : window_fits (2, 2)%N by left.
have p0 := PI_RGT_0; have t0 : (0 < / 2)%Re by lra.
have x0 : (0 <= 1)%Re by lra.
have one0 : (0 < 1)%Re by lra.
have [_ _ _ _ [mi me _ _ _]] := mk_latticeE hL.
have ng : l_ng L = 4%N by rewrite (window_ng hL fits).
have gE (g : nat) : l_g L g = ((IZR (Z.sub (Z.of_nat (g %% 2)%N) 1) * twopi)%Re, (IZR (Z.sub (Z.of_nat (g %/ 2)%N) 1) * twopi)%Re).
  rewrite /l_g /w_flat (window_rows hL).1 (window_at hL) (zero_lattice hL) /order_vector /=.
  by congr (_, _); ring.
have pos (g : nat) : (g < 4)%N -> (0 < 1 * (2 * PI / (/ 2)) ^ 2 - ((0 + (l_g L g).1) ^ 2 + (0 + (l_g L g).2) ^ 2))%Re.
  by case: g => [|[|[|[|g]]]] // _; rewrite gE /twopi /=; (have -> : (2 * PI / (/ 2) = 4 * PI)%Re by field); nra.
have all : all_propagate 4 L (/ 2) (0%Re, 0%Re).
  move=> g; have h := pos g (ltn_ord g); have h' := sqrt_lt_R0 _ h.
  rewrite mi (@kz_value (Float 1) 1 (/ 2) (0%Re, 0%Re) (l_g L g) _ erefl (Rlt_le _ _ h')); first by split; [by []|exact: Rgt_not_eq].
  by rewrite sqrt_sqrt //; exact: Rlt_le.
have lok d pow : (0 <= d)%Re -> is_ok (scattering_matrix_islands J1 (@mexp ((4 + 4) + (4 + 4))) (2, 2)%N L wall_contents.1 wall_contents.2 (/ 2) (0%Re, 0%Re) d pow).
  move=> d0; apply: (layer_ok J1 one0 one0 hL fits hexp t0 _ _ _ _ all (r := 1%Re)) => //; last by rewrite mi.
    have [rects [h1 h2 h3 h4 _]] : absorbing_recipe 1 1 (pane 1) by apply: (@pane_absorbs 1 "pane") => //; lra.
    by exists rects; split.
  split; first by apply/eqP => /(congr1 fst) /=; lra.
  by move=> s e /= [[_ <-]|[]]; apply/eqP => /(congr1 fst) /=; lra.
have [A hA] := lok 1%Re 0%N (Rlt_le _ _ one0).
have [B hB] := lok (/ 2)%Re 0%N (Rlt_le _ _ t0).
have [D hD] := lok 1%Re 1%N (Rlt_le _ _ one0).
have hBD : multS B B = Ok D.
  have [U [Vi [hU hV _ hb]]] := islands_parts hB.
  have [U' [Vi' [hU' hV' _ hd]]] := islands_parts hD.
  move: hU' hV'; rewrite hU hV => -[eU] [eV]; subst U' Vi'.
  move: hb hd; rewrite /sliced_layer.
  have -> : RtoC (/ 2) / 2%:R ^+ 0 = RtoC 1 / 2%:R ^+ 1 :> C.
    by rewrite expr0 expr1 divr1 mul1r RtoC_inv; [congr (_^-1); rewrite -[2%:R]/(1 + 1 : C); apply: C_ext => /=; ring | lra].
  by case: (matrix_s _) => [S|//]; cbn [bind doublings] => -[->]; case: (multS B B) => [S'|//].
have iface : scattering_interface 4 L (/ 2) (0%Re, 0%Re) = Ok 1%:M.
  apply: equal_media_def; rewrite ?mi ?me ?ng //=; [lra|by apply/eqP => /(congr1 fst) /=; lra|].
  by move=> g; rewrite ng => hg /(congr1 fst) /= e; have := pos g hg; move: e => /=; lra.
exists L, A, D; split=> //.
- exists A, 1%:M; split=> //; last exact: multS_1r.
  exists (fun name => if String.eqb name "wall" then Some A else None); last by [].
  by move=> name; rewrite /whole; case: (String.eqb name "wall") => //; exists A.
- exists D, 1%:M; split=> //; last exact: multS_1r.
  exists (fun name => if String.eqb name "half" then Some B else None); last first.
    have e : @at_op C_fieldType (4 + 4) (Some B) (Some B) = Ok (Some D) by rewrite /at_op hBD.
    by change (bind (@at_op C_fieldType (4 + 4) (Some B) (Some B)) (fun a => Ok a) = Ok (Some D)); rewrite e.
  by move=> name; rewrite /halves; case: (String.eqb name "half") => //; exists B.
split; first by split.
split.
  move=> nm names z h; have -> : z = Zpos (xO xH) by move: h; rewrite /twice /=; case: (_ == _) => // -[].
  by [].
by move=> nm; rewrite /halves; case: String.eqb_spec => [->|].
Qed.
Lemma walls_same : let l := [:: (wall_contents, 1%Re)] in let l' := [:: (wall_contents, (/ 2)%Re); (wall_contents, (/ 2)%Re)] in
  [/\ made_of whole [::] "wall" l, made_of halves twice "wall" l', same_profile l l' & l <> l'].
Proof. by split; [exact: whole_made | exact: halves_made | exact: walls_profile | ]. Qed.
