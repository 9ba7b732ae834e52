(** Examples for C112-C114. *)
From Coq Require Import Reals ZArith Lra Lia String.
From mathcomp Require Import all_ssreflect all_fingroup all_algebra.
From Coquelicot Require Import Complex.
From Verif Require Import Base CField CFun ModelRedheffer SpecScatter ModelExpansion SpecExpansion ModelFourier SpecFourier FourierProofs Blk ModelDevice ModelTmat SpecTmat TmatProofs ModelLattice SpecLattice LatticeProofs LookupProofs
  SpecExp ExpProofs ModelEz TableProofs SpecScale SpecSym TurnProofs FieldsProofs SpecBloch TmatEnergyProofs BlochProofs SpecLoss TmatExamples LossPiles DetProofs SpecShift ShiftExamples PolConj SpecTurn TmatTurn TmatTurn2 TmatTurn3 TmatTurn4 TmatTurn5.
Set Implicit Arguments. Unset Strict Implicit. Unset Printing Implicit Defensive.
Import GRing.Theory.
Local Open Scope ring_scope.

(** The orders of a square lattice of pitch 1 at normal incidence have a direction, but
    for the zero order. *)
Lemma unit_turnable b p ei ee L wl : mk_lattice p (1%Re, 0%Re) (0%Re, 1%Re) ei ee = Ok L -> (0 < wl)%Re ->
  (0 <= snd (num_val ei))%Re -> (0 <= snd (num_val ee))%Re -> turnable b L wl (0%Re, 0%Re).
Proof.
move=> hL w0 i0 e0; right; have [_ _ _ _ [mi me _ _ _]] := mk_latticeE hL; rewrite mi me; split=> // g _ u; rewrite {}/u.
rewrite /l_g /w_flat (window_rows hL).1 (window_at hL) (zero_lattice hL) /order_vector /uvec /tiny; cbn [fst snd].
move: (Z.sub _ _) (Z.sub _ _) => m2 m1; case: Rlt_dec => // h _.
have p0 := PI2_3_2; have sq (m : Z) : m = Z0 \/ (1 <= IZR m * IZR m)%Re.
  have [->|ne] := Z.eq_dec m 0; [by left|right]; rewrite -mult_IZR; apply: (IZR_le 1); nia.
have big : (1 < 2 ^ 52)%Re by apply: Rlt_pow_R1; [lra|lia].
have small : (/ 2 ^ 52 < 1)%Re by rewrite -Rinv_1; apply: Rinv_lt_contravar; lra.
have t1 : (1 <= twopi * twopi)%Re by rewrite /twopi; nra.
have e : ((0 + (IZR m1 * twopi + IZR m2 * 0)) ^ 2 + (0 + (IZR m1 * 0 + IZR m2 * twopi)) ^ 2 = (IZR m1 * IZR m1 + IZR m2 * IZR m2) * (twopi * twopi))%Re by ring.
have {}h : ((IZR m1 * IZR m1 + IZR m2 * IZR m2) * (twopi * twopi) < / 2 ^ 52)%Re by rewrite -e; exact: h.
have q1 := Rle_0_sqr (IZR m1); have q2 := Rle_0_sqr (IZR m2); rewrite /Rsqr in q1 q2.
case: (sq m1) (sq m2) => [->|h1] [->|h2]; try by exfalso; nra.
by congr (_, _); ring.
Qed.
Lemma waves_same n p L kp : turned_waves 1 0 1 same_names p L kp = 1%:M :> 'M[C]_((n + n) + (n + n)).
Proof.
have np g : new_place same_names p g = g by rewrite /new_place /= addnC mulnC -divn_eq.
have pt up u to from : pol_turn 1 0 1 up u to from = if to == from then 1%Re else 0%Re.
  by rewrite /pol_turn; case: (tiny u) => //; case: to from up => -[] [] /=; ring.
have half up : turned_half 1 0 1 same_names p L kp up = 1%:M :> 'M[C]_(n + n).
  rewrite /turned_half [RHS]scalar_mx_block; congr block_mx; apply/matrixP => i j; rewrite !mxE np pt /= -?val_eqE /=; by case: eqP.
by rewrite /turned_waves !half [RHS]scalar_mx_block.
Qed.
Definition flip : naming := Naming false false true.
Definition roll : naming := Naming true false true.
Lemma flip_square : renamed flip (turn 0 1 (- 1) (1%Re, 0%Re), turn 0 1 (- 1) (0%Re, 1%Re)) = ((1%Re, 0%Re), (0%Re, 1%Re)).
Proof. by rewrite /renamed /flip /turn /=; congr ((_, _), (_, _)); ring. Qed.
Lemma roll_square : renamed roll (turn 0 1 1 (1%Re, 0%Re), turn 0 1 1 (0%Re, 1%Re)) = ((1%Re, 0%Re), (0%Re, 1%Re)).
Proof. by rewrite /renamed /roll /signed /turn /=; congr ((_, _), (_, _)); ring. Qed.
Lemma flip_iso : isometry 0 1 (- 1). Proof. by split; [ring|right; ring]. Qed.

(** The wall of C110 lying along the other axis. *)
Definition wall (x : R) : recipe := ([:: (Rectangle 0 0 1 (/ 2), (2%Re, x))], (1%Re, x), 1%Re, 2%N).
Definition wall_layer x (name : string) : option recipe := if String.eqb name "pane" then Some (wall x) else None.
Lemma pane_wall rb x : recipes_turned 0 1 (- 1) rb (pane_layer x) (wall_layer x).
Proof.
move=> nm; rewrite /pane_layer /wall_layer; case: (String.eqb nm "pane") => //; split=> //; constructor=> //; split=> //=.
by right; repeat split.
Qed.
Lemma flip_example J1 : exists L S, let expm := @mexp ((4 + 4) + (4 + 4)) in let kp := (0%Re, 0%Re) in let wl := (/ 2)%Re in let L1 := (1%Re, 0%Re) in let L2 := (0%Re, 1%Re) in
  [/\ isometry 0 1 (- 1) /\ nameable flip (2, 2)%N, mk_lattice (2, 2)%N L1 L2 (Float 1) (Float 1) = Ok L /\ renamed flip (turn 0 1 (- 1) L1, turn 0 1 (- 1) L2) = (L1, L2),
      is_expm expm /\ turnable 1 L wl kp, recipes_turned 0 1 (- 1) (l_b L) (pane_layer 1) (wall_layer 1) &
      [/\ pile_at J1 expm (2, 2)%N L wl kp (pane_layer 1) [::] 1 "pane" S, closed_at J1 expm (2, 2)%N L wl kp (pane_layer 1) [::] 1 "pane" S &
          is_ok (@tmat_incident 4 (2, 2)%N 1 0 1)]].
Proof.
have [L [S [hL hx hP hC [_ hi _]]]] := wall_example J1; exists L, S; split=> //.
- by split; [exact: flip_iso|split].
- by split=> //; exact: flip_square.
- by split=> //; apply: (unit_turnable _ hL) => /=; lra.
- exact: pane_wall.
Qed.

(** A disc in a window of one order. *)
Definition rod : recipe := ([:: (Disc 0 0 (/ 2), (2%Re, 1%Re))], (1%Re, (/ 2)%Re), 1%Re, 2%N).
Definition rod_layer (name : string) : option recipe := if String.eqb name "rod" then Some rod else None.
Definition bar : recipe := ([:: (Rectangle 0 0 (PI / 4) 1, (2%Re, 1%Re))], (1%Re, (/ 2)%Re), 1%Re, 2%N).
Lemma bar_absorbs : absorbing_recipe 1 1 bar.
Proof.
exists [:: ((0%Re, 0%Re, (PI / 4)%Re, 1%Re), (2%Re, 1%Re))]; split=> //=; try lra.
by move=> q' [<-|[]] /=; have := PI2_3_2; have := PI_4; rewrite /wide; repeat split; try lra; nra.
Qed.
Section One.
Variables (J1 : R -> R) (L : lattice).
Hypothesis hL : mk_lattice (1, 1)%N (1%Re, 0%Re) (0%Re, 1%Re) (Float 1) (Float 4) = Ok L.
Lemma rod_bar_data data : mapM (fun i => do t0 <- grid_transform J1 i.1 (l_G L) (l_area L); Ok (t0, i.2)) bar.1.1.1 = Ok data ->
  exists2 data', mapM (fun i => do t0 <- grid_transform J1 i.1 (l_G L) (l_area L); Ok (t0, i.2)) rod.1.1.1 = Ok data' &
  List.Forall2 (fun x y => carried same_names (1, 1)%N x.1 y.1 /\ y.2 = x.2) data data'.
Proof.
have [_ _ hq _ [_ _ _ hG at_]] := mk_latticeE hL; rewrite hq in hG; case: hG => hr hc.
rewrite /=; case h : (grid_transform _ _ _ _) => [t0|//]; cbn [bind] => -[<-].
have [s0 _ r0 c0 v0] := @grid_val (1, 1)%N J1 _ L _ hr hc h.
have gd : good_shape (Disc 0 0 (/ 2)) by rewrite /=; lra.
have [t1 h1] := @grid_def J1 (Disc 0 0 (/ 2)) L s0 gd; rewrite h1; cbn [bind]; eexists; first by [].
have [_ _ r1 c1 v1] := @grid_val (1, 1)%N J1 _ L _ hr hc h1.
constructor=> //; split=> //; split; rewrite ?r0 ?r1 ?c0 ?c1 // => -[|i] [|j] // _ _.
rewrite v0 // v1 // at_ /order_vector /shape_value /transform_disc /transform_rectangle.
have z x : (IZR (Z.sub (Z.of_nat 0) (Z.of_nat (2 * (1 %/ 2)))) * x = 0)%Re by rewrite /=; ring.
have ic : isclose0 0 by rewrite /isclose0 Rabs_R0; case: Rle_dec => // hh; exfalso; lra.
rewrite !z Rplus_0_r ic.
cbn [andb]; rewrite (_ : - ci * RtoC 0 * _ = 0); last by rewrite mulr0 mul0r.
rewrite (_ : - ci * RtoC 0 * _ = 0); last by rewrite mulr0 mul0r.
rewrite (_ : fexpz 0 = 1); last first.
  rewrite /fexpz Cmod_0; destruct (Rlt_dec (1 / 100) 0) as [hh|hh]; first by exfalso; lra.
  by rewrite !mul0r addr0.
rewrite (_ : - ci * _ = 0); last by apply: C_ext => /=; ring.
rewrite cexp0 !mulr1; congr RtoC; field; exact: s0.
Qed.
End One.
Lemma rod_example J1 : exists L S, let expm := @mexp ((1 + 1) + (1 + 1)) in let kp := (0%Re, 0%Re) in let wl := 2%Re in let L1 := (1%Re, 0%Re) in let L2 := (0%Re, 1%Re) in
  [/\ nameable roll (1, 1)%N, mk_lattice (1, 1)%N L1 L2 (Float 1) (Float 4) = Ok L /\ renamed roll (turn 0 1 1 L1, turn 0 1 1 L2) = (L1, L2),
      is_expm expm /\ turnable 1 L wl kp, recipes_turned 0 1 1 (l_b L) rod_layer rod_layer &
      [/\ closed_at J1 expm (1, 1)%N L wl kp rod_layer [::] 1 "rod" S, is_ok (@tmat_incident 1 (1, 1)%N 1 0 1) & is_ok (@tmat_incident 1 (1, 1)%N 1 1 (- 0))]].
Proof.
have [L hL] := @mk_lattice_ok (1, 1)%N (Float 1) (Float 4) erefl.
have hexp : is_expm (@mexp ((1 + 1) + (1 + 1))) by exact: mexpP.
have fits : window_fits (1, 1)%N by left.
have p0 := PI_RGT_0; have t0 : (0 < 2)%Re by lra.
have one0 : (0 < 1)%Re by lra.
have [mi me] := one_media hL.
have all : all_propagate 1 L 2 (0%Re, 0%Re).
  move=> g; rewrite (ord1 g) (one_g hL) mi (@kz_value (Float 1) 1 2 (0%Re, 0%Re) (0%Re, 0%Re) PI erefl) /=; [split=> //; lra|lra|].
  by rewrite !Rplus_0_r; field.
have tb b : turnable b L 2 (0%Re, 0%Re) by apply: (unit_turnable _ hL) => /=; lra.
have [A hA] : is_ok (scattering_matrix_islands J1 (@mexp ((1 + 1) + (1 + 1))) (1, 1)%N L bar.1.1.1 bar.1.1.2 2 (0%Re, 0%Re) bar.1.2 bar.2).
  apply: (layer_ok J1 one0 one0 hL fits hexp t0 _ _ _ _ all (r := 1%Re)) => //; [exact: bar_absorbs| |by rewrite (one_ng hL)|by rewrite mi].
  split; first by apply/eqP => /(congr1 fst) /=; lra.
  by move=> s e /= [[_ <-]|[]]; apply/eqP => /(congr1 fst) /=; lra.
have id1 : isometry 1 0 1 by split; [ring|left].
have nm : nameable same_names (1, 1)%N by split.
have tn0 v : turn 1 0 1 v = v by rewrite /turn; case: v => x y /=; congr (_, _); ring.
have hL' : mk_lattice (1, 1)%N (renamed same_names (turn 1 0 1 (1%Re, 0%Re), turn 1 0 1 (0%Re, 1%Re))).1 (renamed same_names (turn 1 0 1 (1%Re, 0%Re), turn 1 0 1 (0%Re, 1%Re))).2 (Float 1) (Float 4) = Ok L.
  by rewrite !tn0.
have := @layer_carried 1 0 1 id1 same_names (1, 1)%N _ _ _ _ L nm fits hL L hL' 1 erefl J1 _ bar.1.1.1 rod.1.1.1 bar.1.1.2 2 (0%Re, 0%Re) bar.1.2 bar.2 A hexp (tb 0%Re) (@rod_bar_data J1 L hL) hA.
rewrite tn0; set B := _ *m _; move=> hB.
have hP : pile_at J1 (@mexp ((1 + 1) + (1 + 1))) (1, 1)%N L 2 (0%Re, 0%Re) rod_layer [::] 1 "rod" B.
  exists (fun name => if String.eqb name "rod" then Some B else None); last by [].
  by move=> name; rewrite /rod_layer; case: (String.eqb name "rod") => //; exists B.
have hP' : pile_at J1 (@mexp ((1 + 1) + (1 + 1))) (1, 1)%N L 2 (0%Re, 0%Re) (fun name => if String.eqb name "rod" then Some bar else None) [::] 1 "rod" A.
  exists (fun name => if String.eqb name "rod" then Some A else None); last by [].
  by move=> name; case: (String.eqb name "rod") => //; exists A.
have eB : B = A by rewrite /B -(@wavesE 1 0 1 same_names (1, 1)%N L nm 1 erefl (0%Re, 0%Re)) waves_same trmx1 mul1mx mulmx1.
have bars layer q : (if String.eqb layer "rod" then Some bar else None) = Some q -> absorbing_recipe 1 1 q.
  by case: (String.eqb layer "rod") => // -[<-]; exact: bar_absorbs.
have [T [A' [I' [hA' hI hT]]]] := pile_closes one0 one0 hL fits hexp t0 (r := 1%Re) (r' := 4%Re) erefl one0 erefl (esym (one_ng hL)) all bars hP' ltac:(lra).
exists L, T; split=> //.
- by split=> //; exact: roll_square.
- move=> name; rewrite /rod_layer; case: (String.eqb name "rod") => //; split=> //; first by left.
  by constructor=> //; split=> //=; split=> //; rewrite /turn /=; congr (_, _); ring.
split; [|by rewrite /tmat_incident /=; eexists|by rewrite /tmat_incident /=; eexists].
by exists B, I'; split=> //; rewrite eB -(pile_unique hA' hP').
Qed.
