(** Lemmas for C110: what the displacement leaves unchanged, and an example. *)
From Coq Require Import Reals ZArith Lra Lia String FunctionalExtensionality.
From mathcomp Require Import all_ssreflect all_fingroup all_algebra.
From Coquelicot Require Import Complex.
From Verif Require Import Base CField CFun ModelRedheffer SpecScatter ModelExpansion SpecExpansion ModelFourier SpecFourier FourierProofs Blk ModelDevice ModelTmat SpecTmat TmatProofs ModelLattice SpecLattice LatticeProofs LookupProofs
  SpecExp ExpProofs ModelEz TableProofs SpecScale SpecSym MoveProofs FieldsProofs SpecBloch TmatEnergyProofs BlochProofs SpecLoss TmatExamples LossPiles DetProofs ConjProofs SpecShift ShiftProofs.
Set Implicit Arguments. Unset Strict Implicit. Unset Printing Implicit Defensive.
Import GRing.Theory.
Local Open Scope ring_scope.

Lemma pile_unique J1 n (expm : 'M[C]_((n + n) + (n + n)) -> 'M[C]_((n + n) + (n + n))) p L wl kp recipes stacking d name S S' :
  pile_at J1 expm p L wl kp recipes stacking d name S -> pile_at J1 expm p L wl kp recipes stacking d name S' -> S = S'.
Proof.
move=> [q hq hS] [q' hq' hS']; have e : q = q'.
  apply: functional_extensionality => nm; have := hq nm; have := hq' nm; case: (recipes nm) => [[[[isl host] dp] pow]|]; last by move=> -> ->.
  by move=> [M -> h] [M' -> h']; move: h; rewrite h' => -[->].
by move: hS; rewrite e hS' => -[].
Qed.
Lemma closed_unique J1 n (expm : 'M[C]_((n + n) + (n + n)) -> 'M[C]_((n + n) + (n + n))) p L wl kp recipes stacking d name S S' :
  closed_at J1 expm p L wl kp recipes stacking d name S -> closed_at J1 expm p L wl kp recipes stacking d name S' -> S = S'.
Proof.
move=> [A [B [hA hB hS]]] [A' [B' [hA' hB' hS']]]; move: hS hS'; rewrite (pile_unique hA hA'); move: hB; rewrite hB' => -[->] -> [].
by [].
Qed.

Section Moved.
Variables (r : vec2) (p : nat * nat) (a1 a2 : vec2) (ei ee : num) (L : lattice).
Hypotheses (hL : mk_lattice p a1 a2 ei ee = Ok L) (hf : window_fits p).
Variables (J1 : R -> R) (n : nat) (expm : 'M[C]_((n + n) + (n + n)) -> 'M[C]_((n + n) + (n + n))) (wl : R) (kp : vec2).
Variables (recipes : string -> option recipe) (stacking : stackings) (d : nat) (name : string).
Hypotheses (hx : is_expm expm) (hd : discs_resolved (l_b L) recipes).
Lemma pile_shift S S' : pile_at J1 expm p L wl kp recipes stacking d name S ->
  (pile_at J1 expm p L wl kp (recipes_moved r recipes) stacking d name S' <->
   S' = each_order (fun g : 'I_n => phase_of r (l_g L g)) *m S *m each_order (fun g : 'I_n => phase_of (back r) (l_g L g))).
Proof.
move=> hS; have h := pile_moved r hL hf hx hd hS; split=> [h'|->]; last exact: h.
exact: pile_unique h' h.
Qed.
Lemma closed_shift S S' : closed_at J1 expm p L wl kp recipes stacking d name S ->
  (closed_at J1 expm p L wl kp (recipes_moved r recipes) stacking d name S' <->
   S' = each_order (fun g : 'I_n => phase_of r (l_g L g)) *m S *m each_order (fun g : 'I_n => phase_of (back r) (l_g L g))).
Proof.
move=> hS; have h := closed_moved r hL hf hx hd hS; split=> [h'|->]; last exact: h.
exact: closed_unique h' h.
Qed.
Lemma undo (S S' : 'M[C]_((n + n) + (n + n))) : S' = D r L *m S *m Di r L -> S = D (back r) L *m S' *m Di (back r) L.
Proof.
have bb : back (back r) = r by rewrite /back; case: (r) => x y /=; congr (_, _); ring.
have e1 : Di r L = @D (back r) L n by [].
have e2 : @Di (back r) L n = D r L by rewrite /Di /D bb.
by move=> ->; rewrite e2 -e1 !mulmxA (mulmx1C (DDi r L n)) mul1mx -mulmxA (mulmx1C (DDi r L n)) mulmx1.
Qed.
Lemma shift_bloch (S S' : 'M[C]_((n + n) + (n + n))) w : S' = D r L *m S *m Di r L -> ((exists v, bloch_wave S w v) <-> (exists v, bloch_wave S' w v)).
Proof.
move=> e; split=> -[v hv]; first by exists (D r L *m v); rewrite e; exact: bloch_moved.
by exists (D (back r) L *m v); rewrite (undo e); exact: bloch_moved.
Qed.
Lemma closed_same S S' : closed_at J1 expm p L wl kp recipes stacking d name S ->
  closed_at J1 expm p L wl kp (recipes_moved r recipes) stacking d name S' ->
  \det S' = \det S /\ forall E0 pp sp pin kp', tmat_incident n p E0 pp sp = Ok pin ->
    compute_fluxes L wl pin (S' *m pin) kp' = compute_fluxes L wl pin (S *m pin) kp' /\
    compute_currents pin (S' *m pin) L wl kp' = compute_currents pin (S *m pin) L wl kp'.
Proof.
move=> hS /(closed_shift _ hS) ->; split; first exact: det_moved.
move=> E0 pp sp pin kp' hp; split; first exact: (fluxes_moved r hL _ _ _ hp).
by rewrite -mulmxA (incident_moved r hL hp) -mulmxA currents_moved.
Qed.
Lemma pile_same S S' w : pile_at J1 expm p L wl kp recipes stacking d name S ->
  pile_at J1 expm p L wl kp (recipes_moved r recipes) stacking d name S' ->
  ((exists v, bloch_wave S w v) <-> (exists v, bloch_wave S' w v)).
Proof. move=> hS /(pile_shift _ hS); exact: shift_bloch. Qed.
End Moved.

(** Displacements by vectors of the lattice. *)
Lemma phase_lattice p a1 a2 ei ee L (i j : Z) g : mk_lattice p a1 a2 ei ee = Ok L ->
  phase_of (on_lattice (a1, a2) (IZR i) (IZR j)) (l_g L g) = 1 /\ phase_of (back (on_lattice (a1, a2) (IZR i) (IZR j))) (l_g L g) = 1.
Proof.
move=> hL; have [_ _ _ hb _] := mk_latticeE hL; set v := on_lattice _ _ _.
have h : phase_of v (l_g L g) = 1.
  rewrite phase_dot /l_g /w_flat (window_rows hL).1 (window_at hL); set m1 := Z.sub _ _; set m2 := Z.sub _ _.
  rewrite -[order_vector _ _ _]/(gof (l_b L) (m1, m2)) (@on_lattice_dot (a1, a2) _ _ _ _ hb) /=.
  rewrite -(FourierProofs.cexp_2kPI (Z.add (Z.mul m1 i) (Z.mul m2 j))); congr (cexp (- (ci * RtoC _))).
  by rewrite plus_IZR !mult_IZR; ring.
by split=> //; have := phase_inv v (l_g L g); rewrite h mul1r.
Qed.
Lemma pile_period p a1 a2 ei ee L J1 n (expm : 'M[C]_((n + n) + (n + n)) -> 'M[C]_((n + n) + (n + n))) wl kp recipes stacking d name S i j :
  mk_lattice p a1 a2 ei ee = Ok L -> window_fits p -> is_expm expm -> discs_resolved (l_b L) recipes ->
  pile_at J1 expm p L wl kp recipes stacking d name S ->
  pile_at J1 expm p L wl kp (recipes_moved (on_lattice (a1, a2) (IZR i) (IZR j)) recipes) stacking d name S.
Proof.
move=> hL hf hx hd hS; apply/(pile_shift _ hL hf hx hd _ hS).
have e (f : 'I_n -> C) : (forall g, f g = 1) -> each_order f = 1%:M.
  move=> h; rewrite /each_order (_ : (\row_g f g) = const_mx 1); last by apply/rowP => g; rewrite !mxE h.
  by rewrite !row_mx_const diag_const_mx.
by rewrite !e ?mul1mx ?mulmx1 // => g; have [] := phase_lattice i j g hL.
Qed.

(** * An example: a wall in a window of 2 x 2 orders that all propagate *)
Lemma wall_example J1 : exists L S, let expm := @mexp ((4 + 4) + (4 + 4)) in let kp := (0%Re, 0%Re) in let wl := (/ 2)%Re in let r := ((/ 4)%Re, 0%Re) in
  [/\ mk_lattice (2, 2)%N (1%Re, 0%Re) (0%Re, 1%Re) (Float 1) (Float 1) = Ok L, is_expm expm,
      pile_at J1 expm (2, 2)%N L wl kp (pane_layer 1) [::] 1 "pane" S, closed_at J1 expm (2, 2)%N L wl kp (pane_layer 1) [::] 1 "pane" S &
      [/\ discs_resolved (l_b L) (pane_layer 1), is_ok (@tmat_incident 4 (2, 2)%N 1 0 1) & phase_of r (l_g L 0) <> 1]].
Proof.
have x0 : (0 <= 1)%Re by lra.
have [L hL] := @mk_lattice_ok (2, 2)%N (Float 1) (Float 1) erefl.
have hexp : is_expm (@mexp ((4 + 4) + (4 + 4))) by exact: mexpP.
have fits : window_fits (2, 2)%N by left.
have p0 := PI_RGT_0; have t0 : (0 < / 2)%Re by lra.
have one0 : (0 < 1)%Re by lra.
have [_ _ _ _ [mi me _ _ _]] := mk_latticeE hL.
have ng : l_ng L = 4%N by rewrite (window_ng hL fits).
have gE (g : nat) : l_g L g = ((IZR (Z.sub (Z.of_nat (g %% 2)%N) 1) * twopi)%Re, (IZR (Z.sub (Z.of_nat (g %/ 2)%N) 1) * twopi)%Re).
  rewrite /l_g /w_flat (window_rows hL).1 (window_at hL) (zero_lattice hL) /order_vector /=.
  by congr (_, _); ring.
have pos (g : nat) : (g < 4)%N -> (0 < 1 * (2 * PI / (/ 2)) ^ 2 - ((0 + (l_g L g).1) ^ 2 + (0 + (l_g L g).2) ^ 2))%Re.
  by case: g => [|[|[|[|g]]]] // _; rewrite gE /twopi /=; (have -> : (2 * PI / (/ 2) = 4 * PI)%Re by field); nra.
have all : all_propagate 4 L (/ 2) (0%Re, 0%Re).
  move=> g; have h := pos g (ltn_ord g); have h' := sqrt_lt_R0 _ h.
  rewrite mi (@kz_value (Float 1) 1 (/ 2) (0%Re, 0%Re) (l_g L g) _ erefl (Rlt_le _ _ h')); first by split; [by []|exact: Rgt_not_eq].
  by rewrite sqrt_sqrt //; exact: Rlt_le.
have [A hA] : is_ok (scattering_matrix_islands J1 (@mexp ((4 + 4) + (4 + 4))) (2, 2)%N L (pane 1).1.1.1 (pane 1).1.1.2 (/ 2) (0%Re, 0%Re) (pane 1).1.2 (pane 1).2).
  apply: (layer_ok J1 one0 one0 hL fits hexp t0 _ _ _ _ all (r := 1%Re)) => //; [exact: (pane_absorbs (layer := "pane") x0)| |by rewrite mi].
  split; first by apply/eqP => /(congr1 fst) /=; lra.
  by move=> s e /= [[_ <-]|[]]; apply/eqP => /(congr1 fst) /=; lra.
have hP : pile_at J1 (@mexp ((4 + 4) + (4 + 4))) (2, 2)%N L (/ 2) (0%Re, 0%Re) (pane_layer 1) [::] 1 "pane" A.
  exists (fun name => if String.eqb name "pane" then Some A else None); last by [].
  by move=> name; rewrite /pane_layer; case: (String.eqb name "pane") => //; exists A.
exists L, A; split=> //.
  exists A, 1%:M; split=> //; last exact: multS_1r.
  apply: equal_media_def; rewrite ?mi ?me ?ng //=; [lra|by apply/eqP => /(congr1 fst) /=; lra|].
  by move=> g; rewrite ng => hg /(congr1 fst) /= e; have := pos g hg; move: e => /=; lra.
split.
- by move=> nm q; rewrite /pane_layer; case: (String.eqb nm "pane") => // -[<-].
- by rewrite /tmat_incident /=; eexists.
rewrite gE /phase_of.
set z := - _; have -> : z = (0%Re, (PI / 2)%Re) by rewrite /z /twopi; apply: C_ext => /=; field.
by move/(congr1 fst); rewrite /cexp /= cos_PI2 Rmult_0_r; lra.
Qed.
