(** Lemmas for C112-C114: turned piles, their powers and determinants (T-matrix API). *)
From Coq Require Import Reals ZArith Lra Lia String FunctionalExtensionality.
From mathcomp Require Import all_ssreflect all_fingroup all_algebra.
From Coquelicot Require Import Complex.
From Verif Require Import Base CField CFun ModelRedheffer SpecScatter ModelExpansion SpecExpansion ModelFourier SpecFourier FourierProofs Blk ModelDevice ModelTmat SpecTmat TmatProofs ModelLattice SpecLattice LatticeProofs LookupProofs
  SpecExp ExpProofs ModelEz TableProofs SpecScale SpecSym TurnProofs SpecBloch ShiftExamples PolConj SpecTurn TmatTurn TmatTurn2 TmatTurn3 TmatTurn4.
Set Implicit Arguments. Unset Strict Implicit. Unset Printing Implicit Defensive.
Import GRing.Theory.
Local Open Scope ring_scope.

Section Pile.
Variables a b s : R.
Hypothesis iso : isometry a b s.
Notation tn := (turn a b s).
Variables (t : naming) (p : nat * nat) (a1 a2 : vec2) (ei ee : num) (L L' : lattice).
Hypothesis ht : nameable t p.
Hypothesis hf : window_fits p.
Hypothesis hL : mk_lattice p a1 a2 ei ee = Ok L.
Hypothesis hL' : mk_lattice p (renamed t (tn a1, tn a2)).1 (renamed t (tn a1, tn a2)).2 ei ee = Ok L'.
Variable n : nat.
Hypothesis hn : n = (p.1 * p.2)%N.
Notation r := (rn ht hn).
Lemma wavesE kp : turned_waves a b s t p L kp = Dm a b s L kp r.
Proof.
by rewrite D_halves /turned_waves /dd; congr block_mx; rewrite /turned_half /half_turn; congr block_mx; apply/matrixP => i j; rewrite !mxE.
Qed.
Lemma waves_ortho kp : turned_waves a b s t p L kp *m (turned_waves a b s t p L kp)^T = 1%:M :> 'M[C]_((n + n) + (n + n)).
Proof. rewrite wavesE; exact: (D_ortho iso L kp (@rn_inj _ _ ht _ hn)). Qed.
Let rg (g : 'I_n) : l_g L' (r g) = tn (l_g L g) := rn_g iso ht hL hL' hn g.
Section Matrices.
Variables (J1 : R -> R) (expm : 'M[C]_((n + n) + (n + n)) -> 'M[C]_((n + n) + (n + n))) (wl : R) (kp : vec2).
Variables (q q' : string -> option recipe) (stacking : stackings) (d : nat) (name : string).
Hypotheses (hx : is_expm expm) (htn : turnable b L wl kp) (hq : recipes_turned a b s (l_b L) q q').
Notation W := (turned_waves a b s t p L kp).
Let con := con2 (half_turn a b s L kp r true) (half_turn a b s L kp r true)^T (half_turn a b s L kp r false) (half_turn a b s L kp r false)^T.
Let conW S : con S = W *m S *m W^T. Proof. by rewrite /con conE wavesE. Qed.
Let id1 := half_ortho iso L kp (@rn_inj _ _ ht _ hn) true.
Let id2 := half_ortho iso L kp (@rn_inj _ _ ht _ hn) false.
Lemma pile_turned S : pile_at J1 expm p L wl kp q stacking d name S -> pile_at J1 expm p L' wl (tn kp) q' stacking d name (W *m S *m W^T).
Proof.
move=> [req hr hS]; exists (fun nm => omap con (req nm)); last by rewrite (@stackG _ _ _ _ _ _ id1 id2 _ _ _ (fun nm => erefl _)) hS /= -/con conW.
move=> nm; have := hr nm; have := hq nm; case: (q nm) => [[[[isl host] dp] pow]|]; case: (q' nm) => [[[[isl' host'] dp'] pow']|] //; last by move=> _ ->.
move=> h [M -> hM]; have [e1 e2 e3 _ _] := h; rewrite e1 e2 e3 in h *; exists (con M) => //.
by rewrite conW wavesE; exact: (layer_turned iso ht hf hL hL' hn hx htn h hM).
Qed.
Lemma closed_turned S : closed_at J1 expm p L wl kp q stacking d name S -> closed_at J1 expm p L' wl (tn kp) q' stacking d name (W *m S *m W^T).
Proof.
have [hi' he'] := incid' hL hL'.
move=> [A [B [hA hB hS]]]; exists (W *m A *m W^T), (W *m B *m W^T); split; first exact: pile_turned.
  by rewrite wavesE; exact: (interface_turn iso (@rn_inj _ _ ht _ hn) rg (hn' hf hL' hn) hi' he' htn hB).
by rewrite -!conW /con (@multSG _ _ _ _ _ _ id1 id2) hS.
Qed.
Lemma pile_turn S S' : pile_at J1 expm p L wl kp q stacking d name S -> (pile_at J1 expm p L' wl (tn kp) q' stacking d name S' <-> S' = W *m S *m W^T).
Proof. by move=> hS; have h := pile_turned hS; split=> [h'|->]; [exact: pile_unique h' h|]. Qed.
Lemma closed_turn S S' : closed_at J1 expm p L wl kp q stacking d name S -> (closed_at J1 expm p L' wl (tn kp) q' stacking d name S' <-> S' = W *m S *m W^T).
Proof. by move=> hS; have h := closed_turned hS; split=> [h'|->]; [exact: closed_unique h' h|]. Qed.
End Matrices.

(** What turning leaves unchanged. *)
Lemma det_turned kp (S : 'M[C]_((n + n) + (n + n))) : \det (turned_waves a b s t p L kp *m S *m (turned_waves a b s t p L kp)^T) = \det S.
Proof.
have := waves_ortho kp => /(congr1 determinant); rewrite det_mulmx det1 => h.
by rewrite !det_mulmx mulrAC h mul1r.
Qed.
Lemma bloch_turned kp (S : 'M[C]_((n + n) + (n + n))) w v : bloch_wave S w v ->
  bloch_wave (turned_waves a b s t p L kp *m S *m (turned_waves a b s t p L kp)^T) w (turned_waves a b s t p L kp *m v).
Proof.
move=> [v0 hv]; have h := waves_ortho kp; have h' := mulmx1C h; split.
  by apply: contraNneq v0 => e; rewrite -[v]mul1mx -h' -mulmxA e mulmx0.
have eD (x y : 'cV[C]_(n + n)) : turned_waves a b s t p L kp *m col_mx x y = col_mx (turned_half a b s t p L kp true *m x) (turned_half a b s t p L kp false *m y).
  by rewrite /turned_waves mul_block_col !mul0mx addr0 add0r.
have ev : turned_waves a b s t p L kp *m v = col_mx (turned_half a b s t p L kp true *m usubmx v) (turned_half a b s t p L kp false *m dsubmx v) by rewrite -{1}[v]vsubmxK eD.
move: hv; rewrite /tscatters ev col_mxKu col_mxKd !scalemxAr -!eD => ->.
by rewrite -!mulmxA [_^T *m _]mulmxA h' mul1mx.
Qed.
Lemma bloch_turn kp (S : 'M[C]_((n + n) + (n + n))) w : (exists v, bloch_wave S w v) <->
  (exists v, bloch_wave (turned_waves a b s t p L kp *m S *m (turned_waves a b s t p L kp)^T) w v).
Proof.
split=> -[v hv]; first by eexists; exact: bloch_turned hv.
have h := waves_ortho kp; have h' := mulmx1C h; set W := turned_waves a b s t p L kp in h h' hv *.
case: hv => v0 hv; exists (W^T *m v); split.
  by apply: contraNneq v0 => e; rewrite -[v]mul1mx -h -mulmxA e mulmx0.
have eT (x y : 'cV[C]_(n + n)) : W^T *m col_mx x y = col_mx ((turned_half a b s t p L kp true)^T *m x) ((turned_half a b s t p L kp false)^T *m y).
  by rewrite /W /turned_waves tr_block_mx !trmx0 mul_block_col !mul0mx addr0 add0r.
have ev : W^T *m v = col_mx ((turned_half a b s t p L kp true)^T *m usubmx v) ((turned_half a b s t p L kp false)^T *m dsubmx v) by rewrite -{1}[v]vsubmxK eT.
move: hv; rewrite /tscatters ev col_mxKu col_mxKd !scalemxAr -!eT => ->.
by rewrite -!mulmxA [W^T *m (W *m _)]mulmxA h' mul1mx.
Qed.

(** Powers. *)
Lemma mono_col (f : 'I_n -> C) (z : 'cV[C]_n) g : (mono r f *m z) (r g) 0 = f g * z g 0.
Proof.
rewrite mxE (bigD1 g) //= mxE eqxx big1 ?addr0 // => k hk; rewrite mxE (inj_eq (@rn_inj _ _ ht _ hn)) eq_sym (negbTE hk) mul0r //.
Qed.
Lemma two_turned kp up (z : 'cV[C]_(n + n)) (g : 'I_n) :
  (ModelLattice.sqmod (usubmx (turned_half a b s t p L kp up *m z) (r g) 0%R) + ModelLattice.sqmod (dsubmx (turned_half a b s t p L kp up *m z) (r g) 0%R) =
   ModelLattice.sqmod (usubmx z g 0%R) + ModelLattice.sqmod (dsubmx z g 0%R))%Re.
Proof.
have -> : turned_half a b s t p L kp up = half_turn a b s L kp r up.
  by rewrite /turned_half /half_turn; congr block_mx; apply/matrixP => i j; rewrite !mxE.
have [h1 h2] := iso; have hs : (s * s = 1)%Re by case: h2 => ->; ring.
rewrite /half_turn -{1 2}[z]vsubmxK mul_block_col col_mxKu col_mxKd ![(_ + _ : 'cV[C]_n) _ _]mxE !mono_col.
move: (usubmx z g 0) (dsubmx z g 0) => x y; rewrite !CurrentProofs.sqmodE /pol_turn.
case: (tiny _) => /=; last by ring [hs].
have ha : (a * a = 1 - b * b)%Re by lra.
by case: up; ring [hs ha].
Qed.
Lemma currents_turned kp k0 wl (pin pout : 'cV[C]_((n + n) + (n + n))) j : compute_currents pin pout L wl k0 = Ok j ->
  exists2 j', compute_currents (turned_waves a b s t p L kp *m pin) (turned_waves a b s t p L kp *m pout) L' wl (tn k0) = Ok j' &
  forall g, [/\ j'.1.1 (r g) = j.1.1 g, j'.1.2 (r g) = j.1.2 g & j'.2 (r g) = j.2 g].
Proof.
have [hi' he'] := incid' hL hL'; have ha := turned_area iso hL hL'.
have eD P : turned_waves a b s t p L kp *m P = col_mx (turned_half a b s t p L kp true *m usubmx P) (turned_half a b s t p L kp false *m dsubmx P).
  by rewrite -{1}[P]vsubmxK /turned_waves mul_block_col !mul0mx addr0 add0r.
rewrite /compute_currents -(hn' hf hL' hn) eqxx; case: ifP => // _; case: Req_EM_T => // w0; cbn [negb] => h; have {h} e := Ok_inj h; subst j.
eexists; first by []. 
move=> g; cbv beta; cbn [fst snd]; rewrite !rg !turn_kz // hi' he' ha !eD /quarter_of !col_mxKu !col_mxKd !two_turned; split=> //.
Qed.
Lemma fluxes_turned kp wl (pin pout : 'cV[C]_((n + n) + (n + n))) k k' :
  n = l_ng L -> compute_fluxes L' wl (turned_waves a b s t p L kp *m pin) (turned_waves a b s t p L kp *m pout) k' = compute_fluxes L wl pin pout k.
Proof.
move=> hnL; rewrite /compute_fluxes.
have z : (0%Re, 0%Re) = tn (0%Re, 0%Re) by rewrite /turn /=; congr (_, _); ring.
case hj : (compute_currents pin _ _ _ _) => [j|e]; last first.
  suff -> : compute_currents (turned_waves a b s t p L kp *m pin) (turned_waves a b s t p L kp *m pout) L' wl (0%Re, 0%Re) = Err e by [].
  by move: hj; rewrite /compute_currents -(hn' hf hL' hn) -hnL eqxx; case: Req_EM_T.
have [j' hj' e] := currents_turned kp hj; rewrite -z in hj'; rewrite hj'; cbn [bind].
case: j hj e => [[x1 x2] x3] _; case: j' hj' => [[y1 y2] y3] _ e.
have sm (x y : 'I_n -> C) : (forall g, y (r g) = x g) -> \sum_(g < n) y g = \sum_(g < n) x g.
  by move=> h; rewrite (reindex_inj (@rn_inj _ _ ht _ hn)); apply: eq_bigr => g _; rewrite h.
by rewrite !(sm x1 y1) ?(sm x2 y2) ?(sm x3 y3) // => g; have [] := e g.
Qed.
(** The incident wave. *)
Lemma zero_place : (0 < p.1)%N -> new_place t p (p.1 %/ 2 + p.1 * (p.2 %/ 2)) = (p.1 %/ 2 + p.1 * (p.2 %/ 2))%N.
Proof.
move=> p0; have lt : (p.1 %/ 2 < p.1)%N by apply: ltn_Pdiv.
have rv (c : bool) q : (c -> odd q) -> reversed c q (q %/ 2) = (q %/ 2)%N.
  rewrite /reversed; case: c => // /(_ isT) o; have := divn_eq q 2; rewrite modn2 o -[nat_of_bool true]/1%N; move: (q %/ 2)%N => h e; nlia.
have e1 : ((p.1 %/ 2 + p.1 * (p.2 %/ 2)) %% p.1 = p.1 %/ 2)%N by rewrite addnC mulnC modnMDl modn_small.
have e2 : ((p.1 %/ 2 + p.1 * (p.2 %/ 2)) %/ p.1 = p.2 %/ 2)%N by rewrite addnC mulnC divnMDl // (divn_small lt) addn0.
rewrite /new_place e1 e2 (rv _ _ (@odd1 _ _ ht)) (rv _ _ (@odd2 _ _ ht)); case hs : (swapped t) => //; by rewrite (ht.2 hs).
Qed.
Lemma incident_turned kp E0 pp sp pin : tmat_incident n p E0 pp sp = Ok pin ->
  let f to from := RtoC (pol_turn a b s true kp to from) in
  tmat_incident n p E0 (f true false * sp + f true true * pp) (f false false * sp + f false true * pp) = Ok (turned_waves a b s t p L kp *m pin).
Proof.
rewrite /tmat_incident; case: eqP => // _; case: ltnP => // lt h; have {h} e := Ok_inj h; subst pin; pose f to from := RtoC (pol_turn a b s true kp to from).
have p0 : (0 < p.1)%N by move: lt; rewrite hn; case: p.1.
congr Ok; rewrite /turned_waves mul_block_col !mul0mx addr0 add0r; congr col_mx; last by rewrite col_mx0 mulmx0.
rewrite /turned_half mul_block_col.
set o := (p.1 %/ 2 + p.1 * (p.2 %/ 2))%N in lt *; pose go : 'I_n := Ordinal lt.
have ug : uvec kp (l_g L go) = kp by rewrite (window_zero hL p0) /uvec /= !Rplus_0_r; case: (kp).
have main to from v : (\matrix_(i, j) (if (i : nat) == new_place t p j then RtoC (pol_turn a b s true (uvec kp (l_g L j)) to from) else 0) : 'M[C]_n) *m
    (\col_(g < n) (if (g : nat) == o then v else 0)) = \col_(g < n) (if (g : nat) == o then f to from * v else 0).
  apply/colP => i; rewrite [LHS]mxE (bigD1 go) //= big1 ?addr0; last first.
    move=> k hk; rewrite [X in _ * X]mxE; case: eqP => // e; last by rewrite mulr0.
    by move: hk; rewrite -val_eqE /= e eqxx.
  by rewrite !mxE eqxx zero_place // ug; case: eqP => _; rewrite ?mul0r.
congr col_mx; rewrite !main; apply/colP => i; rewrite !mxE; case: eqP => _; rewrite ?addr0 // /f; cring.
Qed.
Lemma closed_fluxes J1 (expm : 'M[C]_((n + n) + (n + n)) -> 'M[C]_((n + n) + (n + n))) wl kp q q' stacking d name S S' E0 pp sp pin k k' :
  is_expm expm -> turnable b L wl kp -> recipes_turned a b s (l_b L) q q' -> closed_at J1 expm p L wl kp q stacking d name S ->
  closed_at J1 expm p L' wl (tn kp) q' stacking d name S' -> tmat_incident n p E0 pp sp = Ok pin ->
  let f to from := RtoC (pol_turn a b s true kp to from) in
  exists2 pin', tmat_incident n p E0 (f true false * sp + f true true * pp) (f false false * sp + f false true * pp) = Ok pin' &
  compute_fluxes L' wl pin' (S' *m pin') k' = compute_fluxes L wl pin (S *m pin) k.
Proof.
move=> hx htn hq hS /(closed_turn hx htn hq _ hS) -> hp; eexists; first exact: incident_turned hp.
rewrite -!mulmxA [_^T *m _]mulmxA (mulmx1C (waves_ortho kp)) mul1mx; apply: fluxes_turned.
by rewrite hn (window_ng hL hf).
Qed.
End Pile.

(** Piles equal to their images. *)
Section Symmetric.
Variables a b s : R.
Hypothesis iso : isometry a b s.
Notation tn := (turn a b s).
Variables (t : naming) (p : nat * nat) (a1 a2 : vec2) (ei ee : num) (L : lattice).
Hypothesis ht : nameable t p.
Hypothesis hf : window_fits p.
Hypothesis hL : mk_lattice p a1 a2 ei ee = Ok L.
Hypothesis hs : renamed t (tn a1, tn a2) = (a1, a2).
Variable n : nat.
Hypothesis hn : n = (p.1 * p.2)%N.
Variables (J1 : R -> R) (expm : 'M[C]_((n + n) + (n + n)) -> 'M[C]_((n + n) + (n + n))) (wl : R) (kp : vec2).
Variables (q : string -> option recipe) (stacking : stackings) (d : nat) (name : string).
Hypotheses (hx : is_expm expm) (htn : turnable b L wl kp) (hq : recipes_turned a b s (l_b L) q q) (hk : tn kp = kp).
Notation W := (turned_waves a b s t p L kp).
Let hL' : mk_lattice p (renamed t (tn a1, tn a2)).1 (renamed t (tn a1, tn a2)).2 ei ee = Ok L.
Proof. by rewrite hs. Qed.
Let comm (S : 'M[C]_((n + n) + (n + n))) : S = W *m S *m W^T -> S *m W = W *m S.
Proof. by move=> e; rewrite {1}e -!mulmxA (mulmx1C (waves_ortho iso L ht hn kp)) mulmx1. Qed.
Lemma pile_symmetric S : pile_at J1 expm p L wl kp q stacking d name S -> S *m W = W *m S.
Proof. move=> hS; apply: comm; apply/(pile_turn iso ht hf hL hL' hn hx htn hq S hS); by rewrite hk. Qed.
Lemma closed_symmetric S : closed_at J1 expm p L wl kp q stacking d name S -> S *m W = W *m S.
Proof. move=> hS; apply: comm; apply/(closed_turn iso ht hf hL hL' hn hx htn hq S hS); by rewrite hk. Qed.
Lemma fluxes_symmetric S E0 pp sp pin k : closed_at J1 expm p L wl kp q stacking d name S -> tmat_incident n p E0 pp sp = Ok pin ->
  let f to from := RtoC (pol_turn a b s true kp to from) in
  exists2 pin', tmat_incident n p E0 (f true false * sp + f true true * pp) (f false false * sp + f false true * pp) = Ok pin' &
  compute_fluxes L wl pin' (S *m pin') k = compute_fluxes L wl pin (S *m pin) k.
Proof. by move=> hS hp; apply: (closed_fluxes iso ht hf hL hL' hn k k hx htn hq hS _ hp); rewrite hk. Qed.
End Symmetric.
Lemma quarter_fluxes t p a1 a2 ei ee L n J1 (expm : 'M[C]_((n + n) + (n + n)) -> 'M[C]_((n + n) + (n + n))) wl q stacking d name S E0 pp sp pin pin' k :
  nameable t p -> window_fits p -> mk_lattice p a1 a2 ei ee = Ok L -> renamed t (turn 0 1 1 a1, turn 0 1 1 a2) = (a1, a2) -> n = (p.1 * p.2)%N ->
  is_expm expm -> turnable 1 L wl (0%Re, 0%Re) -> recipes_turned 0 1 1 (l_b L) q q -> closed_at J1 expm p L wl (0%Re, 0%Re) q stacking d name S ->
  tmat_incident n p E0 pp sp = Ok pin -> tmat_incident n p E0 sp (- pp) = Ok pin' ->
  compute_fluxes L wl pin' (S *m pin') k = compute_fluxes L wl pin (S *m pin) k.
Proof.
move=> ht hf hL hs hn hx htn hq hS hp hp'.
have iso : isometry 0 1 1 by split; [ring|left].
have hk : turn 0 1 1 (0%Re, 0%Re) = (0%Re, 0%Re) by rewrite /turn /=; congr (_, _); ring.
have [pin'' e1 e2] := fluxes_symmetric iso ht hf hL hs hn hx htn hq hk k hS hp.
suff e : pin'' = pin' by rewrite -e e2.
move: e1; rewrite /pol_turn (_ : tiny (0%Re, 0%Re) = true); last first.
  by rewrite /tiny /=; case: Rlt_dec => // h; exfalso; apply: h; rewrite !Rmult_0_l Rplus_0_r; apply: Rinv_0_lt_compat; lra.
move=> e1; apply: Ok_inj; rewrite -e1 -hp'; congr tmat_incident; apply: C_ext => /=; ring.
Qed.
