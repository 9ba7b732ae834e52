(** Lemmas for C115: piles with all lengths multiplied by [s] (T-matrix API). *)
From Coq Require Import Reals ZArith Lra Lia String FunctionalExtensionality.
From mathcomp Require Import all_ssreflect all_fingroup all_algebra.
From Coquelicot Require Import Complex.
From Verif Require Import Base CField CFun ModelRedheffer SpecScatter ModelExpansion SpecExpansion ModelFourier Blk ModelDevice ModelTmat ModelLattice SpecLattice LatticeProofs
  SpecExp ExpProofs ModelEz SpecScale SpecSym SpecBloch CurrentProofs ScaleProofs PolConj SpecTurn TmatTurn TmatTurn2 SpecTscale TmatScale.
Set Implicit Arguments. Unset Strict Implicit. Unset Printing Implicit Defensive.
Import GRing.Theory.
Local Open Scope ring_scope.

Section Scale.
Variable s : R.
Hypothesis s0 : (0 < s)%Re.
Notation sl := (slower s).
Let t : R := (/ s)%Re.
Let t0 : (0 < t)%Re. Proof. exact: Rinv_0_lt_compat. Qed.
Let sne : s <> 0%Re. Proof. lra. Qed.
Let st : (s * t = 1)%Re. Proof. exact: Rinv_r. Qed.

Section L.
Variables (L : lattice) (wl : R) (kp : vec2).
Notation L' := (wide_lattice s L).
Hypothesis hf : same_frames s L kp.
Lemma sliced_longer k expm (U A V : 'M[C]_(k + k)) d pow :
  @sliced_layer C_fieldType k expm U (RtoC t *: A) V (RtoC (s * d)%Re) pow = sliced_layer expm U A V (RtoC d) pow.
Proof.
rewrite /sliced_layer; have -> : (RtoC (s * d)%Re / 2%:R ^+ pow) *: - (RtoC t *: A) = (RtoC d / 2%:R ^+ pow) *: - A; last by reflexivity.
rewrite -scalerN scalerA; congr (_ *: _); rewrite ScaleProofs.RtoC_mul.
have es : RtoC s * RtoC t = 1 by rewrite -ScaleProofs.RtoC_mul st.
by rewrite -[RtoC s * _ / _]mulrA [RtoC s * _]mulrC -mulrA es mulr1.
Qed.
Lemma wide_data J1 isl : (forall i j, exists m1 m2, w_at (l_G L) i j = order_vector (l_b L) m1 m2) ->
  (has_disc isl -> resolved (l_b L) /\ resolved (sl (l_b L).1, sl (l_b L).2)) ->
  mapM (fun i => do t1 <- grid_transform J1 i.1 (l_G L') (l_area L'); Ok (t1, i.2)) (longer_islands s isl) =
  mapM (fun i => do t1 <- grid_transform J1 i.1 (l_G L) (l_area L); Ok (t1, i.2)) isl.
Proof.
move=> hg; elim: isl => [|x isl IH] hr; first by [].
cbn [longer_islands map mapM fst snd].
rewrite (@wide_table s s0 L J1 x.1 (l_b L) hg); last by move=> hd; apply: hr; rewrite /has_disc /= hd.
case: (grid_transform _ _ _ _) => [t1|//]; cbn [bind]; rewrite -/(longer_islands s isl) IH //.
by move=> hd; apply: hr; rewrite /has_disc /= -/(has_disc isl) hd orbT.
Qed.
Lemma wide_layer J1 n expm p isl host d pow : (forall i j, exists m1 m2, w_at (l_G L) i j = order_vector (l_b L) m1 m2) ->
  (has_disc isl -> resolved (l_b L) /\ resolved (sl (l_b L).1, sl (l_b L).2)) ->
  @scattering_matrix_islands J1 n expm p L' (longer_islands s isl) host (s * wl) (sl kp) (s * d) pow =
  @scattering_matrix_islands J1 n expm p L isl host wl kp d pow.
Proof.
move=> hg hr; rewrite /scattering_matrix_islands; apply: bind_ext => nq.
rewrite (wide_data J1 hg hr); apply: bind_ext => data; apply: bind_ext => T; apply: bind_ext => Ti.
rewrite (wide_U s0 wl hf); apply: bind_ext => U; rewrite /lattice_Vi (wide_V s0 wl hf); apply: bind_ext => V.
change (w_rows (window L')) with (w_rows (window L)); change (w_cols (window L')) with (w_cols (window L)).
apply: bind_ext => ind; rewrite (wide_matrix_a s0 L wl kp); case: (matrix_a _ _ _ _ _ _ _) => [A|e]; cbn [bind]; last by reflexivity.
exact: sliced_longer.
Qed.
End L.

Section Pile.
Variables (p : nat * nat) (a1 a2 : vec2) (ei ee : num) (L : lattice).
Hypothesis hL : mk_lattice p a1 a2 ei ee = Ok L.
Variables (n : nat) (J1 : R -> R) (expm : 'M[C]_((n + n) + (n + n)) -> 'M[C]_((n + n) + (n + n))) (wl : R) (kp : vec2).
Variables (q : string -> option recipe) (stacking : stackings) (d : nat) (name : string).
Hypotheses (hf : same_frames s L kp) (hq : resolved_recipes s (l_b L) q).
Lemma vectors_of i j : exists m1 m2, w_at (l_G L) i j = order_vector (l_b L) m1 m2.
Proof. have [_ _ _ _ [_ _ _ _ h]] := mk_latticeE hL; rewrite h; by eexists; eexists. Qed.
Lemma wide_computed req : computed_at J1 expm p (wide_lattice s L) (s * wl) (sl kp) (longer_recipes s q) req <-> computed_at J1 expm p L wl kp q req.
Proof.
have e nm isl host dp pow : q nm = Some (isl, host, dp, pow) ->
  scattering_matrix_islands J1 expm p (wide_lattice s L) (longer_islands s isl) host (s * wl) (sl kp) (s * dp) pow =
  scattering_matrix_islands J1 expm p L isl host wl kp dp pow.
  move=> h; exact: (wide_layer wl hf J1 expm p host dp pow vectors_of (hq h)).
split=> h nm; have := h nm; rewrite /longer_recipes; case hn : (q nm) => [[[[isl host] dp] pow]|]; cbn [omap obind oapp longer_recipe]; rewrite ?(e _ _ _ _ _ hn) => h'; exact: h'.
Qed.
Lemma wide_pile S : pile_at J1 expm p (wide_lattice s L) (s * wl) (sl kp) (longer_recipes s q) stacking d name S <-> pile_at J1 expm p L wl kp q stacking d name S.
Proof. by split=> -[req h1 h2]; exists req => //; apply/wide_computed. Qed.
Lemma wide_closed S : closed_at J1 expm p (wide_lattice s L) (s * wl) (sl kp) (longer_recipes s q) stacking d name S <-> closed_at J1 expm p L wl kp q stacking d name S.
Proof. split=> -[A [B [h1 h2 h3]]]; exists A, B; split; [exact/wide_pile|by rewrite -h2 -(wide_interface s0 wl hf)|exact: h3|exact/wide_pile|by rewrite -h2 (wide_interface s0 wl hf)|exact: h3]. Qed.
Lemma wide_currents (pin pout : 'cV[C]_((n + n) + (n + n))) : same_orders s L wl ->
  compute_currents pin pout (wide_lattice s L) (s * wl) (0%Re, 0%Re) =
  (do j <- compute_currents pin pout L wl (0%Re, 0%Re);
   Ok (fun g => RtoC (s * s)%Re * j.1.1 g, fun g => RtoC (s * s)%Re * j.1.2 g, fun g => RtoC (s * s)%Re * j.2 g)).
Proof.
move=> ho; rewrite /compute_currents; change (l_ng (wide_lattice s L)) with (l_ng L); case: eqP => hn; cbn [negb]; last by reflexivity.
destruct (Req_EM_T wl 0) as [w0|w0]; destruct (Req_EM_T (s * wl) 0) as [w1|w1].
- reflexivity.
- by case: w1; rewrite w0; ring.
- by case: w0; apply/(wl_longer s0).
cbn [bind is_left fst snd].
have z : (0%Re, 0%Re) = sl (0%Re, 0%Re) by rewrite /slower /=; congr (_, _); ring.
have hz eps (g : 'I_n) : compute_kz eps (s * wl) (0%Re, 0%Re) (l_g (wide_lattice s L) g) = RtoC t * compute_kz eps wl (0%Re, 0%Re) (l_g L g).
  by rewrite {1}z wide_g (wide_kz s0).
have sn (x : C) : snd (RtoC t * x) = (t * snd x)%Re by rewrite /=; ring.
have fe : (0 < float_eps)%Re by rewrite /float_eps; apply: Rinv_0_lt_compat; apply: pow_lt; lra.
have ab (x : R) : Rabs (t * x) = (t * Rabs x)%Re by rewrite Rabs_mult (Rabs_pos_eq t) //; lra.
have le1 eps (g : 'I_n) : eps = l_incid L \/ eps = l_emerg L ->
  (if Rle_dec (t * Rabs (snd (compute_kz eps wl (0%Re, 0%Re) (l_g L g)))) float_eps then true else false) =
  (if Rle_dec (Rabs (snd (compute_kz eps wl (0%Re, 0%Re) (l_g L g)))) float_eps then true else false).
  move=> he; have lt : (g < l_ng L)%N by rewrite -hn ltn_ord.
  have := ho _ he _ lt; cbv zeta; rewrite -[(/ s)%Re]/t; move: (Rabs _) => D [->|[d1 d2]].
    by rewrite Rmult_0_r.
  by destruct (Rle_dec (t * D) float_eps) as [x|x]; destruct (Rle_dec D float_eps) as [y|y] => //; exfalso; lra.
have lt1 eps (g : 'I_n) : eps = l_incid L \/ eps = l_emerg L ->
  (if Rlt_dec (t * Rabs (snd (compute_kz eps wl (0%Re, 0%Re) (l_g L g)))) float_eps then true else false) =
  (if Rlt_dec (Rabs (snd (compute_kz eps wl (0%Re, 0%Re) (l_g L g)))) float_eps then true else false).
  move=> he; have lt : (g < l_ng L)%N by rewrite -hn ltn_ord.
  have := ho _ he _ lt; cbv zeta; rewrite -[(/ s)%Re]/t; move: (Rabs _) => D [->|[d1 d2]].
    by rewrite Rmult_0_r.
  by destruct (Rlt_dec (t * D) float_eps) as [x|x]; destruct (Rlt_dec D float_eps) as [y|y] => //; exfalso; lra.
change (l_incid (wide_lattice s L)) with (l_incid L); change (l_emerg (wide_lattice s L)) with (l_emerg L); change (l_area (wide_lattice s L)) with (s * s * l_area L)%Re.
have m0 : (mu0c <> 0)%Re by rewrite /mu0c /mu0 /light_speed; have := PI_RGT_0 => pi0; have := pow_lt 10 7 ltac:(lra) => p7; have := Rinv_0_lt_compat _ p7; nra.
have tp : (twopi <> 0)%Re by rewrite /twopi; have := PI_RGT_0; lra.
have ea : (s * s * l_area L / (2 * mu0c * twopi / (s * wl)) = s * s * s * (l_area L / (2 * mu0c * twopi / wl)))%Re by field; repeat split.
have one (Q : R) (kz w : C) : RtoC (s * s * s * Q)%Re * (RtoC t * kz) * w = RtoC (s * s)%Re * (RtoC Q * kz * w).
  have -> : (s * s * s * Q = s * (s * s * Q))%Re by ring.
  rewrite [RtoC (s * _)%Re]ScaleProofs.RtoC_mul [RtoC (s * s * Q)%Re]ScaleProofs.RtoC_mul.
  have es : RtoC s * RtoC t = 1 by rewrite -ScaleProofs.RtoC_mul st.
  have -> : RtoC s * (RtoC (s * s)%Re * RtoC Q) * (RtoC t * kz) * w = RtoC s * RtoC t * (RtoC (s * s)%Re * (RtoC Q * kz * w)) by cring.
  by rewrite es mul1r.
rewrite ea; move: (l_area L / _)%Re => Q.
have i1 : l_incid L = l_incid L \/ l_incid L = l_emerg L by left.
have i2 : l_emerg L = l_incid L \/ l_emerg L = l_emerg L by right.
congr (Ok (_, _, _)); apply: functional_extensionality => g; rewrite hz sn ab ?(le1 _ _ i1) ?(lt1 _ _ i2).
- by case: (if is_left _ then true else false); [exact: one|rewrite mulr0].
- by case: (if is_left _ then true else false); [exact: one|rewrite mulr0].
case: (if is_left (Rlt_dec (Rabs (num_val (l_emerg L)).2) float_eps) then false else true); first by rewrite mulr0.
by case: (if is_left _ then true else false); [exact: one|rewrite mulr0].
Qed.
Lemma wide_fluxes (pin pout : 'cV[C]_((n + n) + (n + n))) k k' : same_orders s L wl ->
  compute_fluxes (wide_lattice s L) (s * wl) pin pout k' = compute_fluxes L wl pin pout k.
Proof.
move=> ho; rewrite /compute_fluxes (wide_currents pin pout ho); case: (compute_currents _ _ L _ _) => [[[j1 j2] j3]|e]; cbn [bind fst snd]; last by reflexivity.
have c0 : RtoC (s * s)%Re != 0 by apply/eqP => h; have := congr1 fst h => /=; nra.
rewrite -!mulr_sumr mulf_eq0 (negbTE c0) /=; case: ifP => // i0.
have e (x y : C) : RtoC (s * s)%Re * x / (RtoC (s * s)%Re * y) = x / y by rewrite invfM mulrACA mulfV // mul1r.
by rewrite !e.
Qed.
End Pile.
End Scale.
