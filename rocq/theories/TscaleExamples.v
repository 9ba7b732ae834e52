(** C115 assembled from the lemmas, with examples. *)
From Coq Require Import Reals ZArith Lra Lia String.
From mathcomp Require Import all_ssreflect all_fingroup all_algebra.
From Coquelicot Require Import Complex.
From Verif Require Import Base CField CFun ModelRedheffer SpecScatter ModelExpansion SpecExpansion ModelFourier ModelDevice ModelTmat ModelLattice SpecLattice LatticeProofs
  SpecExp ExpProofs ModelEz SpecScale SpecSym SpecBloch CurrentProofs NormalProofs ScaleProofs ScaleExamples DetProofs SpecShift ShiftExamples TmatExamples SpecTurn TmatTurn2 TurnExamples SpecTscale TmatScale TmatScale2.
Set Implicit Arguments. Unset Strict Implicit. Unset Printing Implicit Defensive.
Import GRing.Theory.
Local Open Scope ring_scope.

Lemma units_invariance s p a1 a2 ei ee L n J1 (expm : 'M[C]_((n + n) + (n + n)) -> 'M[C]_((n + n) + (n + n))) wl kp q stacking d name :
  (0 < s)%Re -> mk_lattice p a1 a2 ei ee = Ok L -> same_frames s L kp -> resolved_recipes s (l_b L) q ->
  exists2 L', mk_lattice p (longer s a1) (longer s a2) ei ee = Ok L' &
  [/\ forall S, pile_at J1 expm p L' (s * wl) (slower s kp) (longer_recipes s q) stacking d name S <-> pile_at J1 expm p L wl kp q stacking d name S,
      forall S, closed_at J1 expm p L' (s * wl) (slower s kp) (longer_recipes s q) stacking d name S <-> closed_at J1 expm p L wl kp q stacking d name S &
      same_orders s L wl -> forall (pin pout : 'cV[C]_((n + n) + (n + n))) k k', compute_fluxes L' (s * wl) pin pout k' = compute_fluxes L wl pin pout k].
Proof.
move=> s0 hL hf hq; exists (wide_lattice s L); first by rewrite (mk_lattice_wide s0) hL.
split=> [S|S|ho pin pout k k'].
- exact: (wide_pile s0 hL J1 expm wl stacking d name hf hq S).
- exact: (wide_closed s0 hL J1 expm wl stacking d name hf hq S).
exact: (wide_fluxes s0 pin pout k k' ho).
Qed.

Lemma frames_thousand p ei ee L : mk_lattice p (1%Re, 0%Re) (0%Re, 1%Re) ei ee = Ok L -> same_frames 1000 L (0%Re, 0%Re).
Proof.
move=> hL g _ u; rewrite {}/u.
rewrite /l_g /w_flat (window_rows hL).1 (window_at hL) (zero_lattice hL) /order_vector /uvec /tiny /slower; cbn [fst snd].
move: (Z.sub _ _) (Z.sub _ _) => m2 m1.
have p0 := PI2_3_2; have sq (m : Z) : m = Z0 \/ (1 <= IZR m * IZR m)%Re.
  have [->|ne] := Z.eq_dec m 0; [by left|right]; rewrite -mult_IZR; apply: (IZR_le 1); nia.
have small : (0 < / 2 ^ 52 < / 1000000)%Re.
  split; first by apply: Rinv_0_lt_compat; apply: pow_lt; lra.
  by apply: Rinv_lt_contravar; [apply: Rmult_lt_0_compat; [lra|apply: pow_lt; lra]|lra].
have t1 : (1 <= twopi * twopi)%Re by rewrite /twopi; nra.
set E := (/ 2 ^ 52)%Re in small *; set N := (IZR m1 * IZR m1 + IZR m2 * IZR m2)%Re.
have e1 : ((0 + (IZR m1 * twopi + IZR m2 * 0)) ^ 2 + (0 + (IZR m1 * 0 + IZR m2 * twopi)) ^ 2 = N * (twopi * twopi))%Re by rewrite /N; ring.
have e2 : ((/ 1000 * (0 + (IZR m1 * twopi + IZR m2 * 0))) ^ 2 + (/ 1000 * (0 + (IZR m1 * 0 + IZR m2 * twopi))) ^ 2 = N * (twopi * twopi) * / 1000000)%Re by rewrite /N; field.
have [hN|hN] : N = 0%Re \/ (1 <= N)%Re.
- have q1 := Rle_0_sqr (IZR m1); have q2 := Rle_0_sqr (IZR m2); rewrite /Rsqr in q1 q2.
  by rewrite /N; case: (sq m1) (sq m2) => [->|h1] [->|h2]; [left; ring|right; lra|right; lra|right; lra].
- rewrite e1 e2 hN; destruct (Rlt_dec (0 * (twopi * twopi) * / 1000000) E) as [h|h]; destruct (Rlt_dec (0 * (twopi * twopi)) E) as [h'|h'] => //; exfalso; lra.
rewrite e1 e2; have b : (1 <= N * (twopi * twopi))%Re by nra.
destruct (Rlt_dec (N * (twopi * twopi) * / 1000000) E) as [h|h]; destruct (Rlt_dec (N * (twopi * twopi)) E) as [h'|h'] => //; exfalso; lra.
Qed.

(** The zero order, when it propagates, carries power. *)
Lemma incident_power n (p : nat * nat) L wl (pin pout : 'cV[C]_((n + n) + (n + n))) k : tmat_incident n p 1 0 1 = Ok pin -> n = l_ng L -> wl <> 0%Re -> l_area L <> 0%Re ->
  let z := compute_kz (l_incid L) wl (0%Re, 0%Re) (l_g L (p.1 %/ 2 + p.1 * (p.2 %/ 2))) in z <> 0 ->
  (Rabs (snd z) <= float_eps)%Re -> is_ok (compute_fluxes L wl pin pout k).
Proof.
move=> hp hn w0 a0 z z0 hz; move: hp; rewrite /tmat_incident; case: eqP => // _; case: ltnP => // lt hp.
have {hp} ep := Ok_inj hp; set o := (p.1 %/ 2 + p.1 * (p.2 %/ 2))%N in z z0 hz lt ep; pose go : 'I_n := Ordinal lt.
rewrite /compute_fluxes /compute_currents -hn eqxx; cbn [negb]; destruct (Req_EM_T wl 0) as [h|h]; [by case: w0|cbn [is_left bind]].
set q := (l_area L / _)%Re; have q0 : q <> 0%Re.
  have m0 : (0 < mu0c)%Re.
    rewrite /mu0c /mu0 /light_speed; have pi0 := PI_RGT_0; have p7 := Rinv_0_lt_compat _ (pow_lt 10 7 ltac:(lra)).
    by apply: Rmult_lt_0_compat; [nra|lra].
  have tp : twopi <> 0%Re by rewrite /twopi; have := PI_RGT_0; lra.
  rewrite /q /Rdiv; apply: Rmult_integral_contrapositive_currified => //; apply: Rinv_neq_0_compat.
  apply: Rmult_integral_contrapositive_currified; last exact: Rinv_neq_0_compat.
  by apply: Rmult_integral_contrapositive_currified => //; lra.
have e0 (g : 'I_n) : quarter_of pin 0 g 0 = (if (g : nat) == o then 1 else 0).
  by rewrite -ep /quarter_of !col_mxKu mxE; case: eqP => // _; rewrite mulr1.
have e1 (g : 'I_n) : quarter_of pin 1 g 0 = 0.
  by rewrite -ep /quarter_of col_mxKu col_mxKd mxE mul0r; case: eqP.
have s1 : ModelLattice.sqmod 1 = 1%Re by rewrite CurrentProofs.sqmodE /=; ring.
have s2 : ModelLattice.sqmod 0 = 0%Re by rewrite CurrentProofs.sqmodE /=; ring.
case: ifP => [/eqP|_]; last by eexists.
rewrite (bigD1 go) //= big1 ?addr0; last first.
  move=> g hg; rewrite e0 e1; case: eqP => [e|_]; first by case/eqP: hg; apply: val_inj.
  by rewrite s2 Rplus_0_r mulr0; case: ifP.
rewrite e0 e1 /= eqxx s1 s2 -/z; destruct (Rle_dec (Rabs (snd z)) float_eps) as [h'|h']; last by case: h'.
cbn [is_left]; rewrite Rplus_0_r mulr1 => /eqP; rewrite mulf_eq0 => /orP [/eqP|/eqP //].
by move/(congr1 fst).
Qed.
Lemma area_one p ei ee L : mk_lattice p (1%Re, 0%Re) (0%Re, 1%Re) ei ee = Ok L -> l_area L <> 0%Re.
Proof.
move=> hL; have [_ _ _ _ [_ _ -> _ _]] := mk_latticeE hL; rewrite /unitcellarea /=.
by rewrite (_ : (1 * 1 - 0 * 0 = 1)%Re); [rewrite Rabs_R1; lra|ring].
Qed.
Lemma units_example J1 : exists L S pin f, let expm := @mexp ((4 + 4) + (4 + 4)) in let kp := (0%Re, 0%Re) in let wl := (/ 2)%Re in
  [/\ mk_lattice (2, 2)%N (1%Re, 0%Re) (0%Re, 1%Re) (Float 1) (Float 1) = Ok L, same_frames 1000 L kp /\ same_orders 1000 L wl,
      resolved_recipes 1000 (l_b L) (pane_layer 1), closed_at J1 expm (2, 2)%N L wl kp (pane_layer 1) [::] 1 "pane" S &
      @tmat_incident 4 (2, 2)%N 1 0 1 = Ok pin /\ compute_fluxes L wl pin (S *m pin) kp = Ok f].
Proof.
have [L [S [hL _ hP hC [_ [pin hi] _]]]] := wall_example J1; have p0 := PI_RGT_0.
have [_ _ _ _ [mi me _ _ _]] := mk_latticeE hL.
have fits : window_fits (2, 2)%N by left.
have ng : l_ng L = 4%N by rewrite (window_ng hL fits).
have gE (g : nat) : l_g L g = ((IZR (Z.sub (Z.of_nat (g %% 2)%N) 1) * twopi)%Re, (IZR (Z.sub (Z.of_nat (g %/ 2)%N) 1) * twopi)%Re).
  rewrite /l_g /w_flat (window_rows hL).1 (window_at hL) (zero_lattice hL) /order_vector /=.
  by congr (_, _); ring.
have pos (g : nat) : (g < 4)%N -> (0 < 1 * (2 * PI / (/ 2)) ^ 2 - ((0 + (l_g L g).1) ^ 2 + (0 + (l_g L g).2) ^ 2))%Re.
  by case: g => [|[|[|[|g]]]] // _; rewrite gE /twopi /=; (have -> : (2 * PI / (/ 2) = 4 * PI)%Re by field); nra.
have kzr g : (g < 4)%N -> exists2 x : R, (0 < x)%Re & compute_kz (Float 1) (/ 2) (0%Re, 0%Re) (l_g L g) = RtoC x.
  move=> hg; have h := pos g hg; have h' := sqrt_lt_R0 _ h; eexists; first exact: h'.
  apply: (@kz_value (Float 1) 1 (/ 2) (0%Re, 0%Re) (l_g L g) _ erefl (Rlt_le _ _ h')).
  by rewrite sqrt_sqrt //; exact: Rlt_le.
have [f hf] : is_ok (compute_fluxes L (/ 2) pin (S *m pin) (0%Re, 0%Re)).
  refine (@incident_power 4 (2, 2)%N L (/ 2) pin (S *m pin) _ hi (esym ng) _ _ _ _).
  - lra.
  - exact: (area_one hL).
  - by rewrite mi; have [x x0 ->] := kzr 3%N erefl; move/(congr1 fst) => /=; lra.
  by rewrite mi; have [x x0 ->] := kzr 3%N erefl; rewrite /= Rabs_R0 /float_eps; apply: Rlt_le; apply: Rinv_0_lt_compat; apply: pow_lt; lra.
exists L, S, pin, f; split=> //.
- split; first exact: (frames_thousand hL).
  move=> eps he g; rewrite ng => hg; have -> : eps = Float 1 by case: he => ->.
  by have [x _ ->] := kzr g hg; left; rewrite /= Rabs_R0.
by move=> nm isl host dp pow; rewrite /pane_layer; case: (String.eqb nm "pane") => // -[<-].
Qed.

(** The incident medium absorbs so little that its decay passes for none in the longer
    unit only. *)
Lemma units_absorbing : exists L L' (pin : 'cV[C]_((1 + 1) + (1 + 1))) k f, let wl := twopi in let q : C := (1%Re, (/ 2 ^ 53)%Re) in let ei := Complex (q * q) in
  [/\ mk_lattice (1, 1)%N (1%Re, 0%Re) (0%Re, 1%Re) ei (Float 1) = Ok L, mk_lattice (1, 1)%N (longer (/ 4) (1%Re, 0%Re)) (longer (/ 4) (0%Re, 1%Re)) ei (Float 1) = Ok L',
      tmat_incident 1 (1, 1)%N 1 0 1 = Ok pin, compute_fluxes L wl pin pin k = Ok f & compute_fluxes L' (/ 4 * wl) pin pin k = Err NonFinite].
Proof.
pose q : C := (1%Re, (/ 2 ^ 53)%Re); have [L hL] := @mk_lattice_ok (1, 1)%N (Complex (q * q)) (Float 1) erefl.
have s0 : (0 < / 4)%Re by lra.
have [mi me] := one_media hL; have ng := one_ng hL; have g0 := one_g hL.
have tp : (twopi <> 0)%Re by rewrite /twopi; have := PI_RGT_0; lra.
have p53 : (0 < / 2 ^ 53)%Re by apply: Rinv_0_lt_compat; apply: pow_lt; lra.
have fe : (float_eps = 2 * / 2 ^ 53)%Re by rewrite /float_eps; have -> : (2 ^ 53 = 2 * 2 ^ 52)%Re by []; field; apply: pow_nonzero; lra.
have kz : compute_kz (Complex (q * q)) twopi (0%Re, 0%Re) (0%Re, 0%Re) = q.
  rewrite /compute_kz; have -> : num_val (Complex (q * q)) * RtoC ((twopi / twopi) ^ 2)%Re - RtoC (unorm (0%Re, 0%Re) (0%Re, 0%Re) ^ 2)%Re = q * q.
    rewrite unorm2 /uvec; cbn [fst snd num_val].
    have -> : (twopi / twopi = 1)%Re by field.
    by apply: C_ext => /=; ring.
  have r0 : (0 < fst q)%Re by rewrite /q; cbn [fst]; lra.
  rewrite csqrt_unique //; cbv zeta.
  have -> : snd q = (/ 2 ^ 53)%Re by reflexivity.
  have -> : fst q = 1%Re by reflexivity.
  destruct (Rlt_dec (/ 2 ^ 53) 0) as [h|h]; first by exfalso; lra.
  destruct (Rlt_dec 1 0) as [h'|h']; first by exfalso; lra.
  by cbn [is_left]; rewrite andbF.
have [pin hp] : exists pin, @tmat_incident 1 (1, 1)%N 1 0 1 = Ok pin by rewrite /tmat_incident /=; eexists.
exists L, (wide_lattice (/ 4) L), pin, (0%Re, 0%Re).
have a1 : l_area L <> 0%Re := area_one hL.
have [f hf] : is_ok (compute_fluxes L twopi pin pin (0%Re, 0%Re)).
  refine (@incident_power 1 (1, 1)%N L twopi pin pin _ hp (esym ng) tp a1 _ _); rewrite mi g0 kz; first by move/(congr1 fst) => /=; lra.
  by have -> : snd q = (/ 2 ^ 53)%Re := erefl; rewrite fe; set w := (/ 2 ^ 53)%Re in p53 *; rewrite Rabs_pos_eq; lra.
have wL := mk_lattice_wide s0 (1, 1)%N (1%Re, 0%Re) (0%Re, 1%Re) (Complex (q * q)) (Float 1); rewrite hL in wL; cbn [bind] in wL.
exists f; cbv zeta; split; [exact: hL|exact: wL|exact: hp|exact: hf|].
rewrite /compute_fluxes /compute_currents; change (l_ng (wide_lattice (/ 4) L)) with (l_ng L); rewrite ng eqxx; cbn [negb].
destruct (Req_EM_T (/ 4 * twopi) 0) as [h|h]; first by exfalso; lra.
cbn [bind is_left negb]; rewrite big1; [by rewrite eqxx|move=> g _].
have z : (0%Re, 0%Re) = slower (/ 4) (0%Re, 0%Re) by rewrite /slower /=; congr (_, _); ring.
rewrite (ord1 g); have -> : compute_kz (l_incid (wide_lattice (/ 4) L)) (/ 4 * twopi) (0%Re, 0%Re) (l_g (wide_lattice (/ 4) L) (0 : 'I_1)) = RtoC (/ (/ 4))%Re * q.
  by rewrite {1}z wide_g (wide_kz s0) g0 -kz -mi.
have -> : snd (RtoC (/ (/ 4))%Re * q) = (4 * / 2 ^ 53)%Re.
  by rewrite /q; set w := (/ 2 ^ 53)%Re; rewrite /=; field.
rewrite Rabs_pos_eq; last by lra.
by destruct (Rle_dec (4 * / 2 ^ 53) float_eps) as [h'|h'] => //; exfalso; rewrite fe in h'; lra.
Qed.
