(** Lemmas for C115: piles with all lengths multiplied by [s] (T-matrix API). *)
From Coq Require Import Reals ZArith Lra Lia String FunctionalExtensionality.
From mathcomp Require Import all_ssreflect all_fingroup all_algebra.
From Coquelicot Require Import Complex.
From Verif Require Import Base CField CFun ModelRedheffer SpecScatter ModelExpansion SpecExpansion ModelFourier Blk ModelDevice ModelTmat ModelLattice SpecLattice LatticeProofs
  SpecExp ExpProofs ModelEz SpecScale SpecSym SpecBloch CurrentProofs ScaleProofs PolConj SpecTurn TmatTurn TmatTurn2 SpecTscale.
Set Implicit Arguments. Unset Strict Implicit. Unset Printing Implicit Defensive.
Import GRing.Theory.
Local Open Scope ring_scope.

Lemma matrix_u_ext n (kz kz' : 'I_n -> C) eta mu eps wl wl' :
  (forall g, (kz' g == 0) = (kz g == 0)) -> (forall g, cmath_sqrt eps * RtoC PI / RtoC wl' / kz' g = cmath_sqrt eps * RtoC PI / RtoC wl / kz g) ->
  matrix_u kz' eta mu eps wl' = matrix_u kz eta mu eps wl.
Proof.
move=> h0 h; rewrite /matrix_u; case: ifP => // _.
have -> : [forall g, kz' g != 0] = [forall g, kz g != 0] by apply: eq_forallb => g; rewrite h0.
case: ifP => // _; congr Ok; apply: eq_quad => x hx y hy; apply: eq_dgf => g.
by case: x hx => [|[|[|[|x]]]] // _; case: y hy => [|[|[|[|y]]]] // _; cbv beta iota; rewrite h.
Qed.

Section Scale.
Variable s : R.
Hypothesis s0 : (0 < s)%Re.
Notation sl := (slower s).
Let t : R := (/ s)%Re.
Let t0 : (0 < t)%Re. Proof. exact: Rinv_0_lt_compat. Qed.
Let sne : s <> 0%Re. Proof. lra. Qed.
Let st : (s * t = 1)%Re. Proof. exact: Rinv_r. Qed.

Definition wide_lattice (L : lattice) : lattice :=
  Lattice (l_pw L) (l_q L) (sl (l_b L).1, sl (l_b L).2) (Grid (w_rows (l_G L)) (w_cols (l_G L)) (fun i j => sl (w_at (l_G L) i j)))
    (s * s * l_area L)%Re (l_incid L) (l_emerg L).
Lemma mk_lattice_wide p a1 a2 ei ee : mk_lattice p (longer s a1) (longer s a2) ei ee = (do L <- mk_lattice p a1 a2 ei ee; Ok (wide_lattice L)).
Proof.
rewrite /mk_lattice /reciproc /longer; cbn [fst snd].
set det := (_ - _)%Re; set det' := (_ - _)%Re.
have ed : det = (s * s * det')%Re by rewrite /det /det'; ring.
destruct (Req_EM_T det' 0) as [h|h].
  by destruct (Req_EM_T det 0) as [h'|h'] => //; case: h'; rewrite ed h; ring.
destruct (Req_EM_T det 0) as [h'|h']; first by case: h; apply: (Rmult_eq_reg_l (s * s)); nra.
cbn [bind]; case: (grid_size p) => [nq|//]; cbn [bind]; rewrite /gvectors; case: (grid_center _) => [c|//]; cbn [bind]; congr Ok.
rewrite ed; have eb (x : R) : (s * x * (twopi / (s * s * det')) = / s * (x * (twopi / det')))%Re by field.
have eb' (x : R) : (- (s * x) * (twopi / (s * s * det')) = / s * (- x * (twopi / det')))%Re by field.
rewrite /wide_lattice /=; cbn [l_pw l_q l_b l_G l_area l_incid l_emerg w_rows w_cols w_at]; rewrite !eb !eb' /slower; cbn [fst snd]; f_equal.
- f_equal; apply: functional_extensionality => i; apply: functional_extensionality => j; congr (_, _); ring.
- rewrite /unitcellarea; cbn [fst snd]; rewrite (_ : (_ - _)%Re = (s * s * det')%Re); last by rewrite /det'; ring.
  by rewrite Rabs_mult (Rabs_right (s * s)); [|nra].
Qed.
Section L.
Variables (L : lattice) (wl : R) (kp : vec2).
Notation L' := (wide_lattice L).
Lemma wide_g g : l_g L' g = sl (l_g L g). Proof. by []. Qed.
Lemma wide_ng : l_ng L' = l_ng L. Proof. by []. Qed.
Lemma wide_uvec k g : uvec (sl k) (sl g) = sl (uvec k g).
Proof. by rewrite /uvec /slower /=; congr (_, _); ring. Qed.
Lemma wide_unorm k g : unorm (sl k) (sl g) = (t * unorm k g)%Re.
Proof.
rewrite /unorm wide_uvec /slower; cbn [fst snd]; rewrite -[(/ s)%Re]/t.
have -> : ((t * (uvec k g).1) ^ 2 + (t * (uvec k g).2) ^ 2 = t * t * ((uvec k g).1 ^ 2 + (uvec k g).2 ^ 2))%Re by ring.
exact: (sqrt_longer s0).
Qed.
Lemma wide_kz eps k g : compute_kz eps (s * wl) (sl k) (sl g) = RtoC t * compute_kz eps wl k g.
Proof.
rewrite /compute_kz wide_unorm.
have -> : (twopi / (s * wl) = t * (twopi / wl))%Re by rewrite /twopi; exact: k0_longer.
have -> : num_val eps * RtoC ((t * (twopi / wl)) ^ 2)%Re - RtoC ((t * unorm k g) ^ 2)%Re =
  RtoC t ^+ 2 * (num_val eps * RtoC ((twopi / wl) ^ 2)%Re - RtoC (unorm k g ^ 2)%Re).
  by apply: C_ext => /=; ring.
rewrite csqrt_mul2 //; set z := csqrt _; have r0 : (0 <= fst z)%Re by exact: csqrt_re_ge0.
have e1 : snd (RtoC t * z) = (t * snd z)%Re by rewrite /=; ring.
have e2 : fst (RtoC t * z) = (t * fst z)%Re by rewrite /=; ring.
cbv zeta; rewrite e1 e2.
have f1 : (if Rlt_dec (fst z) 0 then true else false) = false by destruct (Rlt_dec (fst z) 0) as [h|h] => //; exfalso; lra.
have f2 : (if Rlt_dec (t * fst z) 0 then true else false) = false by destruct (Rlt_dec (t * fst z) 0) as [h|h] => //; exfalso; nra.
rewrite f1 f2 !andbF !orbF.
destruct (Rlt_dec (snd z) 0) as [h|h]; destruct (Rlt_dec (t * snd z) 0) as [h'|h'] => //; try (exfalso; nra).
by rewrite mulrN.
Qed.
Lemma wide_udir k g : tiny (sl (uvec k g)) = tiny (uvec k g) -> udir (sl k) (sl g) = udir k g.
Proof.
rewrite /tiny /udir wide_unorm wide_uvec -/float_eps.
have e1 : ((t * unorm k g) ^ 2 = (sl (uvec k g)).1 ^ 2 + (sl (uvec k g)).2 ^ 2)%Re.
  by rewrite -(wide_unorm k g) unorm2 wide_uvec.
have e2 : (unorm k g ^ 2 = (uvec k g).1 ^ 2 + (uvec k g).2 ^ 2)%Re by rewrite unorm2.
rewrite -e1 -e2 => h.
destruct (Rlt_dec ((t * unorm k g) ^ 2) float_eps) as [h1|h1]; destruct (Rlt_dec (unorm k g ^ 2) float_eps) as [h2|h2] => //.
have n0 : unorm k g <> 0%Re.
  clear h; move=> e; apply: h2; rewrite e /float_eps; have := pow_lt 2 52 ltac:(lra) => p2; have := Rinv_0_lt_compat _ p2; lra.
by rewrite /slower; cbn [fst snd]; rewrite -[(/ s)%Re]/t; congr (_, _); field; split=> //; lra.
Qed.
Hypothesis hf : same_frames s L kp.
Lemma wide_mu n eps : n = l_ng L -> wl <> 0%Re -> @window_mu n L' eps (s * wl) (sl kp) = @window_mu n L eps wl kp.
Proof.
move=> hn w0; rewrite /window_mu; case: ifP => // e0; congr Ok; apply: functional_extensionality => g.
rewrite wide_g /compute_mu e0 wide_udir; last by apply: hf; rewrite -hn ltn_ord.
rewrite wide_kz.
suff -> : forall z : C, RtoC t * z / (cmath_sqrt eps * RtoC twopi / RtoC (s * wl)%Re) = z / (cmath_sqrt eps * RtoC twopi / RtoC wl) by [].
move=> z; rewrite !invfM !invrK ![RtoC (s * wl)%Re]ScaleProofs.RtoC_mul.
have -> : RtoC t * z * ((cmath_sqrt eps)^-1 * (RtoC twopi)^-1 * (RtoC s * RtoC wl)) = RtoC s * RtoC t * (z * ((cmath_sqrt eps)^-1 * (RtoC twopi)^-1 * RtoC wl)) by cring.
by rewrite -ScaleProofs.RtoC_mul st mul1r.
Qed.
Lemma wide_eta n : n = l_ng L -> (fun g : 'I_n => compute_eta (sl kp) (l_g L' g)) = (fun g : 'I_n => compute_eta kp (l_g L g)).
Proof.
move=> hn; apply: functional_extensionality => g; rewrite /compute_eta wide_g wide_udir //; apply: hf; by rewrite -hn ltn_ord.
Qed.
Let tC : RtoC t != 0. Proof. by apply/eqP => h; have := congr1 fst h => /=; lra. Qed.
Lemma wide_U n : lattice_U n L' (s * wl) (sl kp) = lattice_U n L wl kp.
Proof.
rewrite /lattice_U wide_ng; case: eqP => hn; cbn [negb]; last by [].
destruct (Req_EM_T wl 0) as [w0|w0]; destruct (Req_EM_T (s * wl) 0) as [w1|w1].
- reflexivity.
- by case: w1; rewrite w0; ring.
- by case: w0; apply/(wl_longer s0).
change (l_incid L') with (l_incid L); rewrite (@wide_mu n (l_incid L) hn w0); apply: bind_ext => mu; rewrite (wide_eta hn); apply: matrix_u_ext => g; rewrite wide_g wide_kz.
  by rewrite mulf_eq0 (negbTE tC).
rewrite invfM mulrA; congr (_ / _).
have -> : RtoC (s * wl)%Re = RtoC s * RtoC wl by exact: ScaleProofs.RtoC_mul.
rewrite invfM; have es : RtoC s * RtoC t = 1 by rewrite -ScaleProofs.RtoC_mul st.
have -> : (RtoC s)^-1 = RtoC t by rewrite -[LHS]mulr1 -es mulKf //; apply/eqP => h; have := congr1 fst h => /=; lra.
by rewrite [RtoC t * _]mulrC mulrA mulfK.
Qed.
Lemma wide_V n eps : lattice_V n L' eps (s * wl) (sl kp) = lattice_V n L eps wl kp.
Proof.
rewrite /lattice_V wide_ng; case: eqP => hn; cbn [negb]; last by [].
destruct (Req_EM_T wl 0) as [w0|w0]; destruct (Req_EM_T (s * wl) 0) as [w1|w1].
- reflexivity.
- by case: w1; rewrite w0; ring.
- by case: w0; apply/(wl_longer s0).
by rewrite (@wide_mu n eps hn w0); apply: bind_ext => mu; rewrite (wide_eta hn).
Qed.
Lemma wide_interface n : scattering_interface n L' (s * wl) (sl kp) = scattering_interface n L wl kp.
Proof. by rewrite /scattering_interface wide_U; apply: bind_ext => U; rewrite /lattice_Ve wide_V. Qed.

(** The operator of a layer. *)
Lemma quad_scale n (c : C) (B : nat -> nat -> 'M[C]_n) : c *: quad B = quad (fun x y => c *: B x y).
Proof. by rewrite /quad !scale_block_mx. Qed.
Lemma wide_matrix_a n l T Ti : matrix_a n l (window L') T Ti (s * wl) (sl kp) = (do A <- matrix_a n l (window L) T Ti wl kp; Ok (RtoC t *: A)).
Proof.
rewrite /matrix_a; destruct (Req_EM_T wl 0) as [w0|w0]; destruct (Req_EM_T (s * wl) 0) as [w1|w1].
- reflexivity.
- by case: w1; rewrite w0; ring.
- by case: w0; apply/(wl_longer s0).
change (w_ng (window L')) with (w_ng (window L)); case: eqP => hn; cbn [negb]; last by [].
change (w_rows (window L')) with (w_rows (window L)); change (w_cols (window L')) with (w_cols (window L)).
case: (order_lookups _ _ _ _ T) => [e|//]; cbn [bind]; case: (order_lookups _ _ _ _ Ti) => [v|//]; cbn [bind]; congr Ok.
have tw : (twopi / (s * wl) = t * (twopi / wl))%Re by rewrite /twopi; exact: k0_longer.
have tp : (twopi / wl <> 0)%Re.
  by rewrite /twopi /Rdiv; apply: Rmult_integral_contrapositive_currified; [have := PI_RGT_0; lra|exact: Rinv_neq_0_compat].
have es : RtoC s * RtoC t = 1 by rewrite -ScaleProofs.RtoC_mul st.
have iv : (RtoC (t * (twopi / wl))%Re)^-1 = RtoC s * (RtoC (twopi / wl)%Re)^-1.
  rewrite ScaleProofs.RtoC_mul invfM; congr (_ * _); rewrite -[LHS]mulr1 -es [RtoC s * _]mulrC mulKf //.
have e1 : ieo (s * wl) = RtoC t * ieo wl by rewrite /ieo tw ScaleProofs.RtoC_mul; cring.
have e2 : imo (s * wl) = RtoC t * imo wl by rewrite /imo tw ScaleProofs.RtoC_mul; cring.
have e3 : iseo (s * wl) = RtoC s * iseo wl by rewrite /iseo tw iv; cring.
have e4 : ismo (s * wl) = RtoC s * ismo wl by rewrite /ismo tw iv; cring.
change (w_flat (window L')) with (fun q => sl (w_flat (window L) q)); move: (w_flat (window L)) => W.
have hx g : RtoC (uvec (sl kp) (sl g)).1 = RtoC t * RtoC (uvec kp g).1 by rewrite wide_uvec /slower -ScaleProofs.RtoC_mul.
have hy g : RtoC (uvec (sl kp) (sl g)).2 = RtoC t * RtoC (uvec kp g).2 by rewrite wide_uvec /slower -ScaleProofs.RtoC_mul.
rewrite quad_scale; apply: eq_quad => x hx0 y hy0; apply/matrixP => i j.
have ad (M N : 'M[C]_n) x0 y0 : (M + N) x0 y0 = M x0 y0 + N x0 y0 by rewrite mxE.
have op (M : 'M[C]_n) x0 y0 : (- M) x0 y0 = - M x0 y0 by rewrite mxE.
have sc (M : 'M[C]_n) c x0 y0 : (c *: M) x0 y0 = c * M x0 y0 by rewrite mxE.
have z0 x0 y0 : (0 : 'M[C]_n) x0 y0 = 0 by rewrite mxE.
have fm (f : 'I_n -> 'I_n -> C) x0 y0 : (\matrix_(i0, j0) f i0 j0) x0 y0 = f x0 y0 by rewrite mxE.
have dg f x0 y0 : (dgf f : 'M[C]_n) x0 y0 = if x0 == y0 then f x0 else 0 by rewrite !mxE; case: eqP => [->|]; rewrite ?mulr1n ?mulr0n.
move: es => /= es; have es' : Cmult (RtoC s) (RtoC t) = RtoC 1 := es.
case: x hx0 => [|[|[|[|x]]]] // _; case: y hy0 => [|[|[|[|y]]]] // _; cbv beta iota;
  rewrite ?(sc, ad, op, z0, dg) ?fm; cbv beta; rewrite ?hx ?hy ?e1 ?e2 ?e3 ?e4; case: (i == j);
  move: (RtoC (uvec kp (W i)).1) (RtoC (uvec kp (W i)).2) (RtoC (uvec kp (W j)).1) (RtoC (uvec kp (W j)).2) => x1 x2 x3 x4; toC; ring [es'].
Qed.

(** The permittivity. *)
Lemma wide_table J1 sh b : (forall i j, exists m1 m2, w_at (l_G L) i j = order_vector b m1 m2) -> 
  ((if sh is Disc _ _ _ then true else false) -> resolved b /\ resolved (sl b.1, sl b.2)) ->
  grid_transform J1 (longer_shape s sh) (l_G L') (l_area L') = grid_transform J1 sh (l_G L) (l_area L).
Proof.
move=> hg hr; rewrite /grid_transform; set xs := [seq _ | i <- _]; set ys := [seq _ | i <- _].
have exy : xs = map (slower s) ys by rewrite /xs /ys -map_comp.
have [idx ei] : exists idx, ys = gvecs b idx.
  rewrite /ys; elim: (iota _ _) => [|i l [idx IH]]; first by exists [::].
  have [m1 [m2 e]] := hg (i %/ w_cols (l_G L))%N (i %% w_cols (l_G L))%N; exists ((m1, m2) :: idx) => /=; by rewrite e IH.
rewrite exy ei (transform_longer s0 J1 idx (l_area L) hr) //.
Qed.
End L.
End Scale.
