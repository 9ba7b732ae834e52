(** The theorems about beams, as stated in PropBeams. *)
From Coq Require Import Reals ZArith Lra Lia.
From mathcomp Require Import all_ssreflect all_algebra.
From Coquelicot Require Import Complex.
From Verif Require Import Base CField CFun RField ModelExpansion ModelBeams SpecBeams RotationProofs GridProofs BeamProofs
  ParaxialProofs AmplitudeProofs.
Set Implicit Arguments. Unset Strict Implicit. Unset Printing Implicit Defensive.
Import GRing.Theory.
Local Open Scope ring_scope.

Lemma grid_defined shape a reciproc : is_ok (gen_bzi_grid shape a reciproc) <->
  [/\ shape.1 <> Z0, shape.2 <> Z0 & reciproc = None -> a <> 0%Re].
Proof.
rewrite gridE; split.
  case: ifP => [_|h]; first by case.
  case: ifP => [_|]; first by case.
  move=> /norP [/Z.eqb_spec h1 /Z.eqb_spec h2] _; split => // hr ha.
  by move: h; rewrite hr ha /=; destruct (Req_EM_T 0 0).
move=> [h1 h2 h3]; case: ifP => [/andP [/eqP hr]|_].
  by destruct (Req_EM_T a 0) as [e|e] => // _; case: (h3 hr e).
have /Z.eqb_neq -> := h1; have /Z.eqb_neq -> := h2.
by eexists.
Qed.
Lemma grid_example : exists g, gen_bzi_grid (Zpos 3, Zpos 2) 2 None = Ok g /\
  [/\ size g = 6%N, nth (0%Re, 0%Re) g 0 = ((- (PI / 3))%Re, (- (PI / 4))%Re) & uniq g].
Proof.
have [g hg] : is_ok (gen_bzi_grid (Zpos 3, Zpos 2) 2 None) by apply/grid_defined; split => // _; lra.
exists g; split=> //; split.
- by rewrite (grid_size hg).
- rewrite -[0%N]/(0 * 2 + 0)%N (@grid_nth _ _ _ _ hg 0 0) // /in_basis /middle /=.
  by congr pair; field.
apply: (grid_uniq hg); rewrite /independent /=.
have -> : (2 * PI / 2 * (2 * PI / 2) - 0 * 0 = PI * PI)%Re by field.
by have := PI_RGT_0; nra.
Qed.

Lemma fields_rotated field_fn r origin polar azimuthal polarization :
  let M := rotation_matrix polar azimuthal polarization in
  (forall e, field_fn (M^T *m (r - origin)) = Err e ->
     shifted_rotated_fields field_fn r origin polar azimuthal polarization = Err e) /\
  (forall E H, field_fn (M^T *m (r - origin)) = Ok (E, H) ->
     exists E' H', [/\ shifted_rotated_fields field_fn r origin polar azimuthal polarization = Ok (E', H'),
       E' = real_mx M *m E, H' = real_mx M *m H, sqnorm E' = sqnorm E & sqnorm H' = sqnorm H]).
Proof.
move=> M; rewrite rotated_fields -/M; split=> [e -> //|E H ->] /=.
by exists (real_mx M *m E), (real_mx M *m H); split=> //; apply: real_mx_norm; apply: rotation_orth.
Qed.
Lemma rotation_normal azimuthal polarization : rotation_matrix 0 azimuthal polarization = rotation_z (azimuthal + polarization)%Re.
Proof.
rewrite /rotation_matrix /rotation_p /rotation_z /rotation_y sin_0 cos_0 cos_plus sin_plus.
apply: mx3_ext; entries3; rewrite !mxE !big_ord_recl !big_ord0 !mxE /= !big_ord_recl !big_ord0 !mxE /=; toR; rewrite /=; ring.
Qed.
Lemma rotation_example : rotation_matrix (PI / 2) 0 0 *m e_z = vec3 1%Re 0%Re 0%Re.
Proof.
rewrite rotation_direction /direction sin_0 cos_0 sin_PI2 cos_PI2.
by apply/matrixP => i j; rewrite !mxE; case: i => [[|[|[|?]]] //= ?]; toR; rewrite /=; ring.
Qed.

Lemma lowest_beam genlaguerre x y z wl w0 er : (forall u, genlaguerre 0%N 0%N u = 1%Re) ->
  paraxial_laguerre genlaguerre x y z wl w0 er 0%N Z0 = paraxial_gaussian x y z wl w0 er.
Proof. by move=> h; rewrite /paraxial_laguerre laguerre00. Qed.
Lemma beam_defined x y z wl w0 er : is_ok (paraxial_gaussian x y z wl w0 er) <-> [/\ wl <> 0, (0 < er) & w0 <> 0]%Re.
Proof.
rewrite /paraxial_gaussian; split=> [[b /guardP [? ? ? _]]|[h1 h2 h3]] //.
by eexists; apply/guardP.
Qed.
Lemma beam_fields x y z wl w0 er E H : paraxial_gaussian x y z wl w0 er = Ok (E, H) ->
  [/\ wl <> 0%Re, w0 <> 0%Re, (0 < er)%Re & let ex := gaussian_ex x y z wl w0 er in
   [/\ E = vec3 ex 0 0, H = vec3 0 (ex / RtoC (sqrt er)) 0 & E ord0 ord0 = ex]].
Proof. by move/guardP => [h1 h2 h3 [-> ->]]; split=> //; split=> //; rewrite mxE. Qed.
Lemma gaussian_pos x y z wl w0 er : wl <> 0%Re -> w0 <> 0%Re -> (0 < er)%Re -> (0 < Cmod (gaussian_ex x y z wl w0 er))%Re.
Proof.
move=> h1 h2 h3; rewrite gaussian_mod //; apply: Rmult_lt_0_compat; last exact: exp_pos.
by apply: Rinv_0_lt_compat; have := spread_ge1 wl w0 er z; lra.
Qed.
Lemma beam_modulus x y z wl w0 er E H : paraxial_gaussian x y z wl w0 er = Ok (E, H) ->
  let ex := E ord0 ord0 in
  [/\ E = vec3 ex 0 0, H = vec3 0 (ex / RtoC (sqrt er)) 0, (0 < Cmod ex <= 1)%Re &
      Cmod ex = 1%Re <-> [/\ x = 0, y = 0 & z = 0]%Re].
Proof.
move=> /beam_fields [h1 h2 h3 [eE eH ex]]; rewrite ex /=.
have [l1 l2] := gaussian_le1 h1 h2 h3 x y z.
by split=> //; split=> //; apply: gaussian_pos.
Qed.
Lemma beam_profile x y z wl w0 er E H : paraxial_gaussian x y z wl w0 er = Ok (E, H) ->
  let zeta := (z * wl / (PI * (w0 * w0) * sqrt er))%Re in
  let w := (w0 * w0 * (1 + zeta * zeta))%Re in
  (Cmod (E ord0 ord0) * Cmod (E ord0 ord0) = w0 * w0 / w * exp (- (2 * (x * x + y * y) / w)))%Re.
Proof.
move=> /beam_fields [h1 h2 h3 [_ _ ->]] zeta w; rewrite gaussian_mod //.
have z1 := rayleigh_neq0 h1 h2 h3.
have s0 := sqrt_lt_R0 _ h3; have P0 := PI_neq0.
have ez : (z / rayleigh w0 er wl = zeta)%Re by rewrite /zeta /rayleigh; field; repeat split => //; lra.
rewrite ez -/w; have s1 := spread_ge1 wl w0 er z; have s2 := spread_sq wl w0 er z; rewrite ez in s2.
have w1 : (0 < w0 * w0)%Re by nra.
have w2 : (0 < w)%Re by rewrite /w; apply: Rmult_lt_0_compat => //; nra.
set e := exp _; have -> : (exp (- (2 * (x * x + y * y) / w)) = e * e)%Re.
  by rewrite /e -exp_plus; congr exp; field; lra.
have -> : (w0 * w0 / w = / (spread wl w0 er z * spread wl w0 er z))%Re by rewrite s2 /w; field; split; nra.
by field; lra.
Qed.
Lemma beam_example : exists E H, [/\ paraxial_gaussian 0 0 3 2 5 4 = Ok (E, H) & (Cmod (E ord0 ord0) < 1)%Re].
Proof.
have [[E H] h] : is_ok (paraxial_gaussian 0 0 3 2 5 4) by apply/beam_defined; split; lra.
exists E, H; split=> //; have [_ _ [_ l1] l2] := beam_modulus h.
by case: (Rle_lt_or_eq_dec _ _ l1) => // /l2 [_ _]; lra.
Qed.

Lemma beam_impedance x y z wl w0 er E H : paraxial_gaussian x y z wl w0 er = Ok (E, H) ->
  H (inord 1) ord0 = RtoC (sqrt er) * E ord0 ord0 <-> er = 1%Re.
Proof.
move=> /beam_fields [h1 h2 h3 [_ -> ->]]; set ex := gaussian_ex _ _ _ _ _ _.
have s0 := sqrt_lt_R0 _ h3.
have n0 : RtoC (sqrt er) != 0 by apply/eqP => /RtoC_inj; lra.
have x0 : ex != 0 by apply/eqP => e; have := gaussian_pos x y z h1 h2 h3; rewrite -/ex e Cmod_0; lra.
rewrite mxE inordK //=; split=> [e|->]; last by rewrite sqrt_1 divr1 mul1r.
have e1 : ex * 1 = ex * (RtoC (sqrt er) * RtoC (sqrt er)).
  by rewrite mulr1 -[LHS](divfK n0) e mulrAC mulrC.
have := mulfI x0 e1; rewrite mulCE -RtoC_mult sqrt_sqrt; last lra.
by move/RtoC_inj.
Qed.
Lemma beam_impedance_wrong : exists wl w0 er E H, [/\ (1 < er)%Re, paraxial_gaussian 0 0 0 wl w0 er = Ok (E, H) &
  H (inord 1) ord0 <> RtoC (sqrt er) * E ord0 ord0].
Proof.
have [[E H] h] : is_ok (paraxial_gaussian 0 0 0 1 1 4) by apply/beam_defined; split; lra.
exists 1%Re, 1%Re, 4%Re, E, H; split=> //; first lra.
by move/(beam_impedance h); lra.
Qed.
Lemma medium_wrong : exists wl w0 er, [/\ wl <> 0%Re, w0 <> 0%Re, (0 < er)%Re &
  ~ paraxial_at (wavenumber wl er) (fun x y z => gaussian_ex x y z wl w0 er) 0 0 0].
Proof.
exists 1%Re, 1%Re, 4%Re; split; try lra.
by move/medium_paraxial => h; have := h R1_neq_R0 R1_neq_R0; lra.
Qed.
Lemma dark_axis genlaguerre z wl w0 er p l : l <> Z0 -> laguerre_ex genlaguerre 0 0 z wl w0 er p l = 0.
Proof.
move=> hl; rewrite /laguerre_ex (_ : 0 * 0 + 0 * 0 = 0)%Re ?sqrt_0; last ring.
by rewrite Rmult_0_l (_ : 0 / _ = 0)%Re ?pow_i; [rewrite !(mul0r, mulr0)|lia|rewrite /Rdiv Rmult_0_l].
Qed.
Lemma charge_example genlaguerre : laguerre_ex genlaguerre 0 1 0 1 1 1 0 (Zpos 1) = ci * laguerre_ex genlaguerre 1 0 0 1 1 1 0 (Zpos 1).
Proof.
have := laguerre_turn genlaguerre 1 0 0 1 1 1 (PI / 2) 0 (Zpos 1).
rewrite cos_PI2 sin_PI2 !Rmult_1_l !Rmult_0_r !Rminus_0_r Rplus_0_r Rmult_0_l => ->.
by rewrite cexp_i cos_PI2 sin_PI2.
Qed.
Lemma separated_example : separated 3 [:: (Zneg 1, Z0); (Z0, Z0); (Zpos 1, Z0)].
Proof. by move=> [|[|[|i]]] [|[|[|j]]] //= _ _; split => //; lia. Qed.
Lemma uniform_amplitude : exists fields A,
  [/\ forall r c al be, fields r c al be = 1,
      amplitudes_from_fields 2 2 fields (grid_x 1 2) (grid_y 1 2) [:: (0%Re, 0%Re)] (0%Re, 0%Re) (1, 1)%N = Ok A &
      nth 0 (nth [::] A 0) 0 = 2%:R].
Proof.
pose F (r c al be : nat) : C := 1.
have [A hA] : is_ok (amplitudes_from_fields 2 2 F (grid_x 1 2) (grid_y 1 2) [:: (0%Re, 0%Re)] (0%Re, 0%Re) (1, 1)%N).
  by apply/amplitudes_defined; exists 2%N.
exists F, A; split=> //.
have e : [:: (0%Re, 0%Re)] = map (order_vec 1) [:: (Z0, Z0)].
  by rewrite /order_vec /=; congr [:: (_, _)]; field.
have hs : separated 2 [:: (Z0, Z0)] by move=> [|i] [|j] //= _ _; split => //; lia.
rewrite e in hA.
have hF r c al be : (r < 2)%N -> (c < 2)%N -> (al < 2)%N -> (be < 2)%N ->
  F r c al be = plane_waves (vadd (0%Re, 0%Re) (zone_vec 1 (1, 1)%N (Z0, Z0))) (map (order_vec 1) [:: (Z0, Z0)]) (fun _ => 1) (grid_x 1 2 r c) (grid_y 1 2 r c).
  move=> _ _ _ _; rewrite /plane_waves big_ord_recl big_ord0 addr0 mul1r /F -[LHS]cexp0; congr cexp.
  by apply: C_ext => /=; field.
have [_ hk] := @amplitudes_scaled (1, 1)%N 2 1 [:: (Z0, Z0)] (0%Re, 0%Re) (Z0, Z0) (fun _ _ _ => 1)
  isT isT isT R1_neq_R0 hs erefl erefl F hF A hA.
by have [_ ->] := hk 0%N 0%N isT isT; rewrite /= mulr1.
Qed.
