(** A film on a substrate in the T-matrix API, against the crystal API. *)
From Coq Require Import Reals ZArith Lra Lia String.
From mathcomp Require Import all_ssreflect all_algebra.
From Coquelicot Require Import Complex Rbar.
From Verif Require Import Base CField CFun ModelRedheffer ModelExpansion ModelFourier Blk ModelTmat SpecTmat TmatProofs
  ModelLattice SpecLattice LatticeProofs LookupProofs CurrentProofs TmatExamples TmatTheorems SpecThinFilm SpecFresnel FilmProofs
  SpecEnergy EnergyAlg NormalProofs FourierProofs ModelFlux ModelDevice SpecDevice FilmDevice DeviceExamples.
Set Implicit Arguments. Unset Strict Implicit. Unset Printing Implicit Defensive.
Import GRing.Theory.
Local Open Scope ring_scope.

(** Airy's formulas as polynomials. *)
Definition airy_N (a b c phi : C) : C := (a + b) * (b + c) + (a - b) * (b - c) * (phi * phi).
Lemma airyE (a b c phi : C) : a + b <> 0 -> b + c <> 0 -> airy_N a b c phi <> 0 ->
  airy_t a b c phi = (1 + 1) * (1 + 1) * a * b * phi / airy_N a b c phi /\
  airy_r a b c phi = ((a - b) * (b + c) + (a + b) * (b - c) * (phi * phi)) / airy_N a b c phi.
Proof.
move=> ab bc n0.
have e : 1 + fresnel_r a b * fresnel_r b c * phi ^+ 2 = airy_N a b c phi / ((a + b) * (b + c)).
  by rewrite /fresnel_r /airy_N; ctwo; cfield.
have n0' := n0; rewrite /airy_N in n0'.
by split; rewrite /airy_t /airy_r e /airy_N /fresnel_t /fresnel_r; ctwo; cfield; repeat split.
Qed.
Section Stack.
Variables (a b c phi : C).
Hypotheses (a0 : a <> 0) (ab : a + b <> 0) (bc : b + c <> 0) (ac : a + c <> 0).
Hypotheses (n2 : airy_N a b a phi <> 0) (n3 : airy_N a b c phi <> 0).
Lemma stack_out P0 P2 M0 M2 Q0 :
  M0 = airy_t a b a phi * P0 + airy_r a b a phi * M2 -> P2 = airy_r a b a phi * P0 + airy_t a b a phi * M2 ->
  M2 = fresnel_r a c * M0 -> Q0 = fresnel_t a c * M0 ->
  Q0 = airy_t a b c phi * P0 /\ P2 = airy_r a b c phi * P0.
Proof.
have ba : b + a <> 0 by rewrite addrC.
have two0 : (1 + 1 : C) <> 0 by apply/eqP; exact: two_neq0.
have [-> ->] := airyE ab bc n3; have [-> ->] := airyE ab ba n2.
move=> h1 h2 h3 h4.
have e : M0 * ((1 + 1) * a * airy_N a b c phi) = (a + c) * ((1 + 1) * (1 + 1) * a * b * phi) * P0.
  have -> : M0 * ((1 + 1) * a * airy_N a b c phi) = (a + c) * airy_N a b a phi *
     (M0 - ((a - b) * (b + a) + (a + b) * (b - a) * (phi * phi)) / airy_N a b a phi * (fresnel_r a c * M0)).
    by have n2' := n2; rewrite /fresnel_r; rewrite /airy_N in n2' *; cfield.
  rewrite -h3 {1}h1 addrK; by cfield.
have hM : M0 = (1 + 1) * b * phi * (a + c) / airy_N a b c phi * P0.
  apply: (mulIf (x := (1 + 1) * a * airy_N a b c phi)); first by rewrite !mulf_neq0 //; apply/eqP.
  by rewrite e; cfield.
have n2' := n2; have n3' := n3; rewrite /airy_N in n2' n3'.
by split; [rewrite h4 hM /fresnel_t|rewrite h2 h3 hM /fresnel_r]; rewrite /airy_N; ctwo; cfield.
Qed.
End Stack.

(** Admittances of the two polarisations at normal incidence. *)
Lemma airy_scale (k a b c phi : C) : k <> 0 -> a + b <> 0 -> b + c <> 0 -> airy_N a b c phi <> 0 ->
  airy_t (k * a) (k * b) (k * c) phi = airy_t a b c phi /\ airy_r (k * a) (k * b) (k * c) phi = airy_r a b c phi.
Proof.
move=> k0 ab bc n0; have [-> ->] := airyE ab bc n0.
have ab' : k * a + k * b <> 0 by rewrite -mulrDr; apply/eqP; rewrite mulf_neq0 //; apply/eqP.
have bc' : k * b + k * c <> 0 by rewrite -mulrDr; apply/eqP; rewrite mulf_neq0 //; apply/eqP.
have e : airy_N (k * a) (k * b) (k * c) phi = k * k * airy_N a b c phi by rewrite /airy_N; cring.
have n1 : airy_N (k * a) (k * b) (k * c) phi <> 0 by rewrite e; apply/eqP; rewrite !mulf_neq0 //; apply/eqP.
have [-> ->] := airyE ab' bc' n1; rewrite e; by split; cfield.
Qed.
Lemma airy_inv (a b c phi : C) : a <> 0 -> b <> 0 -> c <> 0 -> a + b <> 0 -> b + c <> 0 -> airy_N a b c phi <> 0 ->
  [/\ a^-1 + b^-1 <> 0, b^-1 + c^-1 <> 0, airy_N a^-1 b^-1 c^-1 phi <> 0,
     a / c * airy_t a^-1 b^-1 c^-1 phi = airy_t a b c phi & airy_r a^-1 b^-1 c^-1 phi = - airy_r a b c phi].
Proof.
move=> a0 b0 c0 ab bc n0; have [-> ->] := airyE ab bc n0.
have ab' : a^-1 + b^-1 <> 0.
  have -> : a^-1 + b^-1 = (a + b) / (a * b) by cfield.
  by apply/eqP; rewrite !mulf_neq0 ?invr_eq0 ?mulf_neq0 //; apply/eqP.
have bc' : b^-1 + c^-1 <> 0.
  have -> : b^-1 + c^-1 = (b + c) / (b * c) by cfield.
  by apply/eqP; rewrite !mulf_neq0 ?invr_eq0 ?mulf_neq0 //; apply/eqP.
have e : airy_N a^-1 b^-1 c^-1 phi = airy_N a b c phi / (a * b * b * c) by rewrite /airy_N; cfield.
have n1 : airy_N a^-1 b^-1 c^-1 phi <> 0.
  by rewrite e; apply/eqP; rewrite !mulf_neq0 ?invr_eq0 ?mulf_neq0 //; apply/eqP.
have [-> ->] := airyE ab' bc' n1; by split=> //; rewrite e; cfield.
Qed.
(** No pole for media with a positive real index. *)
Lemma airy_pole (x z : R) (b phi : C) : (0 < x)%Re -> (0 < fst b)%Re -> (0 < z)%Re -> (SpecEnergy.sqmod phi <= 1)%Re ->
  [/\ RtoC x + b <> 0, b + RtoC z <> 0 & airy_N (RtoC x) b (RtoC z) phi <> 0].
Proof.
move=> x0 b0 z0 p1.
have xb : RtoC x + b <> 0 by move/(congr1 fst); rewrite /=; lra.
have bz : b + RtoC z <> 0 by move/(congr1 fst); rewrite /=; lra.
have zb : RtoC z + b <> 0 by move/(congr1 fst); rewrite /=; lra.
split=> // h.
have r1 := ratio_small x0 b0; have r2 := ratio_small z0 b0.
have := small_neqB (sqmod_mul_lt1 (sqmod_mul_le1 (sqmod_mul_le1 p1 p1) (Rlt_le _ _ r1)) r2).
have -> : 1 - phi * phi * ((RtoC x - b) / (RtoC x + b)) * ((RtoC z - b) / (RtoC z + b)) =
  airy_N (RtoC x) b (RtoC z) phi / ((RtoC x + b) * (b + RtoC z)) by rewrite /airy_N; cfield.
by rewrite h mul0r eqxx.
Qed.

(** Layers that keep the orders apart. *)
Definition decouples {n} (S : 'M[C]_((n + n) + (n + n))) := forall g v, S *m only g v = only g (S *m v).
Lemma only_sides n (g : 'I_n) (P : 'cV[C]_((n + n) + (n + n))) (Q : 'cV[C]_((n + n) + (n + n))) :
  usubmx (only g (col_mx (usubmx P) (dsubmx Q))) = usubmx (only g P) /\
  dsubmx (only g (col_mx (usubmx P) (dsubmx Q))) = dsubmx (only g Q).
Proof. by rewrite /only /quarter_of !(col_mxKu, col_mxKd). Qed.
Lemma decouples_sides n (S : 'M[C]_((n + n) + (n + n))) g P Q : decouples S ->
  tscatters S (usubmx P) (dsubmx P) (usubmx Q) (dsubmx Q) ->
  tscatters S (usubmx (only g P)) (dsubmx (only g P)) (usubmx (only g Q)) (dsubmx (only g Q)).
Proof.
move=> dS; rewrite /tscatters => h.
have [e1 e2] := only_sides g P Q; have [e3 e4] := only_sides g Q P.
by rewrite -[RHS]/(S *m _) -e1 -e2 vsubmxK dS -h -e3 -e4 vsubmxK.
Qed.
Lemma decouples_mult n (S1 S2 S : 'M[C]_((n + n) + (n + n))) : decouples S1 -> decouples S2 ->
  multS S1 S2 = Ok S -> decouples S.
Proof.
move=> d1 d2 /multS_joined [_ h] g v.
have := (h (usubmx v) (dsubmx (S *m v)) (usubmx (S *m v)) (dsubmx v)).2.
rewrite /tscatters !vsubmxK => /(_ erefl) [gp [gm [h1 h2]]].
pose P := col_mx (usubmx v) (dsubmx (S *m v)); pose G := col_mx gp gm; pose Q := col_mx (usubmx (S *m v)) (dsubmx v).
have k1 : tscatters S1 (usubmx P) (dsubmx P) (usubmx G) (dsubmx G) by rewrite !(col_mxKu, col_mxKd).
have k2 : tscatters S2 (usubmx G) (dsubmx G) (usubmx Q) (dsubmx Q) by rewrite !(col_mxKu, col_mxKd).
have := (h _ _ _ _).1 (ex_intro _ _ (ex_intro _ _ (conj (decouples_sides g d1 k1) (decouples_sides g d2 k2)))).
have [e1 e2] := only_sides g v (S *m v); have [e3 e4] := only_sides g (S *m v) v.
by rewrite /tscatters -/P -/Q /P /Q e1 e2 e3 e4 !vsubmxK => ->.
Qed.
Lemma decouples_zero n (S : 'M[C]_((n + n) + (n + n))) g v : decouples S ->
  (forall a, (a < 4)%N -> quarter_of v a g 0 = 0) -> forall a, (a < 4)%N -> quarter_of (S *m v) a g 0 = 0.
Proof.
move=> dS h a ha; have : only g (S *m v) = 0.
  rewrite -dS; have -> : only g v = 0; last by rewrite mulmx0.
  by apply: eq_quarters => b hb g'; rewrite onlyE // quarter0 //; case: eqP => // ->; exact: h.
by move/(congr1 (fun u => quarter_of u a g 0)); rewrite onlyE // eqxx quarter0.
Qed.
Lemma interface_decouples n L wl kp (S : 'M[C]_((n + n) + (n + n))) :
  scattering_interface n L wl kp = Ok S -> has_sqrt (l_incid L) -> decouples S.
Proof.
move=> hS hs g v; apply: eq_quarters => a ha g'; rewrite onlyE //.
have [_ _ [e0 e2 e1 e3]] := interface_fresnel hS hs v g'.
have [_ _ [f0 f2 f1 f3]] := interface_fresnel hS hs (only g v) g'.
rewrite !onlyE // in f0 f1 f2 f3.
move: a ha; apply: below4; rewrite ?f0 ?f1 ?f2 ?f3; case: (g' == g); rewrite ?mulr0 ?addr0 //.
Qed.

(** The wavevectors at normal incidence. *)
Lemma k_pos (wl : R) : (0 < wl)%Re -> (0 < 2 * PI / wl)%Re.
Proof. by move=> h; have := PI_RGT_0 => p; apply: Rdiv_lt_0_compat; lra. Qed.
Lemma kz_normal eps wl (w : C) : (0 < wl)%Re -> num_val eps = w * w -> (0 < fst w)%Re -> (0 <= snd w)%Re ->
  compute_kz eps wl (0%Re, 0%Re) (0%Re, 0%Re) = RtoC (2 * PI / wl) * w.
Proof.
move=> hl he w0 w1; have k0 := k_pos hl; set k := (2 * PI / wl)%Re in k0 *.
have q : compute_kz eps wl (0%Re, 0%Re) (0%Re, 0%Re) * compute_kz eps wl (0%Re, 0%Re) (0%Re, 0%Re) = RtoC k * w * (RtoC k * w).
  by rewrite compute_kz2 he; apply: C_ext => /=; rewrite -/k; ring.
have [i1 i2] := kz_halfplane eps wl (0%Re, 0%Re) (0%Re, 0%Re).
move: q i1 i2; move: (compute_kz _ _ _ _) => z q i1 i2.
have : (z - RtoC k * w) * (z + RtoC k * w) = 0 by rewrite mulrDr !mulrBl q; cring.
move/eqP; rewrite mulf_eq0 => /orP [|] /eqP; first by move/subr0_eq.
move=> h; have h1 := congr1 fst h; have h2 := congr1 snd h; rewrite /= in h1 h2.
have p1 := Rmult_lt_0_compat _ _ k0 w0; have p2 : (0 <= k * snd w)%Re by apply: Rmult_le_pos; lra.
have z1 : snd z = 0%Re by lra.
by have := i2 z1; lra.
Qed.
Lemma film_decouples J1 p a1 a2 ei ee L n expm isl host wl kp d pow S :
  mk_lattice p a1 a2 ei ee = Ok L -> window_fits p -> exponential expm -> not_tiny L kp ->
  map snd isl = nseq (size isl) host -> no_anomaly L (Complex host) wl kp ->
  (forall g : 'I_n, p_index L (l_incid L) wl kp g + p_index L (Complex host) wl kp g <> 0) ->
  @scattering_matrix_islands J1 n expm p L isl host wl kp d pow = Ok S -> decouples S.
Proof.
move=> hL hf hx ht hi ha hp hS g v; apply: eq_quarters => a la g'; rewrite onlyE //.
have [e0 e2 /(_ (hp g')) [e1 e3]] := FilmProofs.film_layer hL hf hx ht hi ha hS v g'.
have [f0 f2 /(_ (hp g')) [f1 f3]] := FilmProofs.film_layer hL hf hx ht hi ha hS (only g v) g'.
rewrite !onlyE // in f0 f1 f2 f3.
move: a la; apply: below4; rewrite ?f0 ?f1 ?f2 ?f3; case: (g' == g); rewrite ?mulr0 ?addr0 //.
Qed.

Section Film.
Variables (J1 : R -> R) (p : nat * nat) (a1 a2 : vec2) (L : lattice) (n : nat).
Variable expm : 'M[C]_((n + n) + (n + n)) -> 'M[C]_((n + n) + (n + n)).
Variables (isl : seq (shape * C)) (n1 n3 d wl : R) (w : C) (pow : nat) (S1 S2 S : 'M[C]_((n + n) + (n + n))).
Hypotheses (h1 : (0 < n1)%Re) (h3 : (0 < n3)%Re) (hw : (0 < fst w)%Re) (hw' : (0 <= snd w)%Re) (hd : (0 <= d)%Re) (hl : (0 < wl)%Re).
Let kp : vec2 := (0%Re, 0%Re).
Let host := w * w.
Hypothesis hL : mk_lattice p a1 a2 (Float (n1 * n1)) (Float (n3 * n3)) = Ok L.
Hypotheses (hf : window_fits p) (p1 : (0 < p.1)%N) (hx : exponential expm) (ht : not_tiny L kp).
Hypotheses (hi : map snd isl = nseq (size isl) host) (ha : no_anomaly L (Complex host) wl kp).
Hypothesis hp : forall g : 'I_n, p_index L (l_incid L) wl kp g + p_index L (Complex host) wl kp g <> 0.
Hypothesis hS1 : scattering_matrix_islands J1 expm p L isl host wl kp d pow = Ok S1.
Hypothesis hS2 : scattering_interface n L wl kp = Ok S2.
Let phi := cexp (ci * w * RtoC (d * (2 * PI / wl))%Re).
Let k := RtoC (2 * PI / wl).
Lemma film_media : l_incid L = Float (n1 * n1) /\ l_emerg L = Float (n3 * n3).
Proof. by have [_ _ _ _ [-> -> _ _ _]] := mk_latticeE hL. Qed.
Lemma film_sqrt : has_sqrt (l_incid L).
Proof. by rewrite film_media.1 /=; apply: Rlt_le; apply: Rmult_lt_0_compat. Qed.
Lemma csqrt_pos (x : R) : (0 < x)%Re -> csqrt (RtoC (x * x)) = RtoC x.
Proof. by move=> h; rewrite csqrt_nonneg; [rewrite sqrt_square //; lra|nra]. Qed.
(** The waves of the zero order. *)
Lemma mid_waves lp lm gp gm rp (g : 'I_n) : l_g L g = kp ->
  tscatters S1 lp lm gp gm -> tscatters S2 gp gm rp 0 ->
  [/\ usubmx rp g 0 = airy_t (RtoC n1) w (RtoC n3) phi * usubmx lp g 0,
      usubmx lm g 0 = airy_r (RtoC n1) w (RtoC n3) phi * usubmx lp g 0,
      dsubmx rp g 0 = airy_t (RtoC n1) w (RtoC n3) phi * dsubmx lp g 0 &
      dsubmx lm g 0 = - airy_r (RtoC n1) w (RtoC n3) phi * dsubmx lp g 0] /\
  exists x y x' y' : C, [/\ x <> 0, usubmx rp g 0 = x * usubmx gp g 0 & usubmx gm g 0 = y * usubmx gp g 0] /\
    [/\ x' <> 0, dsubmx rp g 0 = x' * dsubmx gp g 0 & dsubmx gm g 0 = y' * dsubmx gp g 0].
Proof.
rewrite /tscatters => hg k1 k2; have [mi me] := film_media.
have [e0 e2 /(_ (@hp g)) [e1 e3]] := FilmProofs.film_layer hL hf hx ht hi ha hS1 (col_mx lp gm) g.
have [_ _ [f0 f2 f1 f3]] := interface_fresnel hS2 film_sqrt (col_mx gp 0) g.
move: e0 e1 e2 e3 f0 f1 f2 f3; rewrite -k1 -k2.
have q0 (x y : 'cV[C]_(n + n)) : [/\ quarter_of (col_mx x y) 0 g 0 = usubmx x g 0, quarter_of (col_mx x y) 1 g 0 = dsubmx x g 0,
  quarter_of (col_mx x y) 2 g 0 = usubmx y g 0 & quarter_of (col_mx x y) 3 g 0 = dsubmx y g 0].
  by rewrite /quarter_of !(col_mxKu, col_mxKd).
have [-> -> -> ->] := q0 gp lm; have [-> -> -> ->] := q0 lp gm.
have [-> -> -> ->] := q0 rp gm; have [-> -> -> ->] := q0 gp 0.
have z0 : usubmx (0 : 'cV[C]_(n + n)) g 0 = 0 by rewrite !mxE.
have z1 : dsubmx (0 : 'cV[C]_(n + n)) g 0 = 0 by rewrite !mxE.
rewrite z0 z1 !mulr0 !addr0 => e0 e1 e2 e3 f0 f1 f2 f3.
have ki : kz_of L (l_incid L) wl kp g = k * RtoC n1.
  by rewrite /kz_of hg; apply: kz_normal => //=; [rewrite mi /= RtoC_mult|lra].
have ke : kz_of L (l_emerg L) wl kp g = k * RtoC n3.
  by rewrite /kz_of hg; apply: kz_normal => //=; [rewrite me /= RtoC_mult|lra].
have kh : kz_of L (Complex host) wl kp g = k * w.
  by rewrite /kz_of hg; apply: kz_normal.
have kne : k <> 0 by apply/eqP; apply: RtoC_neq0; have := k_pos hl; lra.
have n10 : RtoC n1 <> 0 by apply/eqP; apply: RtoC_neq0; lra.
have n30 : RtoC n3 <> 0 by apply/eqP; apply: RtoC_neq0; lra.
have w0 : w <> 0 by move=> e; move: hw; rewrite e /=; lra.
have ph : cexp (ci * kz_of L (Complex host) wl kp g * RtoC d) = phi.
  by rewrite kh /phi /k; congr cexp; rewrite RtoC_mult; toC; apply: C_ext => /=; ring.
have pi1 : p_index L (l_incid L) wl kp g = k * (RtoC n1)^-1.
  by rewrite /p_index ki mi /= RtoC_mult; toC; cfield.
have pe1 : p_index L (l_emerg L) wl kp g = k * (RtoC n3)^-1.
  by rewrite /p_index ke me /= RtoC_mult; toC; cfield.
have ph1 : p_index L (Complex host) wl kp g = k * w^-1.
  by rewrite /p_index kh /= /host; cfield.
have p1' : (SpecEnergy.sqmod phi <= 1)%Re.
  by apply: cexp_le1 => /=; have := k_pos hl => kk; have := Rmult_le_pos _ _ hd (Rlt_le _ _ kk) => dk; have := Rmult_le_pos _ _ hw' dk; lra.
have [ab bc nn3] := airy_pole h1 hw h3 p1'.
have [_ ba nn2] := airy_pole h1 hw h1 p1'.
have ac : RtoC n1 + RtoC n3 <> 0 by move/(congr1 fst); rewrite /=; lra.
have [ab' bc' nn3' ta ra] := airy_inv n10 w0 n30 ab bc nn3.
have [_ ba' nn2' _ _] := airy_inv n10 w0 n10 ab ba nn2.
have [sc1 sc2] := airy_scale kne ab bc nn3; have [sc3 sc4] := airy_scale kne ab ba nn2.
have [sc5 sc6] := airy_scale kne ab' bc' nn3'; have [sc7 sc8] := airy_scale kne ab' ba' nn2'.
have fs : forall a b : C, a + b <> 0 -> fresnel_t (k * a) (k * b) = fresnel_t a b /\ fresnel_r (k * a) (k * b) = fresnel_r a b.
  move=> a b s; have s' : k * a + k * b <> 0 by rewrite -mulrDr; apply/eqP; rewrite mulf_neq0 //; apply/eqP.
  by rewrite /fresnel_t /fresnel_r; split; ctwo; cfield.
have aci : (RtoC n1)^-1 + (RtoC n3)^-1 <> 0.
  have -> : (RtoC n1)^-1 + (RtoC n3)^-1 = (RtoC n1 + RtoC n3) / (RtoC n1 * RtoC n3) by cfield.
  by apply/eqP; rewrite !mulf_neq0 ?invr_eq0 ?mulf_neq0 //; apply/eqP.
have in1 : (RtoC n1)^-1 <> 0 by apply/eqP; rewrite invr_eq0; apply/eqP.
rewrite /s_index ki ?ph kh in e0 e2; rewrite /s_index ki ke in f0 f2; rewrite pi1 ph1 ph in e1 e3; rewrite pi1 pe1 in f1 f3.
have [fs1 fs2] := fs _ _ ac; have [fp1 fp2] := fs _ _ aci.
rewrite sc3 sc4 in e0 e2; rewrite sc7 sc8 in e1 e3; rewrite fs1 fs2 in f0 f2; rewrite fp1 fp2 in f1 f3.
have [r0 r2] := stack_out n10 ab bc ac nn2 nn3 e0 e2 f2 f0.
have rr : csqrt (num_val (l_incid L)) / csqrt (num_val (l_emerg L)) = RtoC n1 / RtoC n3 by rewrite mi me /= !csqrt_pos.
rewrite rr in f1.
have f1' : (RtoC n1 / RtoC n3)^-1 * dsubmx rp g 0 = fresnel_t (RtoC n1)^-1 (RtoC n3)^-1 * dsubmx gp g 0.
  by rewrite f1; move: (fresnel_t _ _) (dsubmx gp g 0) => X Y; cfield.
have [r1 r3] := stack_out in1 ab' bc' aci nn2' nn3' e1 e3 f3 f1'.
have two0 : (1 + 1 : C) <> 0 by apply/eqP; exact: two_neq0.
split.
  split=> //; last by rewrite r3 ra.
  have nn : RtoC n1 / RtoC n3 != 0 by rewrite mulf_neq0 ?invr_eq0 //; apply/eqP.
  by rewrite -ta -[RHS]mulrA -r1 mulrA mulfV // mul1r.
exists (fresnel_t (RtoC n1) (RtoC n3)), (fresnel_r (RtoC n1) (RtoC n3)), (RtoC n1 / RtoC n3 * fresnel_t (RtoC n1)^-1 (RtoC n3)^-1),
  (fresnel_r (RtoC n1)^-1 (RtoC n3)^-1); split; split=> //; apply/eqP.
  by rewrite /fresnel_t !mulf_neq0 ?invr_eq0 ?two_neq0 //; apply/eqP.
by rewrite /fresnel_t !mulf_neq0 ?invr_eq0 ?two_neq0 //; apply/eqP.
Qed.
Lemma no_trapped gp gm lm rp (g : 'I_n) : l_g L g = kp -> tscatters S1 0 lm gp gm -> tscatters S2 gp gm rp 0 ->
  [/\ usubmx gp g 0 = 0, usubmx gm g 0 = 0, dsubmx gp g 0 = 0 & dsubmx gm g 0 = 0].
Proof.
move=> hg k1 k2; have [[r0 _ r1 _] [x [y [x' [y' [[x0 e1 e2] [x0' e3 e4]]]]]]] := mid_waves hg k1 k2.
have z0 : usubmx (0 : 'cV[C]_(n + n)) g 0 = 0 by rewrite !mxE.
have z1 : dsubmx (0 : 'cV[C]_(n + n)) g 0 = 0 by rewrite !mxE.
rewrite z0 mulr0 in r0; rewrite z1 mulr0 in r1.
have u0 : usubmx gp g 0 = 0 by apply: (mulfI (x := x)); [apply/eqP|rewrite mulr0 -e1].
have u1 : dsubmx gp g 0 = 0 by apply: (mulfI (x := x')); [apply/eqP|rewrite mulr0 -e3].
by rewrite e2 e4 u0 u1 !mulr0.
Qed.
Hypothesis hS : multS S1 S2 = Ok S.
Lemma stack_decouples : decouples S.
Proof.
apply: decouples_mult hS; last exact: interface_decouples hS2 film_sqrt.
exact: film_decouples hL hf hx ht hi ha hp hS1.
Qed.
Lemma zero_waves v (g : 'I_n) : l_g L g = kp -> dsubmx v = 0 ->
  [/\ quarter_of (S *m v) 0 g 0 = airy_t (RtoC n1) w (RtoC n3) phi * quarter_of v 0 g 0,
      quarter_of (S *m v) 2 g 0 = airy_r (RtoC n1) w (RtoC n3) phi * quarter_of v 0 g 0,
      quarter_of (S *m v) 1 g 0 = airy_t (RtoC n1) w (RtoC n3) phi * quarter_of v 1 g 0 &
      quarter_of (S *m v) 3 g 0 = - airy_r (RtoC n1) w (RtoC n3) phi * quarter_of v 1 g 0].
Proof.
move=> hg hv.
have := ((multS_joined hS).2 (usubmx v) (dsubmx (S *m v)) (usubmx (S *m v)) (dsubmx v)).2.
rewrite {1}/tscatters !vsubmxK => /(_ erefl) [gp [gm [k1]]]; rewrite hv => k2.
by have [[]] := mid_waves hg k1 k2.
Qed.
Lemma sum_only (V : zmodType) (g0 : 'I_n) (f : 'I_n -> V) : (forall g, g != g0 -> f g = 0) -> \sum_g f g = f g0.
Proof. by move=> h; rewrite (bigD1 g0) //= big1 ?addr0. Qed.
Lemma sq_sqmod z : ModelLattice.sqmod z = SpecEnergy.sqmod z.
Proof. by rewrite CurrentProofs.sqmodE. Qed.
Lemma stack_fluxes E0 pp sp pin kp' f : tmat_incident n p E0 pp sp = Ok pin -> compute_fluxes L wl pin (S *m pin) kp' = Ok f ->
  f.1 = (SpecEnergy.sqmod (airy_r (RtoC n1) w (RtoC n3) phi), (n3 / n1 * SpecEnergy.sqmod (airy_t (RtoC n1) w (RtoC n3) phi))%Re) /\
  (f.2 = 1 - f.1.1 - f.1.2)%Re.
Proof.
rewrite /tmat_incident; case: eqP => // hn; set g0 := (p.1 %/ 2 + p.1 * (p.2 %/ 2))%N.
case hg : (g0 < n)%N => //; set pin' := col_mx _ _ => -[<-]; clear pin.
pose o : 'I_n := Ordinal hg.
have zg : l_g L o = kp := window_zero hL p1.
have dv : dsubmx pin' = 0 by rewrite /pin' col_mxKd col_mx0.
have [w0 w2 w1 w3] := zero_waves zg dv.
have qz g : g != o -> forall a, (a < 4)%N -> quarter_of pin' a g 0 = 0.
  move=> ng; apply: below4; rewrite /quarter_of /pin' !(col_mxKu, col_mxKd) mxE //.
  - by rewrite ifF //; apply/negbTE.
  - by rewrite ifF //; apply/negbTE.
have oz g : g != o -> forall a, (a < 4)%N -> quarter_of (S *m pin') a g 0 = 0.
  by move=> ng; apply: decouples_zero; [exact: stack_decouples|exact: qz].
have [mi me] := film_media; have ef := feps.
have ki : compute_kz (l_incid L) wl (0%Re, 0%Re) (l_g L o) = RtoC (2 * PI / wl * n1).
  by rewrite zg RtoC_mult; apply: kz_normal => //=; [rewrite mi /= RtoC_mult|lra].
have ke : compute_kz (l_emerg L) wl (0%Re, 0%Re) (l_g L o) = RtoC (2 * PI / wl * n3).
  by rewrite zg RtoC_mult; apply: kz_normal => //=; [rewrite me /= RtoC_mult|lra].
rewrite /compute_fluxes /compute_currents; case: eqP => // _; destruct (Req_EM_T wl 0) as [h|h] => //; cbn [is_left bind].
have -> : (if Rlt_dec (Rabs (snd (num_val (l_emerg L)))) float_eps then false else true) = false.
  by rewrite me /= Rabs_R0; destruct (Rlt_dec 0 float_eps).
have two0 (P : 'cV[C]_((n + n) + (n + n))) a b g : quarter_of P a g 0 = 0 -> quarter_of P b g 0 = 0 ->
   RtoC (ModelLattice.sqmod (quarter_of P a g 0%R) + ModelLattice.sqmod (quarter_of P b g 0%R))%Re = 0.
  by move=> -> ->; rewrite CurrentProofs.sqmodE; apply: C_ext => /=; ring.
cbn [bind negb].
rewrite !(sum_only (g0 := o)).
- rewrite ki ke w0 w1 w2 w3; have sr x : snd (RtoC x) = 0%Re by [].
  rewrite !sr Rabs_R0.
  destruct (Rle_dec 0 float_eps) as [k1|k1]; last by exfalso; lra.
  destruct (Rlt_dec 0 float_eps) as [k2|k2]; last by exfalso; lra.
  cbn [is_left]; move: (airy_r _ _ _ _) (airy_t _ _ _ _) => r t; rewrite !sq_sqmod !sqmodM NormalProofs.sqmodN.
  set A := SpecEnergy.sqmod (quarter_of pin' 0 o 0); set B := SpecEnergy.sqmod (quarter_of pin' 1 o 0).
  set q := (l_area L / _)%Re.
  have kk := k_pos hl; set K := (2 * PI / wl)%Re in kk *; clearbody q K A B.
  case: eqP => // nz [<-]; cbn [fst snd]; split=> //.
  have e1 : RtoC q * RtoC (K * n1) * RtoC (A + B) = RtoC (q * (K * n1) * (A + B)) by rewrite !RtoC_mult.
  have nz' : (q * (K * n1) * (A + B) <> 0)%Re by move=> e; apply: nz; rewrite e1 e.
  have q0 : q <> 0%Re by move=> e; apply: nz'; rewrite e; ring.
  have i0 : (A + B)%Re <> 0%Re by move=> e; apply: nz'; rewrite e; ring.
  have rat (x y : R) : (0 <= x)%Re -> (0 < y)%Re -> Cmod (RtoC q * RtoC (K * y) * RtoC (x * A + x * B) / (RtoC q * RtoC (K * n1) * RtoC (A + B))) = (y / n1 * x)%Re.
    move=> x0 y0; have -> : RtoC q * RtoC (K * y) * RtoC (x * A + x * B) / (RtoC q * RtoC (K * n1) * RtoC (A + B)) = RtoC (y / n1 * x).
      have -> : RtoC (y / n1 * x) = RtoC y / RtoC n1 * RtoC x by rewrite RtoC_mult RtoC_div //; lra.
      rewrite -Rmult_plus_distr_l !RtoC_mult.
      have : RtoC q <> 0 by apply/eqP; apply: RtoC_neq0.
      have : RtoC K <> 0 by apply/eqP; apply: RtoC_neq0; lra.
      have : RtoC n1 <> 0 by apply/eqP; apply: RtoC_neq0; lra.
      have : RtoC (A + B) <> 0 by apply/eqP; apply: RtoC_neq0.
      move: (RtoC q) (RtoC K) (RtoC n1) (RtoC (A + B)) (RtoC y) (RtoC x) => a b c d' e u *; toC; by cfield.
    rewrite Cmod_R Rabs_pos_eq //; apply: Rmult_le_pos => //; apply: Rlt_le; exact: Rdiv_lt_0_compat.
  have s0 z : (0 <= SpecEnergy.sqmod z)%Re by rewrite /SpecEnergy.sqmod; nra.
  rewrite !rat //; congr (_, _); field; lra.
- by move=> g ng; rewrite two0 ?mulr0; [case: ifP|exact: oz|exact: oz].
- by move=> g ng; rewrite two0 ?mulr0; [case: ifP|exact: oz|exact: oz].
- by move=> g ng; rewrite two0 ?mulr0; [case: ifP|exact: qz|exact: qz].
Qed.
End Film.

(** The same film in the two APIs: time goes the other way, permittivities are
    conjugate. *)
Lemma airy_conj (a b c phi : C) :
  airy_t (Cconj a) (Cconj b) (Cconj c) (Cconj phi) = Cconj (airy_t a b c phi) /\
  airy_r (Cconj a) (Cconj b) (Cconj c) (Cconj phi) = Cconj (airy_r a b c phi).
Proof.
rewrite /airy_t /airy_r /fresnel_t /fresnel_r.
by split; ctwo; rewrite !(conjCM, conjCV, conjCD, conjCN, conjC1).
Qed.
Lemma sqmod_conj z : SpecEnergy.sqmod (Cconj z) = SpecEnergy.sqmod z.
Proof. by rewrite /SpecEnergy.sqmod /=; ring. Qed.
Lemma same_film eig J1 J1' (n1 n3 d wl : R) (w te tm : C) :
  (0 < n1)%Re -> (0 < n3)%Re -> (0 < fst w)%Re -> (snd w <= 0)%Re -> (0 <= d)%Re -> (0 < wl)%Re -> (te, tm) <> (0, 0) ->
  exists (c0 c c' : crystal 1),
  [/\ multilayer 1 (RtoC (n1 * n1)%Re) (RtoC (n3 * n3)%Re) = Ok c0,
      history eig J1 c0 [:: AddUniform "film" (w * w) d; SetDevice [:: "film"%string] (inl true);
                            SetSource wl te tm 0 0 None] c,
      step eig J1 c Solve c', good_source c' &
  forall p a1 a2 L n (expm : 'M[C]_((n + n) + (n + n)) -> 'M[C]_((n + n) + (n + n))) isl pow S1 S2 S E0 pp sp pin kp' f,
  let kp := (0%Re, 0%Re) in let host := Cconj (w * w) in
  mk_lattice p a1 a2 (Float (n1 * n1)) (Float (n3 * n3)) = Ok L -> window_fits p -> (0 < p.1)%N -> exponential expm ->
  not_tiny L kp -> map snd isl = nseq (size isl) host -> no_anomaly L (Complex host) wl kp ->
  (forall g : 'I_n, p_index L (l_incid L) wl kp g + p_index L (Complex host) wl kp g <> 0) ->
  scattering_matrix_islands J1' expm p L isl host wl kp d pow = Ok S1 -> scattering_interface n L wl kp = Ok S2 ->
  multS S1 S2 = Ok S -> tmat_incident n p E0 pp sp = Ok pin -> compute_fluxes L wl pin (S *m pin) kp' = Ok f ->
  poynting_flux_end c' = Ok f.1 /\ (f.2 = 1 - f.1.1 - f.1.2)%Re].
Proof.
move=> h1 h3 hw hw' hd hl ht; have [c0 [c [c' [m1 m2 m3 m4 m5]]]] := @film_device eig J1 n1 n3 d wl w te tm h1 h3 hw hw' hd hl ht.
exists c0, c, c'; split=> // p a1 a2 L n expm isl pow S1 S2 S E0 pp sp pin kp' f kp host hL hf p1 hx hn hi ha hp hS1 hS2 hS hin hfl.
have wc : (0 <= snd (Cconj w))%Re by rewrite /=; lra.
have eh : host = Cconj w * Cconj w by rewrite /host conjCM.
rewrite eh in hi ha hp hS1.
have hwc : (0 < fst (Cconj w))%Re by [].
have [e e2] := stack_fluxes h1 h3 hwc wc hd hl hL hf p1 hx hn hi ha hp hS1 hS2 hS hin hfl.
split=> //; rewrite m5 e.
have ph : cexp (ci * Cconj w * RtoC (d * (2 * PI / wl))) = Cconj (cexp (- (ci * w * RtoC (d * (2 * PI / wl))%Re))).
  by rewrite cexp_conj; congr cexp; apply: C_ext => /=; ring.
rewrite ph.
have [r1 r2] := airy_conj (RtoC n1) w (RtoC n3) (cexp (- (ci * w * RtoC (d * (2 * PI / wl))%Re))).
by rewrite !NormalProofs.conj_real in r1 r2; rewrite r1 r2 !sqmod_conj.
Qed.

(** Such films exist: any lossless film, with one order. *)
Lemma lossless_stack J1 (n1 n2 n3 d wl : R) pow :
  (0 < n1)%Re -> (0 < n2)%Re -> (0 < n3)%Re -> (0 <= d)%Re -> (0 < wl)%Re ->
  let kp := (0%Re, 0%Re) in let host := RtoC (n2 * n2) in exists L S1 S2 S f, let expm := @some_expm ((1 + 1) + (1 + 1)) in
  [/\ mk_lattice (1, 1)%N (1%Re, 0%Re) (0%Re, 1%Re) (Float (n1 * n1)) (Float (n3 * n3)) = Ok L, exponential expm,
      not_tiny L kp, no_anomaly L (Complex host) wl kp &
      forall g : 'I_1, p_index L (l_incid L) wl kp g + p_index L (Complex host) wl kp g <> 0] /\
  [/\ @scattering_matrix_islands J1 1 expm (1, 1)%N L [::] host wl kp d pow = Ok S1, scattering_interface 1 L wl kp = Ok S2,
      multS S1 S2 = Ok S, tmat_incident 1 (1, 1)%N 1 0 1 = Ok unit_wave & compute_fluxes L wl unit_wave (S *m unit_wave) kp = Ok f].
Proof.
move=> h1 h2 h3 hd hl kp host.
have [L hL] := @mk_lattice_ok (1, 1)%N (Float (n1 * n1)) (Float (n3 * n3)) erefl; have [mi me] := one_media hL.
have kk := k_pos hl.
have p1 := Rmult_lt_0_compat _ _ h1 h1; have p2 := Rmult_lt_0_compat _ _ h2 h2; have p3 := Rmult_lt_0_compat _ _ h3 h3.
have pk := Rmult_lt_0_compat _ _ kk kk.
have hx := @some_expm_exponential ((1 + 1) + (1 + 1)).
have nt := one_not_tiny hL.
have an (eps : num) x : num_val eps = RtoC x -> (0 < x)%Re -> no_anomaly L eps wl kp.
  by move=> e x0; apply: (one_no_anomaly hL e) => /=; have := Rmult_lt_0_compat _ _ x0 pk; lra.
have kz (eps : num) x : num_val eps = RtoC (x * x) -> (0 < x)%Re -> kz_of L eps wl kp 0 = RtoC (2 * PI / wl * x).
  by move=> e x0; rewrite /kz_of (one_g hL) RtoC_mult; apply: kz_normal => //=; [rewrite e RtoC_mult|lra].
have hp : forall g : 'I_1, p_index L (l_incid L) wl kp g + p_index L (Complex host) wl kp g <> 0.
  move=> g; rewrite (ord1 g) /p_index (kz _ n1) ?mi // (kz _ n2) //=.
  have -> : RtoC (2 * PI / wl * n1) / RtoC (n1 * n1) + RtoC (2 * PI / wl * n2) / host = RtoC (2 * PI / wl * (/ n1 + / n2)).
    have dv (a b : R) : b <> 0%Re -> RtoC a / RtoC b = RtoC (a / b) by move=> b0; rewrite RtoC_div.
    rewrite /host !dv; try lra; apply: C_ext; rewrite /=; [field; lra|ring].
  apply/eqP; apply: RtoC_neq0; have := Rinv_0_lt_compat _ h1; have := Rinv_0_lt_compat _ h2; nra.
have [S1 hS1] : is_ok (@scattering_matrix_islands J1 1 (@some_expm ((1 + 1) + (1 + 1))) (1, 1)%N L [::] host wl kp d pow).
  apply: (@film_ok J1 _ _ _ _ _ L 1 _ (n1 * n1)%Re (n2 * n2)%Re wl kp d pow hL) => //; rewrite ?(one_ng hL) ?mi //; try lra; first by left.
  case=> // _; exists (2 * PI / wl * n1)%Re, (2 * PI / wl * n2)%Re; split; try exact: Rmult_lt_0_compat.
    by apply: kz; rewrite ?mi.
  exact: kz.
have [S2 hS2] : is_ok (scattering_interface 1 L wl kp).
  apply: (interface_def (r := (n1 * n1)%Re) (r' := (n3 * n3)%Re)) => //; rewrite ?(one_ng hL) ?mi ?me //; try lra.
  by apply: (an _ (n1 * n1)%Re).
have hw : (0 < fst (RtoC n2))%Re by [].
have hw' : (0 <= snd (RtoC n2))%Re by rewrite /=; lra.
have fit : window_fits (1, 1)%N by left.
have eh : host = RtoC n2 * RtoC n2 by rewrite /host RtoC_mult.
have hi : map snd ([::] : seq (shape * C)) = nseq (size ([::] : seq (shape * C))) (RtoC n2 * RtoC n2) by [].
have [S hS] : is_ok (multS S1 S2).
  case E : (multS S1 S2) => [S|e]; first by exists S.
  have [_ [gp [gm [nz [[lm k1] [rp k2]]]]]] := multS_err E.
  have ha := an (Complex host) _ erefl p2; have hp' := hp; have hS1' := hS1; rewrite eh in ha hp' hS1'.
  have := no_trapped h1 h3 hw hw' hd hl hL fit hx nt hi ha hp' hS1' hS2 (g := ord0) _ k1 k2.
  case; first by rewrite (one_g hL).
  move=> e1 e2 e3 e4; exfalso; apply: nz; congr (_, _); rewrite -[LHS]vsubmxK -[RHS]vsubmxK; congr col_mx; apply/colP => i;
    by rewrite (ord1 i) ?e1 ?e2 ?e3 ?e4 !mxE.
have [f hfl] := @one_fluxes_ok _ _ L (n1 * n1)%Re wl (S *m unit_wave) kp hL erefl p1 hl.
exists L, S1, S2, S, f; split; split=> //; [exact: an|exact: unit_wave_incident].
Qed.
