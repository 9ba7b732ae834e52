(** Normal incidence: closed forms for uniform layers and half spaces. *)
From Coq Require Import Reals Lra.
From mathcomp Require Import all_ssreflect all_algebra.
From Coquelicot Require Import Complex.
From Verif Require Import Base ZmodTac CField CFun Blk ModelRedheffer SpecScatter RedhefferProofs SpecEig
  ModelLayer SpecLayer SpecEnergy EnergyAlg LayerProofs LayerCProofs UniformProofs ScalarProofs
  LayerApiProofs.
Set Implicit Arguments. Unset Strict Implicit. Unset Printing Implicit Defensive.
Import GRing.Theory.
Local Open Scope ring_scope.

(** * Square roots of squares *)
Lemma csqrt_unique (w : C) : (0 < fst w)%Re -> csqrt (w * w) = w.
Proof.
move=> h; have := @sqr_cases (csqrt (w * w)) w; rewrite !expr2 csqrt_sqr => /(_ erefl) [] // e.
have := csqrt_re_ge0 (w * w); rewrite e /=; lra.
Qed.
Lemma kz_branch_index (w : C) : (0 < fst w)%Re -> (snd w <= 0)%Re -> kz_branch (w * w) = w.
Proof.
move=> h1 h2; rewrite /kz_branch; case: Rlt_dec => hr; cbn [is_left]; last exact: csqrt_unique.
have -> : - (w * w) = (ci * w) * (ci * w) by rewrite mulrACA ci2 mulN1r.
rewrite csqrt_unique; first by rewrite mulrA ci2 mulN1r opprK.
move: hr => /=; nra.
Qed.
Lemma sqmod_neq0 z : z != 0 -> (0 < sqmod z)%Re.
Proof.
move=> h; case: (Rle_lt_or_eq_dec _ _ (sqmod_ge0 z)) => // e.
by move: h; rewrite (sqmod_eq0 (esym e)) eqxx.
Qed.
Lemma small_neq (z : C) : (sqmod z < 1)%Re -> 1 + z != 0.
Proof.
move=> h; apply/eqP => e; move: h.
have -> : z = - 1 by rewrite -(addKr 1 z) e addr0.
rewrite /sqmod /=; lra.
Qed.
Lemma small_neqB (z : C) : (sqmod z < 1)%Re -> 1 - z != 0.
Proof. by move=> h; apply: small_neq; rewrite /sqmod /=; move: h; rewrite /sqmod; lra. Qed.
Lemma sqmodV (z : C) : z != 0 -> (sqmod (z^-1)%R * sqmod z = 1)%Re.
Proof. by move=> h; rewrite -sqmodM mulVf // /sqmod /=; ring. Qed.
Lemma pos_sum_neq0 (a b : C) : (0 < fst a)%Re -> (0 < fst b)%Re -> a + b != 0.
Proof. by move=> ha hb; apply/eqP => /(congr1 fst) /=; lra. Qed.
(** |a - b| < |a + b| for a > 0 and Re b > 0. *)
Lemma ratio_small (a : R) (b : C) : (0 < a)%Re -> (0 < fst b)%Re ->
  (sqmod ((RtoC a - b) / (RtoC a + b))%R < 1)%Re.
Proof.
move=> ha hb; have hs : RtoC a + b != 0 by apply: pos_sum_neq0.
rewrite sqmodM; have := sqmodV hs; have := sqmod_neq0 hs.
have : (sqmod (RtoC a - b)%R < sqmod (RtoC a + b)%R)%Re by rewrite /sqmod /=; nra.
move: (sqmod (RtoC a - b)) (sqmod (RtoC a + b)) (sqmod (RtoC a + b)^-1) (sqmod_ge0 (RtoC a - b)) => x y z hx h1 h2 h3.
have hz : (0 < z)%Re by nra.
nra.
Qed.
Lemma sqmodN z : sqmod (- z) = sqmod z.
Proof. rewrite /sqmod /=; ring. Qed.
Lemma sqmod_mul_lt1 x y : (sqmod x <= 1)%Re -> (sqmod y < 1)%Re -> (sqmod (x * y)%R < 1)%Re.
Proof. rewrite sqmodM; have := sqmod_ge0 x; have := sqmod_ge0 y; nra. Qed.
Lemma sqmod_mul_le1 x y : (sqmod x <= 1)%Re -> (sqmod y <= 1)%Re -> (sqmod (x * y)%R <= 1)%Re.
Proof. rewrite sqmodM; have := sqmod_ge0 x; have := sqmod_ge0 y; nra. Qed.
Lemma cexp_sqmod z : sqmod (cexp z) = (exp (fst z) * exp (fst z))%Re.
Proof.
rewrite /sqmod /=; have := sin2_cos2 (snd z); rewrite /Rsqr => h.
transitivity (exp (fst z) * exp (fst z) * (sin (snd z) * sin (snd z) + cos (snd z) * cos (snd z)))%Re; first ring.
by rewrite h Rmult_1_r.
Qed.
Lemma cexp_le1 z : (fst z <= 0)%Re -> (sqmod (cexp z) <= 1)%Re.
Proof.
move=> h; rewrite cexp_sqmod -exp_plus -exp_0.
case: (Req_dec (fst z + fst z)%Re 0%Re) => [->|h']; first exact: Rle_refl.
by apply: Rlt_le; apply: exp_increasing; lra.
Qed.

(** * Modes at normal incidence *)
Section Normal.
Variable n : nat.
Notation z := (0 : 'rV[C]_n).
Definition V0n : 'M[C]_(n + n) := blk2 (fun _ => 0) (fun _ => - ci) (fun _ => ci) (fun _ => 0).

Lemma V0n_sqr : V0n *m V0n = 1%:M.
Proof.
rewrite /V0n blk2M blk2_1; apply: eq_blk2 => j; rewrite ?(mulr0, mul0r, addr0, add0r) //.
  by rewrite mulNr ci2 opprK.
by rewrite mulrN ci2 opprK.
Qed.
Lemma V0n_unit : V0n \in unitmx.
Proof. by case: (mulmx1_unit V0n_sqr). Qed.
Lemma twof_twice (k : C) : twice (ci *: \row_(j < n) k) = twof (fun _ => ci * k).
Proof. by rewrite -twiceE; congr twice; apply/rowP => j; rewrite !mxE. Qed.
Lemma divcols_normal (e k : C) : k != 0 ->
  divcols (blk2 (fun _ => 0) (fun _ => e) (fun _ => - e) (fun _ => 0) : 'M[C]_(n + n))
    (twof (fun _ => ci * k)) = Ok ((e / k) *: V0n).
Proof.
move=> hk; apply/divcolsP; split.
  move=> j; rewrite mxE; case: splitP => i _; by rewrite mxE mulf_neq0 ?ci_neq0.
have hci : Cmult ci ci = Copp (RtoC 1%Re) := ci2.
rewrite blk2_diag /V0n blk2Z blk2M; apply: eq_blk2 => j;
  rewrite ?(mulr0, mul0r, addr0, add0r) //.
- toC; field [hci]; exact: neqC0.
- toC; field [hci]; exact: neqC0.
Qed.

Lemma qmat_normal e : qmat z z e = blk2 (fun _ => 0) (fun _ => e) (fun _ => - e) (fun _ => 0).
Proof.
by apply: eq_blk2 => j; rewrite !mxE ?expr2 ?(mulr0, subr0, sub0r, oppr0, addr0).
Qed.
Lemma free_normal : free_space_eigenmodes z z = Ok (1%:M, V0n).
Proof.
have hk : kz_branch 1 = 1.
  by rewrite -{1}[1](mulr1 1) kz_branch_index //=; lra.
have := @uniform_is_free n z z 1%:M V0n.
move=> [_ h]; apply: h; exists (twof (fun _ => ci * 1)).
rewrite /solve_uniform_layer oner_eq0 /= uniform_QE ?oner_neq0 // invr1 scale1r mulr1 qmat_normal.
have -> : \row_j kz_branch (1 - z 0 j ^+ 2 - z 0 j ^+ 2) = \row_(j < n) 1.
  by apply/rowP => j; rewrite !mxE expr2 mulr0 !subr0 hk.
by rewrite twof_twice divcols_normal ?oner_neq0 //= divr1 scale1r.
Qed.
Lemma uniform_normal (w : C) : (0 < fst w)%Re -> (snd w <= 0)%Re ->
  solve_uniform_layer z z (w * w) 1 = Ok (1%:M, w *: V0n, twof (fun _ => ci * w)).
Proof.
move=> h1 h2; have w0 : w != 0 by apply/eqP => e; move: h1; rewrite e /=; lra.
rewrite /solve_uniform_layer mulf_eq0 orbb oner_eq0 (negbTE w0) /=.
rewrite uniform_QE ?mulf_neq0 // invr1 scale1r mulr1 qmat_normal.
have -> : \row_j kz_branch (1 * (w * w) - z 0 j ^+ 2 - z 0 j ^+ 2) = \row_(j < n) w.
  by apply/rowP => j; rewrite !mxE expr2 mulr0 !subr0 mul1r kz_branch_index.
by rewrite twof_twice divcols_normal //= mulfK.
Qed.
Lemma half_normal (w : C) : (0 < fst w)%Re ->
  divcols (Qref z z (w * w) 1) (twice (ci *: half_kz z z (w * w) 1))
  = Ok ((w * w / Cconj w) *: V0n) /\
  half_kz z z (w * w) 1 = \row_j Cconj w.
Proof.
move=> h1; have w0 : Cconj w != 0 by apply/eqP => /(congr1 fst) /=; lra.
have -> : half_kz z z (w * w) 1 = \row_j Cconj w.
  by apply/rowP => j; rewrite !mxE expr2 mulr0 !subr0 mul1r csqrt_unique.
by rewrite QrefE invr1 scale1r mulr1 qmat_normal twof_twice divcols_normal.
Qed.
Lemma conj_real (x : R) : Cconj (RtoC x) = RtoC x.
Proof. by apply: C_ext => //=; ring. Qed.
Lemma half_normal_real (x : R) : (0 < x)%Re ->
  divcols (Qref z z (RtoC x * RtoC x) 1) (twice (ci *: half_kz z z (RtoC x * RtoC x) 1))
  = Ok (RtoC x *: V0n).
Proof.
move=> hx; case: (@half_normal (RtoC x) hx) => -> _; rewrite conj_real mulfK //.
by apply/eqP => /(congr1 fst) /=; lra.
Qed.

Lemma solve_id : solve (1%:M : 'M[C]_(n + n)) 1%:M = Ok 1%:M.
Proof. by rewrite /solve unitmx1 invmx1 mulmx1. Qed.
Lemma solve_V0n c : c != 0 -> solve (c *: V0n) V0n = Ok (c^-1)%:M.
Proof.
move=> hc; apply/solve_ok; split; first exact: unit_scale V0n_unit.
by rewrite mul_mx_scalar scalerA mulVf // scale1r.
Qed.
Lemma solve_V0n' c : solve V0n (c *: V0n) = Ok c%:M.
Proof. by apply/solve_ok; split; [exact: V0n_unit | rewrite mul_mx_scalar]. Qed.

Lemma diag_twof (c : C) : diag_mx (twof (fun _ : 'I_n => c)) = c%:M.
Proof. by rewrite blk2_diag -blk2_scal. Qed.
Lemma propagator_twof (c : C) d k0 :
  propagator (twof (fun _ : 'I_n => c)) d k0 = twof (fun _ => cexp (- (c * RtoC (d * k0)%Re))).
Proof.
rewrite propagatorE; apply/rowP => j; rewrite !mxE.
by case: (split j) => i; rewrite !mxE.
Qed.

(** The film seen from vacuum on both sides. *)
Definition film_r (w x : C) : C :=
  (w - 1) / (w + 1) * (x * x - 1) / (1 - x * x * ((w - 1) / (w + 1)) * ((w - 1) / (w + 1))).
Definition film_t (w x : C) : C :=
  x * (1 - (w - 1) / (w + 1) * ((w - 1) / (w + 1))) / (1 - x * x * ((w - 1) / (w + 1)) * ((w - 1) / (w + 1))).
Lemma solve_scal' (a b : C) : a != 0 -> solve a%:M b%:M = Ok ((b / a)%:M : 'M[C]_(n + n)).
Proof. by move=> h; rewrite solve_scal // mulrC. Qed.
Lemma build_normal (w x : C) : w != 0 -> w + 1 != 0 ->
  1 - x * x * ((w - 1) / (w + 1)) * ((w - 1) / (w + 1)) != 0 ->
  build_core 1%:M (w *: V0n) 1%:M V0n (twof (fun _ => x)) =
  Ok (scS (n + n) (film_r w x) (film_t w x) (film_t w x) (film_r w x)).
Proof.
move=> w0 w1 hd; rewrite /build_core solve_id solve_V0n // {1 2}/bind diag_twof.
rewrite -!raddfD -raddfB /=.
have hA : 1 + w^-1 != 0.
  have -> : 1 + w^-1 = (w + 1) / w by rewrite mulrDl divff // mul1r.
  by rewrite mulf_neq0 // invr_neq0.
set A := 1 + w^-1 in hA *; set B := 1 - w^-1.
rewrite !solve_scal' // /bind -!scalar_mxM -!raddfB /=.
have eT : A - x * B * (x / A) * B
        = (1 - x * x * ((w - 1) / (w + 1)) * ((w - 1) / (w + 1))) * A.
  by rewrite /A /B; cfield; split; exact: neqC0.
have hT : A - x * B * (x / A) * B != 0 by rewrite eT mulf_neq0.
have eR : (w - 1) / (w + 1) = B / A.
  by rewrite /A /B; cfield; split; exact: neqC0.
have hD : A * A - x * x * (B * B) != 0.
  have -> : A * A - x * x * (B * B) = (A - x * B * (x / A) * B) * A.
    by cfield; exact: neqC0.
  by rewrite mulf_neq0.
move: hT hd; rewrite /film_r /film_t eR; clear eT eR; clearbody A B => hT hd.
rewrite !(solve_scal', =^~ scalar_mxM) // /scS; congr (Ok (Smat _ _ _ _)); congr (_%:M);
 cfield; repeat split; try exact: neqC0; move: hD; rewrite ?(mulrA, expr2); exact: neqC0.
Qed.

(** Half spaces against the vacuum gap; c is the admittance of the outer medium. *)
Lemma reflection_normal (c : C) : 1 + c != 0 ->
  reflection_core 1%:M V0n 1%:M (c *: V0n) =
  Ok (scS (n + n) ((c - 1) / (c + 1)) (2%:R / (1 + c)) (2%:R * c / (1 + c)) ((1 - c) / (1 + c))).
Proof.
move=> hc; have hc' : c + 1 != 0 by rewrite addrC.
rewrite /reflection_core solve_id solve_V0n' {1 2}/bind -raddfD -raddfB /=.
rewrite solve_scal' // /bind /inv scal_unit // scal_inv // -!scalar_mxM -raddfB /= -raddfN /=.
rewrite !scale_scalar_mx /scS; congr (Ok (Smat _ _ _ _)); congr (_%:M);
 rewrite ?mulr2n; cfield; repeat split; try exact: neqC0; exact: (neqC0 two_neq0).
Qed.
Lemma transmission_normal (c : C) : 1 + c != 0 ->
  transmission_core 1%:M V0n 1%:M (c *: V0n) =
  Ok (scS (n + n) ((1 - c) / (1 + c)) (2%:R * c / (1 + c)) (2%:R / (1 + c)) ((c - 1) / (c + 1))).
Proof.
move=> hc; have hc' : c + 1 != 0 by rewrite addrC.
rewrite /transmission_core solve_id solve_V0n' {1 2}/bind -raddfD -raddfB /=.
rewrite /inv scal_unit // scal_inv // {1}/bind solve_scal' // /bind -!scalar_mxM -raddfB /= -raddfN /=.
rewrite !scale_scalar_mx /scS; congr (Ok (Smat _ _ _ _)); congr (_%:M);
 rewrite ?mulr2n; cfield; repeat split; try exact: neqC0; exact: (neqC0 two_neq0).
Qed.
End Normal.

(** A structured layer with constant convolution matrix at normal incidence. *)
Lemma csqrt_neg (x : R) : (0 < x)%Re -> csqrt (- (RtoC x * RtoC x)) = ci * RtoC x.
Proof.
move=> hx; have hm : Cmod (- (RtoC x * RtoC x)) = (x * x)%Re.
  rewrite oppCE Cmod_opp mulCE Cmod_mult Cmod_R Rabs_right //; lra.
apply: C_ext; rewrite /csqrt hm /=.
  have -> : ((x * x + - (x * x - 0 * 0)) / 2 = 0)%Re by field.
  rewrite sqrt_0; ring.
case: Rlt_dec => h /=; first lra.
have -> : ((x * x - - (x * x - 0 * 0)) / 2 = x * x)%Re by field.
rewrite sqrt_square; [ring | lra].
Qed.
Section NormalStructured.
Variables (n : nat) (x : R).
Hypothesis hx : (0 < x)%Re.
Notation z := (0 : 'rV[C]_n).
Notation e := (RtoC x * RtoC x).
Lemma sq_neq0 : RtoC x != 0. Proof. by apply/eqP => /(congr1 fst) /=; lra. Qed.
Lemma diag0 : diag_mx z = 0.
Proof. by apply/matrixP => i j; rewrite !mxE mul0rn. Qed.
Lemma structured_Q_normal : structured_Q z z e%:M = blk2 (fun _ => 0) (fun _ => e) (fun _ => - e) (fun _ => 0).
Proof.
rewrite /structured_Q diag0 !mulmx0 subr0 sub0r oppr0 /blk2.
have -> : dgf (fun _ : 'I_n => 0 : C) = 0 by rewrite -dgf_scal raddf0.
by rewrite -!dgf_scal raddfN.
Qed.
Lemma structured_M_normal :
  structured_P z z (invmx e%:M) *m structured_Q z z e%:M = (- e)%:M.
Proof.
rewrite structured_Q_normal /structured_P diag0 !mul0mx subr0 sub0r oppr0.
have -> : block_mx 0 1%:M (- 1%:M) 0 = blk2 (fun _ : 'I_n => 0 : C) (fun _ => 1) (fun _ => -1) (fun _ => 0).
  have z0 : dgf (fun _ : 'I_n => 0 : C) = 0 by rewrite -dgf_scal raddf0.
  by rewrite /blk2 z0 -!dgf_scal raddfN.
rewrite blk2M blk2_scal; apply: eq_blk2 => j; cring.
Qed.
Lemma diagonalises_normal (W : 'M[C]_(n + n)) : W \in unitmx ->
  diagonalises (- e)%:M (const_mx (- e), W).
Proof. by move=> u; split => //=; rewrite diag_const_mx mul_scalar_mx mul_mx_scalar. Qed.
Lemma structured_normal :
  solve_structured_layer (fun _ => (const_mx (- e), 1%:M)) z z e%:M
  = Ok (1%:M, RtoC x *: V0n n, twof (fun _ => ci * RtoC x)).
Proof.
have e0 : e != 0 by rewrite mulf_neq0 ?sq_neq0.
rewrite /solve_structured_layer /inv scal_unit //= mulmx1 structured_Q_normal.
have -> : map_mx csqrt (const_mx (- e)) = twof (fun _ => ci * RtoC x) :> 'rV[C]_(n + n).
  apply/rowP => j; rewrite !mxE csqrt_neg //.
  by case: (split j) => i; rewrite mxE.
by rewrite divcols_normal ?sq_neq0 //= mulfK ?sq_neq0.
Qed.
End NormalStructured.
