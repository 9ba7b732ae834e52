(** Lemmas for C12: which outer media scattering_reflection and
    scattering_transmission treat correctly. *)
From Coq Require Import Reals Lra Psatz.
From mathcomp Require Import all_ssreflect all_algebra.
From Coquelicot Require Import Complex.
From Verif Require Import Base ZmodTac CField CFun Blk ModelRedheffer SpecScatter RedhefferProofs SpecEig
  ModelLayer SpecLayer SpecMaxwell SpecThinFilm SpecEnergy EnergyAlg LayerProofs LayerCProofs
  UniformProofs ScalarProofs LayerApiProofs NormalProofs ThinFilmProofs.
Set Implicit Arguments. Unset Strict Implicit. Unset Printing Implicit Defensive.
Import GRing.Theory.
Local Open Scope ring_scope.

(** A plane wave that solves Maxwell's equations obeys the dispersion relation. *)
Lemma triple_eq (a b c a' b' c' : C) : (a, b, c) = (a', b', c') -> [/\ a = a', b = b' & c = c'].
Proof.
by move=> h; split; [exact (congr1 (fun v => v.1.1) h) | exact (congr1 (fun v => v.1.2) h) | exact (congr1 (fun v => v.2) h)].
Qed.
Lemma maxwell_dispersion (eps mu kx ky kz sx sy sz hx hy hz : C) :
  eps != 0 -> mu != 0 -> sx != 0 ->
  maxwell eps mu (kx, ky, kz) (sx, sy, sz) (hx, hy, hz) ->
  kx * kx + ky * ky + kz * kz = mu * eps.
Proof.
move=> e0 m0 s0; rewrite /maxwell /cross /scale3 /vx /vy /vz /= => - [] /triple_eq [a1 a2 a3] /triple_eq [b1 b2 b3].
have d0 : mu * eps * (kx * sx + ky * sy + kz * sz) = 0.
  have : kx * (- eps * sx) + ky * (- eps * sy) + kz * (- eps * sz) = 0.
    by rewrite -b1 -b2 -b3; cring.
  move=> h; have -> : mu * eps * (kx * sx + ky * sy + kz * sz) =
    - mu * (kx * (- eps * sx) + ky * (- eps * sy) + kz * (- eps * sz)) by cring.
  by rewrite h mulr0.
have d1 : kx * sx + ky * sy + kz * sz = 0.
  by move/eqP: d0; rewrite !mulf_eq0 (negbTE e0) (negbTE m0) => /eqP.
have c1 : ky * (mu * hz) - kz * (mu * hy) = - (mu * eps) * sx.
  transitivity (mu * (ky * hz - kz * hy)); first by cring.
  by rewrite b1; cring.
have h : (kx * kx + ky * ky + kz * kz - mu * eps) * sx = 0.
  have -> : (kx * kx + ky * ky + kz * kz - mu * eps) * sx =
    kx * (kx * sx + ky * sy + kz * sz) - (ky * (kx * sy - ky * sx) - kz * (kz * sx - kx * sz)) - mu * eps * sx by cring.
  by rewrite d1 a2 a3 c1; cring.
by move/eqP: h; rewrite mulf_eq0 (negbTE s0) orbF subr_eq0 => /eqP.
Qed.

Lemma conj_selfP (z : C) : Cconj z = z <-> snd z = 0%Re.
Proof.
split; first by move/(congr1 snd) => /=; lra.
by move=> h; apply: C_ext => //=; rewrite h; ring.
Qed.
Lemma conjM (x y : C) : Cconj (x * y) = Cconj x * Cconj y.
Proof. by apply: C_ext => /=; ring. Qed.

Section Half.
Variable n : nat.
Variables (kx ky : 'rV[C]_n) (er ur : C).
Hypotheses (hx : forall j, snd (kx 0%R j) = 0%Re) (hy : forall j, snd (ky 0%R j) = 0%Re).
Hypotheses (e0 : er != 0) (u0 : ur != 0).
Variables (V : 'M[C]_(n + n)) (l : 'rV[C]_(n + n)).
Hypotheses (hl : l = twice (ci *: half_kz kx ky er ur)) (hV : divcols (Qref kx ky er ur) l = Ok V).
Notation q j := (ur * er - kx 0 j ^+ 2 - ky 0 j ^+ 2).
Notation kz j := (Cconj (csqrt (q j))).

Lemma half_lE j : l 0 (lshift n j) = ci * kz j.
Proof. by rewrite hl /twice row_mxEl !mxE. Qed.
Lemma half_rE j : l 0 (rshift n j) = ci * kz j.
Proof. by rewrite hl /twice row_mxEr !mxE. Qed.
Lemma half_kz_of j : - ci * l 0 (lshift n j) = kz j.
Proof. by rewrite half_lE mulNr mulrA ci2 mulN1r opprK. Qed.
Lemma half_kz0 j : kz j != 0.
Proof.
case/divcolsP: hV => h _; have := h (lshift n j); rewrite half_lE mulf_eq0 negb_or.
by case/andP.
Qed.
Lemma q_conj j : Cconj (q j) = q j <-> snd (ur * er) = 0%Re.
Proof.
rewrite conj_selfP; have := hx j; have := hy j; rewrite !expr2 /=.
by move: (kx 0 j) (ky 0 j) => x y /= -> ->; split; lra.
Qed.
Lemma kz_sqr j : kz j * kz j = Cconj (q j).
Proof. by rewrite -conjM csqrt_sqr. Qed.

Lemma half_V : V = blk2
   (fun j => ur^-1 / (ci * kz j) * (kx 0 j * ky 0 j))
   (fun j => ur^-1 / (ci * kz j) * (er * ur - kx 0 j ^+ 2))
   (fun j => ur^-1 / (ci * kz j) * (ky 0 j ^+ 2 - er * ur))
   (fun j => - (ur^-1 / (ci * kz j) * (ky 0 j * kx 0 j))).
Proof.
case/divcolsP: hV => h1 h2.
have e : l = twof (fun j => ci * kz j).
  rewrite hl -twiceE; congr twice; apply/rowP => j; by rewrite !mxE.
have ln0 j : ci * kz j != 0 by have := h1 (lshift n j); rewrite half_lE.
have uD : diag_mx l \in unitmx.
  rewrite e blk2_diag; apply: blk2_unit => j; rewrite mulr0 subr0; exact: mulf_neq0.
apply: (can_inj (mulmxK uD)); rewrite h2 e QrefE blk2_diag /qmat blk2M blk2Z.
apply: eq_blk2 => j; rewrite ?mulr0 ?addr0 ?add0r.
- by rewrite [RHS]mulrAC divfK.
- by rewrite [RHS]mulrAC divfK.
- by rewrite [RHS]mulrAC divfK.
- by rewrite mulrN [RHS]mulNr; congr (- _); rewrite [RHS]mulrAC divfK.
Qed.

Lemma half_modes_iff j :
  (forall c : 'cV[C]_(n + n),
    let x := lshift n j in let y := rshift n j in
    let kz := - ci * l 0 x in
    (exists sz uz, maxwell er ur (kx 0 j, ky 0 j, kz)
       (c x 0, c y 0, sz) (H_of_u ((- V *m c) x 0, (- V *m c) y 0, uz))) /\
    (exists sz uz, maxwell er ur (kx 0 j, ky 0 j, - kz)
       (c x 0, c y 0, sz) (H_of_u ((V *m c) x 0, (V *m c) y 0, uz))))
  <-> snd (ur * er) = 0%Re.
Proof.
split.
  move=> /(_ (const_mx 1)); cbv zeta; rewrite half_kz_of => - [[sz [uz h]] _].
  have := @maxwell_dispersion er ur (kx 0 j) (ky 0 j) (kz j) _ _ _ _ _ _ e0 u0 _ h.
  rewrite mxE => /(_ (oner_neq0 _)) d; rewrite -(q_conj j) -kz_sqr.
  move: (kz j) d => k <-; rewrite !expr2; cring.
move=> hr c; have cq : Cconj (q j) = q j by apply/q_conj.
have hN i : (- V *m c) i 0 = - (V *m c) i 0 by rewrite mulNmx mxE.
cbv zeta; rewrite !hN half_kz_of half_V !blk2_mulL !blk2_mulR.
have zn0 := half_kz0 j; have zz := kz_sqr j; rewrite cq in zz.
move: (c (lshift n j) 0) (c (rshift n j) 0) (kz j) zn0 zz => sx sy z zn0 zz {hN}.
split; first by have [mm _] := mode_maxwell sx sy zn0 e0 u0 zz; do 2 eexists; exact: mm.
have zN : - z != 0 by rewrite oppr_eq0.
have zzN : - z * - z = ur * er - kx 0 j ^+ 2 - ky 0 j ^+ 2 by rewrite mulrNN.
have [mm _] := mode_maxwell sx sy zN e0 u0 zzN.
have kN : ur^-1 / (ci * - z) = - (ur^-1 / (ci * z)) by rewrite mulrN invrN mulrN.
rewrite kN in mm; move: mm.
set k := ur^-1 / (ci * z).
set ux := - (- k * (kx 0 j * ky 0 j) * sx + _); set uy := - (- k * (ky 0 j ^+ 2 - _) * sx + _) => mm.
have -> : k * (kx 0 j * ky 0 j) * sx + k * (er * ur - kx 0 j ^+ 2) * sy = ux by rewrite /ux; cring.
have -> : k * (ky 0 j ^+ 2 - er * ur) * sx + - (k * (ky 0 j * kx 0 j)) * sy = uy by rewrite /uy; cring.
by do 2 eexists; exact: mm.
Qed.
End Half.

(** Non-magnetic half spaces: the sign of the forward modes. *)
Lemma csqrt_im_neg z : (snd z < 0)%Re -> (snd (csqrt z) < 0)%Re.
Proof.
move=> h; case: (Rle_lt_or_eq_dec _ _ (csqrt_im_nonpos h)) => // e.
by have := congr1 snd (csqrt_sqr z); move: (csqrt z) e => w /= ->; lra.
Qed.
Section Grow.
Variable n : nat.
Variables (kx ky : 'rV[C]_n) (er : C).
Hypotheses (hx : forall j, snd (kx 0%R j) = 0%Re) (hy : forall j, snd (ky 0%R j) = 0%Re).
Lemma snd_q j : snd (1 * er - kx 0 j ^+ 2 - ky 0 j ^+ 2) = snd er.
Proof.
have := hx j; have := hy j; rewrite mul1r !expr2 /=.
by move: (kx 0 j) (ky 0 j) => x y /= -> ->; ring.
Qed.
Lemma twice_all (P : C -> Prop) (v : 'rV[C]_n) : (forall j, P (ci * v 0 j)) -> forall j, P (twice (ci *: v) 0 j).
Proof. by move=> h j; rewrite mxE; case: splitP => i _; rewrite mxE. Qed.
Lemma half_absorbing_grows : (snd er < 0)%Re ->
  forall j, (fst (twice (ci *: half_kz kx ky er 1) 0%R j) < 0)%Re.
Proof.
move=> he; apply: (@twice_all (fun x => (fst x < 0)%Re)) => j; rewrite mxE.
have := @csqrt_im_neg (1 * er - kx 0 j ^+ 2 - ky 0 j ^+ 2); rewrite snd_q => /(_ he).
by move: (csqrt _) => w /=; lra.
Qed.
Lemma half_real_forward : snd er = 0%Re ->
  forall j, (0 <= fst (twice (ci *: half_kz kx ky er 1) 0%R j))%Re /\ (0 <= snd (twice (ci *: half_kz kx ky er 1) 0%R j))%Re.
Proof.
move=> he; apply: (@twice_all (fun x => (0 <= fst x)%Re /\ (0 <= snd x)%Re)) => j; rewrite mxE.
have := @csqrt_im_nonneg (1 * er - kx 0 j ^+ 2 - ky 0 j ^+ 2); rewrite snd_q => /(_ (Req_le_sym _ _ he)).
have := csqrt_re_ge0 (1 * er - kx 0 j ^+ 2 - ky 0 j ^+ 2).
by move: (csqrt _) => z /=; split; lra.
Qed.
End Grow.

(** Normal incidence from vacuum onto any substrate. *)
Section Substrate.
Variable n : nat.
Notation z := (0 : 'rV[C]_n).
Definition adm (er : C) : C := er / Cconj (csqrt er).
Lemma half_normal_gen (er : C) : er != 0 ->
  divcols (Qref z z er 1) (twice (ci *: half_kz z z er 1)) = Ok (adm er *: V0n n).
Proof.
move=> e0; have w0 : Cconj (csqrt er) != 0.
  apply/eqP => h; have : csqrt er = 0 by apply: C_ext; [have := congr1 fst h | have := congr1 snd h] => /=; lra.
  by move/eqP; rewrite csqrt_eq0 (negbTE e0).
have -> : half_kz z z er 1 = \row_j Cconj (csqrt er).
  by apply/rowP => j; rewrite !mxE expr2 mulr0 !subr0 mul1r.
by rewrite QrefE invr1 scale1r mulr1 qmat_normal twof_twice divcols_normal.
Qed.
Lemma trn_gen (er : C) : er != 0 -> 1 + adm er != 0 ->
  scattering_transmission z z 1%:M (V0n n) er 1 =
  Ok (trn_sc (n + n) (adm er), 1%:M, adm er *: V0n n, twice (ci *: half_kz z z er 1)).
Proof.
move=> e0 h; rewrite /scattering_transmission oner_eq0; cbv zeta.
by rewrite half_normal_gen // /bind transmission_normal.
Qed.
End Substrate.

Lemma sqmod_ratio (c : C) : 1 + c != 0 ->
  (sqmod ((1 - c) / (1 + c))%R <= 1)%Re <-> (0 <= fst c)%Re.
Proof.
move=> h; rewrite sqmodM; have := sqmodV h; have := sqmod_neq0 h.
move: (sqmod (1 + c)^-1) => y h1 h2; have hy : (0 < y)%Re by nra.
have e : (sqmod (1 + c)%R = sqmod (1 - c)%R + 4 * fst c)%Re by rewrite /sqmod /=; ring.
rewrite e in h1 h2; move: (sqmod (1 - c)) (fst c) h1 h2 => a b h1 h2.
split=> h3; nra.
Qed.
Lemma adm_pos (x : R) : (0 < x)%Re -> (0 <= fst (adm (RtoC x)))%Re.
Proof.
move=> h; rewrite /adm.
have -> : RtoC x = RtoC (sqrt x) * RtoC (sqrt x).
  by apply: C_ext => /=; rewrite ?sqrt_sqrt; lra.
rewrite csqrt_unique; last by rewrite /=; apply: sqrt_lt_R0.
have s0 : RtoC (sqrt x) != 0 by apply/eqP => /(congr1 fst) /=; have := sqrt_lt_R0 x h; lra.
by rewrite conj_real mulfK //=; exact: sqrt_pos.
Qed.
Lemma adm_neg (x : R) : (0 < x)%Re -> adm (- RtoC x) = - ci * RtoC (sqrt x).
Proof.
move=> h; rewrite /adm.
have s0 : RtoC (sqrt x) != 0 by apply/eqP => /(congr1 fst) /=; have := sqrt_lt_R0 x h; lra.
have -> : - RtoC x = - (RtoC (sqrt x) * RtoC (sqrt x)).
  by apply: C_ext => /=; rewrite ?sqrt_sqrt; lra.
rewrite csqrt_neg; last exact: sqrt_lt_R0.
have -> : Cconj (ci * RtoC (sqrt x)) = - ci * RtoC (sqrt x) by apply: C_ext => /=; ring.
have -> : - (RtoC (sqrt x) * RtoC (sqrt x)) = (- ci * RtoC (sqrt x)) * (- ci * RtoC (sqrt x)).
  by rewrite mulrACA mulrNN ci2 mulN1r.
by rewrite mulfK // mulf_neq0 // oppr_eq0 ci_neq0.
Qed.
Lemma adm_real (x : R) : (x <> 0)%Re -> (0 <= fst (adm (RtoC x)))%Re.
Proof.
move=> h; case: (Rlt_le_dec 0 x) => h'; first exact: adm_pos.
have -> : RtoC x = - RtoC (- x) by apply: C_ext => /=; ring.
rewrite adm_neg ?/=; lra.
Qed.
Lemma adm_one_neq0 (er : C) : (0 <= fst (adm er))%Re -> 1 + adm er != 0.
Proof. by move: (adm er) => c h; apply/eqP => /(congr1 fst) /=; lra. Qed.

Section Run.
Variable n : nat.
Notation z := (0 : 'rV[C]_n).
(** The calls made by the library for light coming from vacuum at normal
    incidence onto a bare substrate. *)
Lemma substrate_run (er : C) : er != 0 -> 1 + adm er != 0 ->
  exists W0 V0 Sr Wr Vr lr St Wt Vt lt S,
    [/\ free_space_eigenmodes z z = Ok (W0, V0),
        scattering_reflection z z W0 V0 1 1 = Ok (Sr, Wr, Vr, lr),
        scattering_transmission z z W0 V0 er 1 = Ok (St, Wt, Vt, lt),
        redheffer_product Sr St = Ok S &
        s11 S = ((1 - adm er) / (1 + adm er))%:M].
Proof.
move=> e0 h0; exists 1%:M, (V0n n).
have := @inc_api n 1%Re Rlt_0_1; rewrite mulr1 => hr.
do 9 eexists; split; [exact: free_normal | exact: hr | exact: trn_gen | |].
- have -> : inc_sc (n + n) (RtoC 1%Re) = scattering_identity C_fieldType (n + n).
    have t0 := neqC0 two_neq0.
    rewrite /inc_sc /scS /scattering_identity.
    have -> : (RtoC 1%Re - 1) / (RtoC 1%Re + 1) = 0 by rewrite subrr mul0r.
    have -> : 2%:R / (1 + RtoC 1%Re) = 1 by apply: divff; exact: two_neq0.
    have -> : 2%:R * RtoC 1%Re / (1 + RtoC 1%Re) = 1 by rewrite mulr1; apply: divff; exact: two_neq0.
    by rewrite raddf0.
  exact: rh_idL.
- by [].
Qed.
End Run.

Lemma reflection_parts n (kx ky : 'rV[C]_n) W0 V0 er ur S W V l :
  scattering_reflection kx ky W0 V0 er ur = Ok (S, W, V, l) ->
  [/\ ur != 0, W = 1%:M, l = twice (ci *: half_kz kx ky er ur) &
      divcols (Qref kx ky er ur) l = Ok V].
Proof.
rewrite /scattering_reflection; case: eqP => // /eqP u0; cbv zeta.
case e : divcols => [v|] //; rewrite /bind; case: reflection_core => // s [_ <- <- <-].
by split.
Qed.
Lemma transmission_parts n (kx ky : 'rV[C]_n) W0 V0 er ur S W V l :
  scattering_transmission kx ky W0 V0 er ur = Ok (S, W, V, l) ->
  [/\ ur != 0, W = 1%:M, l = twice (ci *: half_kz kx ky er ur) &
      divcols (Qref kx ky er ur) l = Ok V].
Proof.
rewrite /scattering_transmission; case: eqP => // /eqP u0; cbv zeta.
case e : divcols => [v|] //; rewrite /bind; case: transmission_core => // s [_ <- <- <-].
by split.
Qed.

Section Api12.
Variable n : nat.
Variables (kx ky : 'rV[C]_n) (W0 V0 : 'M[C]_(n + n)) (er ur : C)
  (S : smat C_fieldType (n + n)) (W V : 'M[C]_(n + n)) (l : 'rV[C]_(n + n)).
Hypotheses (hx : forall j, snd (kx 0%R j) = 0%Re) (hy : forall j, snd (ky 0%R j) = 0%Re).
Hypothesis hS : scattering_reflection kx ky W0 V0 er ur = Ok (S, W, V, l) \/
  scattering_transmission kx ky W0 V0 er ur = Ok (S, W, V, l).
Lemma outer_parts : [/\ ur != 0, W = 1%:M, l = twice (ci *: half_kz kx ky er ur) &
      divcols (Qref kx ky er ur) l = Ok V].
Proof. by case: hS; [apply: reflection_parts | apply: transmission_parts]. Qed.
Lemma outer_modes_iff j : er != 0 ->
  (forall c : 'cV[C]_(n + n),
    let x := lshift n j in let y := rshift n j in
    let kz := - ci * l 0 x in
    (exists sz uz, maxwell er ur (kx 0 j, ky 0 j, kz)
       ((W *m c) x 0, (W *m c) y 0, sz) (H_of_u ((- V *m c) x 0, (- V *m c) y 0, uz))) /\
    (exists sz uz, maxwell er ur (kx 0 j, ky 0 j, - kz)
       ((W *m c) x 0, (W *m c) y 0, sz) (H_of_u ((V *m c) x 0, (V *m c) y 0, uz))))
  <-> snd (ur * er) = 0%Re.
Proof.
move=> e0; have [u0 -> h1 h2] := outer_parts.
rewrite -(half_modes_iff hx hy e0 u0 h1 h2 j); split=> h c; have := h c; by rewrite mul1mx.
Qed.
Lemma outer_real_forward : ur = 1 -> snd er = 0%Re ->
  forall j, (0 <= fst (l 0%R j))%Re /\ (0 <= snd (l 0%R j))%Re.
Proof. by case: outer_parts => _ _ -> _ ->; exact: half_real_forward. Qed.
Lemma outer_absorbing_grows : ur = 1 -> (snd er < 0)%Re -> forall j, (fst (l 0%R j) < 0)%Re.
Proof. by case: outer_parts => _ _ -> _ ->; exact: half_absorbing_grows. Qed.
End Api12.

Section Reflectance.
Variable n : nat.
Notation z := (0 : 'rV[C]_n).
Lemma real_reflectance (e : R) : e <> 0%Re ->
  exists W0 V0 Sr Wr Vr lr St Wt Vt lt S r,
    [/\ free_space_eigenmodes z z = Ok (W0, V0),
        scattering_reflection z z W0 V0 1 1 = Ok (Sr, Wr, Vr, lr),
        scattering_transmission z z W0 V0 (RtoC e) 1 = Ok (St, Wt, Vt, lt),
        redheffer_product Sr St = Ok S & s11 S = r%:M /\ (sqmod r <= 1)%Re].
Proof.
move=> h; have e0 : RtoC e != 0 by apply/eqP => /(congr1 fst) /=.
have ha := adm_one_neq0 (adm_real h).
have [W0 [V0 [Sr [Wr [Vr [lr [St [Wt [Vt [lt [S [h1 h2 h3 h4 h5]]]]]]]]]]]] := @substrate_run n _ e0 ha.
exists W0, V0, Sr, Wr, Vr, lr, St, Wt, Vt, lt, S; eexists; split; eauto; split; first exact: h5.
by apply/sqmod_ratio => //; exact: adm_real.
Qed.
Lemma adm_sqr (w : C) : (0 < fst w)%Re -> adm (w * w) = w * w / Cconj w.
Proof. by move=> h; rewrite /adm csqrt_unique. Qed.
Lemma cube_sign (w : C) : (0 < fst w)%Re ->
  (0 <= fst (w * w / Cconj w)%R)%Re <-> (0 <= fst (w * w * w)%R)%Re.
Proof.
move=> h; have w0 : w != 0 by apply/eqP => e; move: h; rewrite e /=; lra.
have c0 : Cconj w != 0 by apply/eqP => /(congr1 fst) /=; lra.
have p := sqmod_neq0 w0.
have -> : w * w * w = (w * w / Cconj w) * RtoC (sqmod w).
  have -> : RtoC (sqmod w) = Cconj w * w by apply: C_ext; rewrite /sqmod /=; ring.
  by rewrite mulrA divfK.
move: (w * w / Cconj w) (sqmod w) p => c s p.
have -> : fst (c * RtoC s) = (fst c * s)%Re by rewrite /=; ring.
split=> hh; nra.
Qed.
Lemma complex_reflectance (w : C) : (0 < fst w)%Re -> w * w + Cconj w <> 0 ->
  exists W0 V0 Sr Wr Vr lr St Wt Vt lt S r,
    [/\ free_space_eigenmodes z z = Ok (W0, V0),
        scattering_reflection z z W0 V0 1 1 = Ok (Sr, Wr, Vr, lr),
        scattering_transmission z z W0 V0 (w * w) 1 = Ok (St, Wt, Vt, lt),
        redheffer_product Sr St = Ok S &
        s11 S = r%:M /\ ((sqmod r <= 1)%Re <-> (0 <= fst (w * w * w)%R)%Re)].
Proof.
move=> h /eqP hs; have w0 : w != 0 by apply/eqP => e; move: h; rewrite e /=; lra.
have c0 : Cconj w != 0 by apply/eqP => /(congr1 fst) /=; lra.
have ha : 1 + adm (w * w) != 0.
  rewrite adm_sqr //; have -> : 1 + w * w / Cconj w = (w * w + Cconj w) / Cconj w.
    by rewrite mulrDl divff // addrC.
  by rewrite mulf_neq0 // invr_eq0.
have [W0 [V0 [Sr [Wr [Vr [lr [St [Wt [Vt [lt [S [h1 h2 h3 h4 h5]]]]]]]]]]]] := @substrate_run n _ (mulf_neq0 w0 w0) ha.
exists W0, V0, Sr, Wr, Vr, lr, St, Wt, Vt, lt, S; eexists; split; eauto; split; first exact: h5.
by rewrite sqmod_ratio // adm_sqr //; exact: cube_sign.
Qed.
Lemma reflectance_above_one :
  exists (er : C), (snd er < 0)%Re /\ exists W0 V0 Sr Wr Vr lr St Wt Vt lt S r,
    [/\ free_space_eigenmodes z z = Ok (W0, V0),
        scattering_reflection z z W0 V0 1 1 = Ok (Sr, Wr, Vr, lr),
        scattering_transmission z z W0 V0 er 1 = Ok (St, Wt, Vt, lt),
        redheffer_product Sr St = Ok S & s11 S = r%:M /\ (6 < sqmod r)%Re].
Proof.
pose w : C := (1, -2)%Re; exists (w * w); split; first by rewrite /=; lra.
have h : (0 < fst w)%Re by rewrite /=; lra.
have ad : adm (w * w) = ((-11) / 5, 2 / 5)%Re.
  rewrite adm_sqr //; have c0 : Cconj w != 0 by apply/eqP => /(congr1 fst) /=; lra.
  apply: (can_inj (mulfK c0)); rewrite divfK //; apply: C_ext => /=; field.
have ha : 1 + adm (w * w) != 0 by rewrite ad; apply/eqP => /(congr1 fst) /=; lra.
have w0 : w != 0 by apply/eqP => /(congr1 fst) /=; lra.
have [W0 [V0 [Sr [Wr [Vr [lr [St [Wt [Vt [lt [S [h1 h2 h3 h4 h5]]]]]]]]]]]] := @substrate_run n _ (mulf_neq0 w0 w0) ha.
exists W0, V0, Sr, Wr, Vr, lr, St, Wt, Vt, lt, S; eexists; split; eauto; split; first exact: h5.
move: ha; rewrite ad => ha.
rewrite sqmodM; have := sqmodV ha; rewrite {2 3}/sqmod /=.
have -> : ((1 + -11 / 5) * (1 + -11 / 5) + (0 + 2 / 5) * (0 + 2 / 5) = 8 / 5)%Re by field.
have -> : ((1 + - (-11 / 5)) * (1 + - (-11 / 5)) + (0 + - (2 / 5)) * (0 + - (2 / 5)) = 52 / 5)%Re by field.
move: (sqmod _) => y; lra.
Qed.
End Reflectance.
