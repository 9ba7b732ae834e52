(** C19: Fresnel and Airy. *)
From Coq Require Import Reals Lra.
From mathcomp Require Import all_ssreflect all_algebra.
From Coquelicot Require Import Complex.
From Verif Require Import Base ZmodTac CField CFun Blk ModelRedheffer SpecScatter RedhefferProofs
  ModelLayer SpecLayer SpecEnergy EnergyAlg LayerProofs LayerCProofs UniformProofs ScalarProofs
  LayerApiProofs NormalProofs SpecThinFilm.
Set Implicit Arguments. Unset Strict Implicit. Unset Printing Implicit Defensive.
Import GRing.Theory.
Local Open Scope ring_scope.

Definition inc_sc m (c : C) : smat C_fieldType m :=
  scS m ((c - 1) / (c + 1)) (2%:R / (1 + c)) (2%:R * c / (1 + c)) ((1 - c) / (1 + c)).
Definition trn_sc m (c : C) : smat C_fieldType m :=
  scS m ((1 - c) / (1 + c)) (2%:R * c / (1 + c)) (2%:R / (1 + c)) ((c - 1) / (c + 1)).
Definition film_sc m (w x : C) : smat C_fieldType m :=
  scS m (film_r w x) (film_t w x) (film_t w x) (film_r w x).

Ltac csides := repeat split; try exact: neqC0; try exact: (neqC0 two_neq0).

(** [toC] without simplification. *)
Ltac toCs := rewrite ?(expr2, addCE, mulCE, oppCE, invCE, zeroCE, oneCE);
  match goal with |- @eq _ ?a ?b => change (@eq C a b) end.
Ltac cfield := toCs; field.
Ltac cring := toCs; ring.
(** Closes [e <> 0] from [h : e' != 0] when e = e' in the ring. *)
Ltac nz h := let e := fresh "e" in intro e; change ((- R1)%Re, (- R0)%Re) with (Copp (RtoC 1%Re)) in e; change (R1, R0) with (RtoC 1%Re) in e; apply: (elimN eqP h); etransitivity; [|exact: e]; cring.

Lemma two_media m (a b : C) : 1 + a != 0 -> 1 + b != 0 -> a + b != 0 ->
  redheffer_product (inc_sc m a) (trn_sc m b) =
  Ok (scS m (fresnel_r a b) (fresnel_t b a) (fresnel_t a b) (fresnel_r b a)).
Proof.
move=> ha hb hab; have hba : b + a != 0 by rewrite addrC.
have ha' : a + 1 != 0 by rewrite addrC. have hb' : b + 1 != 0 by rewrite addrC.
rewrite (@rh_scal_x _ _ ((1 + a) * (1 + b) / (2%:R * (a + b)))); last first.
  by rewrite mulr2n; cfield; csides.
rewrite /fresnel_r /fresnel_t; congr (Ok (scS _ _ _ _ _)); rewrite ?mulr2n; cfield; csides.
Qed.

Section Film.
Variables (m : nat) (a b w x : C).
Hypotheses (ha : 1 + a != 0) (hb : 1 + b != 0) (hw : w + 1 != 0) (w0 : w != 0).
Hypotheses (haw : a + w != 0) (hwb : w + b != 0).
Let rho := (w - 1) / (w + 1).
Hypothesis hD : 1 - x * x * rho * rho != 0.
Hypothesis hE : 1 + x * x * rho * ((a - w) / (a + w)) != 0.
Hypothesis hF : 1 + (a - w) / (a + w) * ((w - b) / (w + b)) * (x * x) != 0.

Let hD' : (w + 1) * (w + 1) - x * x * ((w - 1) * (w - 1)) != 0.
Proof.
have -> : (w + 1) * (w + 1) - x * x * ((w - 1) * (w - 1)) = (w + 1) * (w + 1) * (1 - x * x * rho * rho).
  by rewrite /rho; cfield; csides.
by rewrite !mulf_neq0.
Qed.
Let hE' : (w + 1) * (a + w) + x * x * ((w - 1) * (a - w)) != 0.
Proof.
have -> : (w + 1) * (a + w) + x * x * ((w - 1) * (a - w)) = (w + 1) * (a + w) * (1 + x * x * rho * ((a - w) / (a + w))).
  by rewrite /rho; cfield; csides.
by rewrite !mulf_neq0.
Qed.
Let hF' : (a + w) * (w + b) + x * x * ((a - w) * (w - b)) != 0.
Proof.
have -> : (a + w) * (w + b) + x * x * ((a - w) * (w - b)) = (a + w) * (w + b) * (1 + (a - w) / (a + w) * ((w - b) / (w + b)) * (x * x)).
  by cfield; csides.
by rewrite !mulf_neq0.
Qed.
(** Left stack: outer medium a, film of index w, then vacuum. *)
Let e1 := (1 + a) * ((w + 1) * (w + 1) - x * x * ((w - 1) * (w - 1)))
   / (2%:R * ((w + 1) * (a + w) + x * x * ((w - 1) * (a - w)))).
Let r1 := ((a - w) * (w + 1) + x * x * ((w - 1) * (a + w)))
   / ((w + 1) * (a + w) + x * x * ((w - 1) * (a - w))).
Let t12 := 4%:R * w * x / ((w + 1) * (a + w) + x * x * ((w - 1) * (a - w))).
Let r2 := ((w - 1) * (a + w) * -1 - x * x * ((a - w) * (w + 1)))
   / ((w + 1) * (a + w) + x * x * ((w - 1) * (a - w))).

Lemma left_film : redheffer_product (inc_sc m a) (film_sc m w x) =
  Ok (scS m r1 t12 (a * t12) r2).
Proof.
have ha' : a + 1 != 0 by rewrite addrC.
rewrite (@rh_scal_x _ _ e1); last first.
  by rewrite /e1 /film_r -/rho mulr2n /rho; cfield; csides; (nz hD' || nz hE').
rewrite /e1 /r1 /r2 /t12 /film_r /film_t; congr (Ok (scS _ _ _ _ _));
 rewrite ?mulr2n ?(mulrS 1 3) ?(mulrS 1 2) ?mulr2n; cfield; csides; (nz hD' || nz hE').
Qed.

Let hF2 : (w + b) * (a + w) + x * x * ((a - w) * (w - b)) != 0.
Proof. by rewrite (mulrC (w + b)). Qed.
Lemma whole_film : exists S1, redheffer_product (inc_sc m a) (film_sc m w x) = Ok S1 /\
  redheffer_product S1 (trn_sc m b) =
  Ok (scS m (airy_r a w b x) (airy_t b w a x) (airy_t a w b x) (airy_r b w a x)).
Proof.
exists (scS m r1 t12 (a * t12) r2); split; first exact: left_film.
have hb' : b + 1 != 0 by rewrite addrC.
have haw' : w + a != 0 by rewrite addrC. have hwb' : b + w != 0 by rewrite addrC.
rewrite (@rh_scal_x _ _ ((1 + b) * ((w + 1) * (a + w) + x * x * ((w - 1) * (a - w)))
   / (2%:R * ((a + w) * (w + b) + x * x * ((a - w) * (w - b)))))); last first.
  by rewrite /r2 mulr2n; cfield; csides; (nz hE' || nz hF').
rewrite /r1 /r2 /t12 /airy_r /airy_t /fresnel_r /fresnel_t; congr (Ok (scS _ _ _ _ _));
 rewrite ?mulr2n ?(mulrS 1 3) ?(mulrS 1 2) ?mulr2n; cfield; csides; (nz hE' || nz hF').
Qed.
End Film.

Section Api.
Variable n : nat.
Notation z := (0 : 'rV[C]_n).

Lemma real_pos1 (x : R) : (0 < x)%Re -> 1 + RtoC x != 0.
Proof. by move=> h; apply: pos_sum_neq0 => /=; lra. Qed.
Lemma inc_api (x : R) : (0 < x)%Re ->
  scattering_reflection z z 1%:M (V0n n) (RtoC x * RtoC x) 1 =
  Ok (inc_sc (n + n) (RtoC x), 1%:M, RtoC x *: V0n n, twof (fun _ => ci * RtoC x)).
Proof.
move=> h; rewrite /scattering_reflection oner_eq0; cbv zeta.
rewrite half_normal_real // /bind reflection_normal ?real_pos1 //.
by case: (@half_normal n (RtoC x) h) => _ ->; rewrite conj_real twof_twice.
Qed.
Lemma trn_api (x : R) : (0 < x)%Re ->
  scattering_transmission z z 1%:M (V0n n) (RtoC x * RtoC x) 1 =
  Ok (trn_sc (n + n) (RtoC x), 1%:M, RtoC x *: V0n n, twof (fun _ => ci * RtoC x)).
Proof.
move=> h; rewrite /scattering_transmission oner_eq0; cbv zeta.
rewrite half_normal_real // /bind transmission_normal ?real_pos1 //.
by case: (@half_normal n (RtoC x) h) => _ ->; rewrite conj_real twof_twice.
Qed.

Variables (w : C) (d k0 : R).
Hypotheses (hw : (0 < fst w)%Re) (hw' : (snd w <= 0)%Re) (hdk : (0 <= d * k0)%Re).
Definition phase : C := cexp (- (ci * w * RtoC (d * k0)%Re)).
Lemma phase_le1 : (sqmod phase <= 1)%Re.
Proof. apply: cexp_le1 => /=; nra. Qed.
Lemma w_neq0 : w != 0.
Proof. by apply/eqP => e; move: hw; rewrite e /=; lra. Qed.
Lemma rho_small : (sqmod ((w - 1) / (w + 1))%R < 1)%Re.
Proof.
have := @ratio_small 1%Re w Rlt_0_1 hw.
have -> : (w - 1) / (w + 1) = - ((RtoC 1 - w) / (RtoC 1 + w)).
  by rewrite -mulNr opprB (addrC (RtoC 1)).
by rewrite sqmodN.
Qed.
Lemma phase2_le1 : (sqmod (phase * phase)%R <= 1)%Re.
Proof. exact: sqmod_mul_le1 phase_le1 phase_le1. Qed.
Lemma film_D : 1 - phase * phase * ((w - 1) / (w + 1)) * ((w - 1) / (w + 1)) != 0.
Proof.
apply: small_neqB; apply: sqmod_mul_lt1 rho_small.
by apply: Rlt_le; apply: sqmod_mul_lt1 phase2_le1 rho_small.
Qed.
Lemma film_api :
  build_scatmat 1%:M (w *: V0n n) 1%:M (V0n n) (twof (fun _ => ci * w)) d k0 =
  Ok (film_sc (n + n) w phase).
Proof.
rewrite /build_scatmat propagator_twof build_normal ?w_neq0 ?film_D //.
by apply: pos_sum_neq0 => //=; lra.
Qed.
Lemma whole_api (n1 n3 : R) : (0 < n1)%Re -> (0 < n3)%Re ->
  exists S1, redheffer_product (inc_sc (n + n) (RtoC n1)) (film_sc (n + n) w phase) = Ok S1 /\
  redheffer_product S1 (trn_sc (n + n) (RtoC n3)) =
  Ok (scS (n + n) (airy_r (RtoC n1) w (RtoC n3) phase) (airy_t (RtoC n3) w (RtoC n1) phase)
                  (airy_t (RtoC n1) w (RtoC n3) phase) (airy_r (RtoC n3) w (RtoC n1) phase)).
Proof.
move=> h1 h3; apply: whole_film; rewrite ?real_pos1 ?w_neq0 ?film_D //.
- by apply: pos_sum_neq0 => //=; lra.
- by apply: pos_sum_neq0.
- by apply: pos_sum_neq0.
- apply: small_neq; apply: sqmod_mul_lt1 (ratio_small h1 hw).
  by apply: Rlt_le; apply: sqmod_mul_lt1 phase2_le1 rho_small.
- have h3' := ratio_small h3 hw.
  have e : (w - RtoC n3) / (w + RtoC n3) = - ((RtoC n3 - w) / (RtoC n3 + w)).
    by rewrite -mulNr opprB (addrC (RtoC n3)).
  apply: small_neq; rewrite mulrC; apply: sqmod_mul_lt1 phase2_le1 _; rewrite e.
  by apply: sqmod_mul_lt1; rewrite ?sqmodN //; apply: Rlt_le; exact: ratio_small.
Qed.
End Api.

Lemma fresnel_functions (n1 n2 : R) :
  (0 < n1)%Re -> (0 < n2)%Re ->
  exists W0 V0 Sr Wr Vr lr St Wt Vt lt S,
    [/\ free_space_eigenmodes (0 : 'rV_1) 0 = Ok (W0, V0),
        scattering_reflection (0 : 'rV_1) 0 W0 V0 (RtoC n1 * RtoC n1) 1 = Ok (Sr, Wr, Vr, lr),
        scattering_transmission (0 : 'rV_1) 0 W0 V0 (RtoC n2 * RtoC n2) 1 = Ok (St, Wt, Vt, lt),
        redheffer_product Sr St = Ok S &
        [/\ s11 S = (fresnel_r (RtoC n1) (RtoC n2))%:M, s21 S = (fresnel_t (RtoC n1) (RtoC n2))%:M,
            s22 S = (fresnel_r (RtoC n2) (RtoC n1))%:M & s12 S = (fresnel_t (RtoC n2) (RtoC n1))%:M]].
Proof.
move=> h1 h2; do 11 eexists; split; [exact: free_normal | exact: inc_api | exact: trn_api | |].
- by apply: two_media; rewrite ?real_pos1 //; apply: pos_sum_neq0.
- by split.
Qed.
Lemma airy_functions (n1 n3 d k0 : R) (n2 : C) :
  (0 < n1)%Re -> (0 < n3)%Re -> (0 < fst n2)%Re -> (snd n2 <= 0)%Re -> (0 <= d * k0)%Re ->
  exists W0 V0 Sr Wr Vr lr W V l L St Wt Vt lt S1 S,
    [/\ [/\ free_space_eigenmodes (0 : 'rV_1) 0 = Ok (W0, V0),
        scattering_reflection (0 : 'rV_1) 0 W0 V0 (RtoC n1 * RtoC n1) 1 = Ok (Sr, Wr, Vr, lr),
        solve_uniform_layer (0 : 'rV_1) 0 (n2 * n2) 1 = Ok (W, V, l) &
        build_scatmat W V W0 V0 l d k0 = Ok L],
        scattering_transmission (0 : 'rV_1) 0 W0 V0 (RtoC n3 * RtoC n3) 1 = Ok (St, Wt, Vt, lt),
        redheffer_product Sr L = Ok S1, redheffer_product S1 St = Ok S &
        let phi := cexp (- (ci * n2 * RtoC (d * k0)%Re)) in
        s11 S = (airy_r (RtoC n1) n2 (RtoC n3) phi)%:M /\
        s21 S = (airy_t (RtoC n1) n2 (RtoC n3) phi)%:M].
Proof.
move=> h1 h3 hw hw' hd.
have [S1 [e1 e2]] := @whole_api 1 n2 d k0 hw hw' hd n1 n3 h1 h3.
exists 1%:M, (V0n 1); do 4 eexists; do 4 eexists; do 4 eexists; exists S1; eexists.
split; [split; [exact: free_normal | exact: inc_api | exact: uniform_normal | exact: film_api]
       | exact: trn_api | exact: e1 | exact: e2 | by split].
Qed.
