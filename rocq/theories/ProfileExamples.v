(** A device for C116: a film, and the same film as two layers. *)
From Coq Require Import Reals String Lra.
From mathcomp Require Import all_ssreflect all_algebra.
From Coquelicot Require Import Complex Rbar.
From Verif Require Import Base ZmodTac CField CFun ModelRedheffer SpecScatter RedhefferProofs ModelLayer SpecLayer Blk LayerProofs
  LayerCProofs UniformProofs LayerApiProofs NormalProofs ScalarProofs SpecThinFilm ThinFilmProofs ModelExpansion SpecExpansion ExpansionProofs SpecMaxwell ModelFlux SpecFlux SpecEnergy EnergyAlg
  FluxProofs IncidentProofs OuterFlux ModelFourier ModelDevice SpecDevice StringEq DeviceProofs HistoryProofs
  FilmDevice DeviceExamples SpecProfile.
Set Implicit Arguments. Unset Strict Implicit. Unset Printing Implicit Defensive.
Import GRing.Theory.
Local Open Scope ring_scope.

Section Double.
Variables (eig : forall m, 'M[C]_m -> 'rV[C]_m * 'M[C]_m) (J1 : R -> R) (e : expansion).
Hypotheses (hpw : e_pw e = (1%N, 1%N)) (hg : e_g e = [:: (0%Re, 0%Re)]).
Variables (d wl : R) (w te tm : C).
Hypotheses (hw : (0 < fst w)%Re) (hw' : (snd w <= 0)%Re) (hd : (0 <= d)%Re) (hl : (0 < wl)%Re) (hp : (te, tm) <> (0, 0)).
Notation k0 := (2 * PI / wl)%Re.
Notation phi := (cexp (- (ci * w * RtoC (d * k0)%Re))).
Notation film := "film"%string.
Notation one := 1%Re.
Notation c0 := (crystal_of 1 e false (RtoC (one * one)%Re) (RtoC (one * one)%Re)).

Definition double_calls := [:: AddUniform film (w * w) d; SetDevice [:: film; film] (inl true);
  SetSource wl te tm 0%Re 0%Re None].
Definition double_crystal a b c sol : crystal 1 :=
  Crystal false (RtoC (one * one)%Re) (RtoC (one * one)%Re) e
    [:: (film, film_entry e d w a); (Sref, inc_entry e one b); (Strans, trn_entry e one c)]
    (Some ([:: film; film], [:: Sref; film; film; Strans], [:: true; true; true; true]))
    (Some (Source te tm 0 0 wl)) (0, 0) (RtoC (k0 * one)%Re) sol.
Lemma double_setup : history eig J1 c0 double_calls (double_crystal None None None None).
Proof.
apply: (history_cons (step_uniform _ _ _ _ _ _)).
eapply history_cons; first by eapply step_device; rewrite /set_device /=; reflexivity.
eapply history_cons; last by constructor.
apply: step_source; rewrite /set_source /= film_kplanar //=; destruct (Req_EM_T wl 0) as [h|h]; first lra.
by have [-> _] := film_kzi (k0_pos hl) Rlt_0_1.
Qed.
Lemma inc_one : inc_sc (1 + 1) (RtoC 1) = scattering_identity C_fieldType (1 + 1).
Proof.
have t0 := two_neq0.
rewrite /inc_sc /scS /scattering_identity -[RtoC 1]/(1 : C) subrr !mul0r mulr1 divff //.
by rewrite raddf0.
Qed.
Lemma trn_one : trn_sc (1 + 1) (RtoC 1) = scattering_identity C_fieldType (1 + 1).
Proof.
have t0 := two_neq0.
rewrite /trn_sc /scS /scattering_identity -[RtoC 1]/(1 : C) subrr !mul0r mulr1 divff //.
by rewrite raddf0.
Qed.
Lemma films : exists x, redheffer_product (film_sc (1 + 1) w phi) (film_sc (1 + 1) w phi) = Ok (film_sc (1 + 1) w x).
Proof.
have hk : (0 <= d * k0)%Re by have := k0_pos hl; nra.
have hk2 : (0 <= (d + d) * k0)%Re by have := k0_pos hl; nra.
have h1 := @film_api 1 w d k0 hw hw' hk.
have h2 := @film_api 1 w (d + d)%Re k0 hw hw' hk2.
have hf := free_normal 1.
by rewrite (cut_layer hf h1 h1) h2; eexists.
Qed.
Lemma double_solve : exists sol, step eig J1 (double_crystal None None None None) Solve
  (double_crystal (Some (film_solved d wl w)) (Some (inc_solved one)) (Some (trn_solved one)) (Some sol)) /\ exists x, r_S sol = film_sc (1 + 1) w x.
Proof.
have [x p3] := films.
eexists; split.
apply: (step_solve (order := [:: Sref; film; Strans])).
  by move=> dev [<-].
rewrite /crystal_solve /double_crystal /= inc_layer //; last lra.
rewrite /= film_layer //= trn_layer //; last lra.
have pl : redheffer_product (inc_sc (1 + 1) (RtoC 1)) (film_sc (1 + 1) w phi) = Ok (film_sc (1 + 1) w phi) by rewrite inc_one rh_idL.
have pr y : redheffer_product (film_sc (1 + 1) w y) (trn_sc (1 + 1) (RtoC 1)) = Ok (film_sc (1 + 1) w y) by rewrite trn_one rh_idR.
rewrite /= /stack_layers /= rh_idL /= pl /= p3 /= pr /= rh_idR /= pr /= p3 /=; reflexivity.
by exists x.
Qed.

(** The solved film has a flux; the film in two layers is solved with the same media. *)
Lemma double_flux a b c sol r t u v : r_S sol = scS (1 + 1) r u t v ->
  b = Some (inc_solved one) -> c = Some (trn_solved one) ->
  is_ok (poynting_flux_orders (double_crystal a b c (Some sol))).
Proof.
move=> hS -> ->; rewrite /poynting_flux_orders /=.
have [inc hinc] : is_ok (incident 1 te tm (0, 0, RtoC (k0 * one)%Re) true).
  exact: (@incident_def 1 te tm 0%Re 0%Re (k0 * one)%Re (or_introl (conj erefl erefl)) isT hp).
rewrite hinc /= /inv unitmx1 /= invmx1 !mul1mx hS /= !mul_scalar_mx.
have [fT [-> _]] := @film_flux e hpw hg wl te tm inc 1 1 t hl Rlt_0_1 Rlt_0_1 hinc.
have [fR [-> _]] := @film_flux e hpw hg wl te tm inc 1 1 r hl Rlt_0_1 Rlt_0_1 hinc.
by eexists.
Qed.
End Double.

Lemma profile_devices eig J1 : exists (c0 c1 c2 c1' c2' : crystal 1) o1 o2 l1 l2,
  [/\ created c0 false (RtoC (1 * 1)%Re) (RtoC (1 * 1)%Re), history eig J1 c0 o1 c1 /\ history eig J1 c0 o2 c2,
      [/\ same_outside c1 c2, piled c1 l1, piled c2 l2, same_profile l1 l2 & l1 <> l2],
      step eig J1 c1 Solve c1' /\ step eig J1 c2 Solve c2' &
      is_ok (poynting_flux_orders c1') /\ is_ok (poynting_flux_orders c2')].
Proof.
have [e [he _ hpw hg]] := multilayer_exp (RtoC (1 * 1)%Re) (RtoC (1 * 1)%Re).
have hp : (1 : C, 0 : C) <> (0, 0) by case=> h; move: h; lra.
have hw : (0 < fst (RtoC 3))%Re by rewrite /=; lra.
have hw' : (snd (RtoC 3) <= 0)%Re by rewrite /=; lra.
have hd1 : (0 <= 2)%Re by lra.
have hd2 : (0 <= 1)%Re by lra.
have hl : (0 < 1)%Re by lra.
have [s1 [t1 u1]] := @film_solve eig J1 e hpw hg 1 1 2 1 (RtoC 3) 1 0 hl hl hw hw' hd1 hl None None None None.
have [s2 [t2 [x u2]]] := @double_solve eig J1 e hpw hg 1 1 (RtoC 3) 1 0 hw hw' hd2 hl.
exists (crystal_of 1 e false (RtoC (1 * 1)%Re) (RtoC (1 * 1)%Re)); do 4 eexists.
exists (film_calls 2 1 (RtoC 3) 1 0), (double_calls 1 1 (RtoC 3) 1 0).
exists [:: (UNIFORM (RtoC 3 * RtoC 3), 2%Re)], [:: (UNIFORM (RtoC 3 * RtoC 3), 1%Re); (UNIFORM (RtoC 3 * RtoC 3), 1%Re)].
split.
- exact: multilayer_created he.
- by split; [exact: film_setup | exact: double_setup].
- split.
  + split=> // _; split; do 4 eexists; split; [reflexivity | reflexivity | by split | reflexivity | reflexivity | by split].
  + exists [:: "film"%string]; eexists; split; [reflexivity | reflexivity | | ].
      by apply: List.Forall_cons; [split=> //=; lra | exact: List.Forall_nil].
    by case=> [_|//]; do 2 eexists; reflexivity.
  + exists [:: "film"; "film"]%string; eexists; split; [reflexivity | reflexivity | | ].
      by do 2 (apply: List.Forall_cons; first by split=> //=; lra); exact: List.Forall_nil.
    by case=> [_|[_|//]]; do 2 eexists; reflexivity.
  + move=> z hz /=; destruct (Rlt_dec z 2) as [a|a]; destruct (Rlt_dec z 1) as [b|b] => //; destruct (Rlt_dec (z - 1) 1) as [c|c] => //; lra.
  + by [].
- by split; [exact: t1 | exact: t2].
- split; last exact: (double_flux hpw hg 1 (RtoC 3) hl hp _ u2 erefl erefl).
  have := film_fluxes hpw hg 2 (RtoC 3) hl hl hl hp (Some (film_solved 2 1 (RtoC 3))) u1 erefl erefl.
  by rewrite /poynting_flux_end; case: (poynting_flux_orders _) => [f|//] _; exists f.
Qed.
