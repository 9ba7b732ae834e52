(** Field maps: the statements in terms of histories of calls. *)
From Coq Require Import Reals ZArith Lra Lia String.
From mathcomp Require Import all_ssreflect all_algebra.
From Coquelicot Require Import Complex Rbar.
From Verif Require Import Base ZmodTac CField CFun Blk ModelRedheffer SpecScatter SpecStack RedhefferProofs ModelLayer SpecLayer
  LayerProofs LayerCProofs LayerApiProofs SpecMaxwell UniformProofs NormalProofs SpecThinFilm ThinFilmProofs EnergyAlg FluxProofs IncidentProofs OuterFlux SpecEig
  ModelExpansion SpecExpansion ExpansionProofs ModelFlux SpecFlux ModelFourier
  ModelExtension ModelDevice SpecDevice StringEq DeviceProofs DeviceEnergy FilmDevice HistoryProofs DepthProofs LayerRoutes DeviceExamples DeviceTheorems
  ModelFields SpecFields StackProofs SolvedProofs Calculus FieldsProofs RetainProofs EmergenceProofs LongProofs ScalarProofs FieldsTheorems FieldsExamples.
Set Implicit Arguments. Unset Strict Implicit. Unset Printing Implicit Defensive.
Import GRing.Theory.
Local Open Scope ring_scope.

Section Histories.
Variables (eig : forall m, 'M[C]_m -> 'rV[C]_m * 'M[C]_m) (J1 : R -> R) (n : nat) (ei ee : C).
Implicit Types (c : crystal n).
Lemma locate_history c0 ops c c' ds z : created c0 false ei ee -> all_calls outer_call ops -> history eig J1 c0 ops c ->
  step eig J1 c Solve c' -> device_depths c' ds -> nonneg ds -> located c' ds z (locate_layer c' z).
Proof. by move=> hc ho hh; apply: locate; apply: history_outer ho hh; exact: created_outer hc. Qed.
Lemma retained_history c0 ops c1 c2 c3 c4 stack mask wl te tm th ph kp ds inc z :
  created c0 false ei ee -> all_calls own_call ops -> history eig J1 c0 ops c1 -> user_stack stack ->
  step eig J1 c1 (SetDevice stack mask) c2 -> step eig J1 c2 (SetSource wl te tm th ph kp) c3 -> step eig J1 c3 Solve c4 ->
  (forall m, mask = inr m -> size m = size stack) ->
  device_depths c4 ds -> nonneg ds ->
  is_ok (fourier_fields c4 z inc) <->
  (z <= 0)%Re \/ (depth_before ds (size ds) < z)%Re \/
  (exists i, [/\ (i < size stack)%N, (depth_before ds i < z)%Re, (z <= depth_before ds i.+1)%Re &
     user_mask mask i]).
Proof. by move=> hc ho hh; apply: retained; apply: history_own ho hh; exact: created_own hc. Qed.
End Histories.

(** The z component of an outgoing wave is the one the flux formula uses. *)
Lemma long_flux n e kp wl (er : R) (kx ky kz : 'rV[C]_n) V (c : 'cV[C]_(n + n)) j : (0 < wl)%Re -> er <> 0%Re ->
  snd kp.1 = 0%Re -> snd kp.2 = 0%Re -> krows n e kp wl (RtoC er) = Ok (kx, ky, kz) ->
  divcols (Qref kx ky (RtoC er) 1) (twice (ci *: half_kz kx ky (RtoC er) 1)) = Ok V ->
  vz (fieldE kx ky (inl (RtoC er)^-1) c (- (V *m c)) j) = - (kx 0 j * c (lshift n j) 0 + ky 0 j * c (rshift n j) 0) / kz 0 j.
Proof.
move=> hl he hx hy hk hV; rewrite (krows_half hl hx hy hk) /fieldE /vz /=.
exact: (long_outer _ _ (RtoC_neq0 he) hV).
Qed.

(** A concrete stack of two scatterers. *)
Lemma stack_example : exists Sls Srs (Stot : smat C_fieldType (1 + 1)),
  stack_layers [:: scS (1 + 1) 0 2%:R 3%:R 0; scS (1 + 1) 1 1 1 1 : smat C_fieldType (1 + 1)] [:: true; false] = Ok (Sls, Srs, Stot).
Proof.
rewrite /stack_layers /= rh_idL /= rh_scal ?mulr0 ?subr0 ?oner_neq0 //=.
by rewrite rh_idR /=; do 3 eexists.
Qed.
Lemma amplitudes_example : exists cp cm : 'cV[C]_(1 + 1),
  translate_mode_amplitudes (scS (1 + 1) 0 2%:R 3%:R 0) (scS (1 + 1) 1 1 1 1) (const_mx 1) 0 0 = Ok (cp, cm) /\ cm <> 0.
Proof.
rewrite /translate_mode_amplitudes /= raddf0 mul0mx subr0 /solve unitmx1 /= invmx1 !mul1mx.
do 2 eexists; split; first reflexivity.
move=> /matrixP /(_ 0 0); rewrite mul_scalar_mx !mxE mulr1 => /(congr1 fst) /=; lra.
Qed.
