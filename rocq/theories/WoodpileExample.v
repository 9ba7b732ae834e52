(** A solved woodpile: four full-wave plates of glass. *)
From Coq Require Import Reals ZArith Lra Lia String.
From mathcomp Require Import all_ssreflect all_algebra.
From Coquelicot Require Import Complex Rbar.
From Verif Require Import Base ZmodTac CField CFun Blk StringEq ModelRedheffer RedhefferProofs ModelLayer ScalarProofs NormalProofs
  ThinFilmProofs ModelExpansion ExpansionProofs SpecExpansion ModelFlux IncidentProofs ModelFourier SpecFourier FourierProofs ModelExtension ModelDevice ModelDraw
  FilmDevice LayerRoutes DeviceProofs ModelRest SpecDevice SpecRest SpecEnergy WoodpileProofs.
Set Implicit Arguments. Unset Strict Implicit. Unset Printing Implicit Defensive.
Import GRing.Theory.
Local Open Scope ring_scope.

Notation I2 := (scattering_identity C_fieldType (1 + 1)).

Section Plates.
Variables (J1 : R -> R) (e : expansion).
Hypotheses (hpw : e_pw e = (1, 1)%N) (hg : e_g e = [:: (0, 0)%Re]).
Let one_pos := Rlt_0_1.

Lemma full_wave : cexp (- (ci * RtoC 2 * RtoC (1 / 2 * (2 * PI / 1))%Re)) = 1.
Proof.
rewrite -(cexp_2kPI 1); congr (cexp (- _)); rewrite -mulrA; congr (_ * _).
by rewrite -[LHS]/(Cmult _ _) -RtoC_mult; congr RtoC; field.
Qed.

Lemma full_film : film_sc (1 + 1) (RtoC 2) 1 = I2.
Proof.
have h2 : (0 < fst (RtoC 2))%Re by rewrite /=; lra.
have h2' : (snd (RtoC 2) <= 0)%Re by rewrite /=; lra.
have hk : (0 <= 1 / 2 * (2 * PI / 1))%Re by have := PI_RGT_0; lra.
have := film_D h2 h2' hk; rewrite /phase full_wave mulr1 mul1r => h.
rewrite /film_sc /scattering_identity /scS /film_r /film_t mulr1 subrr mulr0 !mul0r !mul1r divff // raddf0 //.
Qed.

Lemma plate A b : constant_picture A (RtoC 2 * RtoC 2) -> (0 < a_rows A)%N -> (0 < a_cols A)%N ->
  exists s, layer_solve scalar_eig J1 1 (Layer e (FFT A) (1 / 2)%Re b) (0, 0) 1 = Ok s /\ sl_S s = Some I2.
Proof.
move=> hA h1 h2; rewrite /layer_solve /=; have [kz [-> _]] := film_krows hpw hg 1 R1_neq_R0.
rewrite /bind free_normal hpw.
have := @conv_domain 1 A (1, 1)%N erefl isT h1 h2.
have -> : ((1, 1).1 <= (a_rows A + 1) %/ 2)%N && ((1, 1).2 <= (a_cols A + 1) %/ 2)%N.
  by rewrite /= !divn_gt0 // !addn1 !ltnS h1 h2.
case=> M hM; have eM : M = (RtoC 2 * RtoC 2)%:M by apply: conv_constant hM _.
have u : ((RtoC 2 * RtoC 2)%:M : 'M[C]_1) \in unitmx.
  by apply: scal_unit; rewrite mulf_neq0 // RtoC_neq0 //; lra.
rewrite hM eM /inv u structured_scalar //=; last by lra.
have h3 : (0 < fst (RtoC 2))%Re by rewrite /=; lra.
have h4 : (snd (RtoC 2) <= 0)%Re by rewrite /=; lra.
have hk : (0 <= 1 / 2 * (2 * PI / 1))%Re by have := PI_RGT_0; lra.
rewrite (film_api _ h3 h4 hk) /phase full_wave full_film /=.
by case: b; eexists.
Qed.
End Plates.

Lemma plateA : constant_picture (pictureA 1 4 (2, 3)%N) (RtoC 2 * RtoC 2).
Proof.
move=> i j hi hj; have [_ _ H] := @pictureA_rods 1 4 (2, 3)%N; have [K _] := H i j hi hj; rewrite K {K H}.
  by rewrite -RtoC_sqr; congr RtoC; lra.
exists BinNums.Z0, 0%Re; split; first by left.
have : (- (1 / 2) <= position (2, 3)%N.2 j <= 1 / 2)%Re := position_bounds hj.
rewrite /Rabs; destruct (Rcase_abs _); lra.
Qed.
Lemma plateC : constant_picture (pictureC 1 4 (1 / 4) (2, 3)%N) (RtoC 2 * RtoC 2).
Proof.
move=> i j hi hj; have hq : (0 <= 1 / 4 <= 1 / 2)%Re by lra.
have [_ _ H] := pictureC_rods 1 4 (2, 3)%N hq; have [K _] := H i j hi hj; rewrite K {K H}.
  by rewrite -RtoC_sqr; congr RtoC; lra.
have : (- (1 / 2) <= position (2, 3)%N.2 j <= 1 / 2)%Re := position_bounds hj.
set y := position _ j; destruct (Rle_dec 0 y) as [h|h] => hb.
  exists BinNums.Z0, (1 / 4)%Re; split; first by left.
  by rewrite /Rabs; destruct (Rcase_abs _); lra.
exists BinNums.Z0, (- (1 / 4))%Re; split; first by right; left.
by rewrite /Rabs; destruct (Rcase_abs _); lra.
Qed.
Lemma constant_transposed A v : constant_picture A v -> constant_picture (transposed A) v.
Proof. by move=> h i j hi hj; apply: h. Qed.

Lemma solved_woodpile J1 : exists (c c1 c2 : crystal 1) RT,
  [/\ make_woodpile 1 1 4 (1 / 4) (1 / 2) (1, 1)%N (2, 3)%N = Ok c, set_source c 1 1 0 0 0 None = Ok c1,
      step scalar_eig J1 c1 Solve c2, good_source c2 & poynting_flux_end c2 = Ok RT].
Proof.
have [c hc] : is_ok (make_woodpile 1 1 4 (1 / 4) (1 / 2) (1, 1)%N (2, 3)%N) by apply: woodpile_ok.
have [_ _ [c0 [h0 h1]]] := woodpileE hc.
have [e [he _ hpw hg]] := multilayer_exp 1 1.
have ec : c0 = crystal_of 1 e false 1 1 by move: he; rewrite /multilayer h0 => -[].
have hl : (0 < 1)%Re by lra.
rewrite ec in h1; move: h1; rewrite /set_device /= => -[hc1].
have [sA [pA qA]] := plate J1 hpw hg false plateA isT isT.
have [sB [pB qB]] := plate J1 hpw hg false (constant_transposed plateA) isT isT.
have [sC [pC qC]] := plate J1 hpw hg false plateC isT isT.
have [sD [pD qD]] := plate J1 hpw hg false (constant_transposed plateC) isT isT.
have hi := @inc_layer scalar_eig J1 e hpw hg 1 1 hl hl.
have ht := @trn_layer scalar_eig J1 e hpw hg 1 1 hl hl.
have e1 : RtoC (1 * 1) = 1 :> C by congr (_, _); lra.
rewrite e1 in hi ht.
have hp : ((1 : C), (0 : C)) <> (0, 0) by case=> h; have := Rlt_0_1; rewrite h; lra.
have [inc hinc] := @incident_def 1 1 0 0%Re 0%Re (2 * PI / 1 * 1)%Re (or_introl (conj erefl erefl)) isT hp.
have ek : source_kzi (2 * PI / 1) 1 (0, 0) = RtoC (2 * PI / 1 * 1)%Re.
  by rewrite -(proj1 (film_kzi (k0_pos hl) hl)) e1.
have [fT [h1 _]] := @film_flux e hpw hg 1 1 0 inc 1 1 1 hl hl hl hinc.
have [fR [h2 _]] := @film_flux e hpw hg 1 1 0 inc 1 1 0 hl hl hl hinc.
rewrite scale1r scale0r e1 in h1 h2.
do 4 eexists; split; first exact: hc.
- rewrite -hc1 /set_source /= (film_kplanar hl) /=; destruct (Req_EM_T 1 0) as [h|h]; [by lra|reflexivity].
- apply: (step_solve (order := [:: Sref; "A"; "B"; "C"; "D"; Strans]%string)); first by move=> dev [<-].
  rewrite /crystal_solve /= hi /= pA /= pB /= pC /= pD /= ht /=.
  rewrite /entry_S /= qA /= qB /= qC /= qD /=.
  have -> : inc_sc (1 + 1) (RtoC 1) = I2 by rewrite /inc_sc /scS -[RtoC 1]/(1 : C) subrr !mul0r mulr1 divff ?two_neq0 // raddf0.
  have -> : trn_sc (1 + 1) (RtoC 1) = I2 by rewrite /trn_sc /scS -[RtoC 1]/(1 : C) subrr !mul0r mulr1 divff ?two_neq0 // raddf0.
  rewrite /stack_layers /=; do 12 (try rewrite (rh_idL I2) /=); reflexivity.
- by split; [eexists; split; [reflexivity|] | do 2 split=> //; left].
- rewrite /poynting_flux_end /poynting_flux_orders /=.
  rewrite ek hinc /= /inv unitmx1 /= invmx1 !mul1mx.
  rewrite mul0mx h1 /= h2 /=; reflexivity.
Qed.
