(** Properties C01 to C05: stacking scattering matrices. *)
From Coq Require Import Reals Lra.
From mathcomp Require Import all_ssreflect all_algebra.
From Coquelicot Require Import Complex.
From Verif Require Import Base CField CFun ModelRedheffer SpecScatter SpecEnergy
  RedhefferProofs EnergyAlg ScalarProofs.
Set Implicit Arguments. Unset Strict Implicit. Unset Printing Implicit Defensive.
Import GRing.Theory.
Local Open Scope ring_scope.

(** ** C01 Stacking two scatterers is exact wave matching *)
Theorem C01_wave_matching (F : fieldType) (n : nat) (SA SB S : smat F n) :
  redheffer_product SA SB = Ok S ->
  (forall a1 a2 : 'cV[F]_n,
     exists! c : 'cV[F]_n * 'cV[F]_n, gap_waves SA SB a1 a2 c.1 c.2) /\
  (forall a1 a2 b1 b2 : 'cV[F]_n,
     joined SA SB a1 a2 b1 b2 <-> scatters S a1 a2 b1 b2).
Proof. exact (fun e => conj (fun a1 a2 => gap_unique a1 a2 e) (fun a1 a2 b1 b2 => joinedE a1 a2 b1 b2 e)). Qed.
Print Assumptions C01_wave_matching.

Theorem C01_raises_on_resonance (F : fieldType) (n : nat) (SA SB : smat F n) (e : exn) :
  redheffer_product SA SB = Err e ->
  e = LinAlgError /\
  exists cp cm : 'cV[F]_n, (cp, cm) <> (0, 0) /\ gap_waves SA SB 0 0 cp cm.
Proof. exact (@rh_err F n SA SB e). Qed.
Print Assumptions C01_raises_on_resonance.

(** A half-silvered mirror (3/5, 4/5), used as a running example. *)
Definition mirror : smat C_fieldType 2 :=
  scS 2 (RtoC (3/5)%Re) (RtoC (4/5)%Re) (RtoC (4/5)%Re) (RtoC (-3/5)%Re).
Example C01_hypothesis_met : is_ok (redheffer_product mirror mirror).
Proof.
rewrite rh_scal; first by eexists.
by apply/eqP => h; have := congr1 fst h => /=; lra.
Qed.
Example C01_can_raise :
  redheffer_product (scS 2 0 1 1 1) (scS 2 1 1 1 0 : smat C_fieldType 2) = Err LinAlgError.
Proof. by apply: rh_scal_err; rewrite mulr1 subrr. Qed.

(** ** C02 The empty scatterer is neutral *)
Theorem C02_identity_neutral (F : fieldType) (n : nat) (S : smat F n) :
  redheffer_product (scattering_identity F n) S = Ok S /\
  redheffer_product S (scattering_identity F n) = Ok S.
Proof. exact (conj (rh_idL S) (rh_idR S)). Qed.
Print Assumptions C02_identity_neutral.
(** No hypothesis; the identity is not the zero matrix. *)
Example C02_not_degenerate : scattering_identity C_fieldType 2 <> Smat 0 0 0 0.
Proof. by move=> [] /matrixP /(_ 0 0) /eqP; rewrite !mxE oner_eq0. Qed.

(** ** C03 Stacking is associative *)
Theorem C03_associative (F : fieldType) (n : nat) (SA SB SC SAB SBC : smat F n) :
  redheffer_product SA SB = Ok SAB -> redheffer_product SB SC = Ok SBC ->
  redheffer_product SAB SC = redheffer_product SA SBC.
Proof. exact (@rh_assoc F n SA SB SC SAB SBC). Qed.
Print Assumptions C03_associative.
Example C03_hypotheses_met : exists SAB,
  redheffer_product mirror mirror = Ok SAB /\ is_ok (redheffer_product SAB mirror).
Proof.
eexists; split; first (rewrite (@rh_scal_x _ _ (RtoC (25/34)%Re)); first by []).
- by apply: C_ext => /=; field.
- rewrite rh_scal; first by eexists.
  by apply/eqP => h; have := congr1 fst h => /=; lra.
Qed.

(** ** C04 Lossless scatterers stay lossless when stacked *)
Theorem C04_any_flux_conserved (T : Type) (F : fieldType) (n : nat) (SA SB S : smat F n)
    (fl fg fr : 'cV[F]_n -> 'cV[F]_n -> T) :
  redheffer_product SA SB = Ok S ->
  conserves SA fl fg -> conserves SB fg fr -> conserves S fl fr.
Proof. exact (@rh_conserves F n T SA SB S fl fg fr). Qed.
Print Assumptions C04_any_flux_conserved.

Theorem C04_unitary (n : nat) (SA SB S : smat C_fieldType n) :
  redheffer_product SA SB = Ok S -> unitary_smat SA -> unitary_smat SB -> unitary_smat S.
Proof. exact (@rh_unitary n SA SB S). Qed.
Print Assumptions C04_unitary.

Theorem C04_passive (n : nat) (SA SB S : smat C_fieldType n) :
  redheffer_product SA SB = Ok S -> passive_smat SA -> passive_smat SB -> passive_smat S.
Proof. exact (@rh_passive n SA SB S). Qed.
Print Assumptions C04_passive.

(** Unitarity is the same as conservation of the total power. *)
Theorem C04_unitary_is_power_conservation (n : nat) (S : smat C_fieldType n) :
  unitary_smat S <->
  (forall a1 a2 b1 b2 : 'cV[C]_n, scatters S a1 a2 b1 b2 ->
     (power a1 - power b1 = power b2 - power a2)%Re).
Proof. exact (@unitary_conserves n S). Qed.
Print Assumptions C04_unitary_is_power_conservation.

Example C04_hypotheses_met : unitary_smat mirror.
Proof.
rewrite /unitary_smat /dense /= adj_block !adj_scalar mulmx_block -!scalar_mxM -!raddfD /=.
have e0 (x : C) : x = 0 -> x%:M = 0 :> 'M[C]_2 by move=> ->; exact: raddf0.
rewrite (scalar_mx_block 2 2 (1 : C)).
congr (block_mx _ _ _ _); rewrite -?[RHS](e0 0) //; congr (_%:M); apply: C_ext => /=; field.
Qed.

(** ** C05 Turning a stack around, and reciprocity *)
Theorem C05_reversed_stack (F : fieldType) (n : nat) (SA SB : smat F n) :
  redheffer_product (flip SB) (flip SA) = res_map (@flip F n) (redheffer_product SA SB).
Proof. exact (rh_flip SA SB). Qed.
Print Assumptions C05_reversed_stack.

Theorem C05_reciprocity (F : fieldType) (n : nat) (SA SB S : smat F n) :
  redheffer_product SA SB = Ok S ->
  transposed SA = SA -> transposed SB = SB -> transposed S = S.
Proof. exact (@rh_reciprocal F n SA SB S). Qed.
Print Assumptions C05_reciprocity.

Theorem C05_transposed_stack (F : fieldType) (n : nat) (SA SB : smat F n) :
  redheffer_product (transposed SA) (transposed SB)
  = res_map (@transposed F n) (redheffer_product SA SB).
Proof. exact (rh_transposed SA SB). Qed.
Print Assumptions C05_transposed_stack.

Example C05_hypotheses_met : transposed mirror = mirror /\ is_ok (redheffer_product mirror mirror).
Proof. split; [by rewrite /transposed /= !tr_scalar_mx | exact: C01_hypothesis_met]. Qed.
