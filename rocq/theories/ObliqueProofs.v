(** The field map of a plane wave in vacuum at oblique incidence. *)
From Coq Require Import Reals ZArith Lra Lia String.
From mathcomp Require Import all_ssreflect all_algebra.
From Coquelicot Require Import Complex Rbar.
From Verif Require Import Base ZmodTac CField CFun Blk ModelRedheffer SpecScatter SpecStack RedhefferProofs ModelLayer SpecLayer
  LayerProofs LayerCProofs LayerApiProofs SpecMaxwell UniformProofs NormalProofs SpecThinFilm ThinFilmProofs EnergyAlg FluxProofs IncidentProofs OuterFlux SpecEig
  ModelExpansion SpecExpansion ExpansionProofs ModelFlux SpecFlux ModelFourier
  ModelExtension ModelDevice SpecDevice StringEq DeviceProofs DeviceEnergy FilmDevice HistoryProofs DepthProofs DeviceExamples DeviceTheorems
  ModelFields SpecFields StackProofs SolvedProofs Calculus FieldsProofs RetainProofs EmergenceProofs LongProofs ScalarProofs FieldsTheorems FieldsExamples.
Set Implicit Arguments. Unset Strict Implicit. Unset Printing Implicit Defensive.
Import GRing.Theory.
Local Open Scope ring_scope.

(** Matched media reflect nothing. *)
Lemma matched_reflection m (V : 'M[C]_m) : V \in unitmx ->
  reflection_core 1%:M V 1%:M V = Ok (scattering_identity C_fieldType m).
Proof.
move=> u; have t0 := two_neq0; rewrite /reflection_core /solve unitmx1 u /= invmx1 mul1mx mulVmx // subrr.
have eA : 1%:M + 1%:M = (2%:R)%:M :> 'M[C]_m by rewrite -raddfD.
have uA : (1%:M + 1%:M : 'M[C]_m) \in unitmx by rewrite eA -scalemx1 unitmxZ ?unitmx1 // unitfE.
rewrite uA /= mulmx0 /inv uA /= mul0mx subr0 mul0mx oppr0 eA -scalemx1 invmxZ ?unitfE ?t0 //; last by rewrite unitmxZ ?unitmx1 // unitfE.
by rewrite invmx1 !scalerA mulfV // mulVf // !scale1r.
Qed.
Lemma matched_transmission m (V : 'M[C]_m) : V \in unitmx ->
  transmission_core 1%:M V 1%:M V = Ok (scattering_identity C_fieldType m).
Proof.
move=> u; have t0 := two_neq0; rewrite /transmission_core /solve unitmx1 u /= invmx1 mul1mx mulVmx // subrr.
have eA : 1%:M + 1%:M = (2%:R)%:M :> 'M[C]_m by rewrite -raddfD.
have uA : (1%:M + 1%:M : 'M[C]_m) \in unitmx by rewrite eA -scalemx1 unitmxZ ?unitmx1 // unitfE.
rewrite /inv uA /= mulmx0 !mul0mx subr0 oppr0 eA -scalemx1 invmxZ ?unitfE ?t0 //; last by rewrite unitmxZ ?unitmx1 // unitfE.
by rewrite invmx1 !scalerA mulfV // mulVf // !scale1r.
Qed.

Section Oblique.
Variables (eig : forall m, 'M[C]_m -> 'rV[C]_m * 'M[C]_m) (J1 : R -> R).
Variables (e : expansion) (hpw : e_pw e = (1, 1)%N) (hg : e_g e = [:: (0, 0)%Re]).
Notation wl := (2 * PI)%Re.
Notation kp := (RtoC (3 / 5), RtoC 0).
Definition okx : 'rV[C]_1 := \row_j RtoC (3 / 5).
Definition oky : 'rV[C]_1 := \row_j RtoC 0.
Lemma wl_k0 : (2 * PI / wl = 1)%Re.
Proof. by field; have := PI_neq0. Qed.
Lemma obl_krows : exists kz, krows 1 e kp wl 1 = Ok (okx, oky, kz).
Proof.
have p := PI_RGT_0; rewrite /krows /e_size hpw hg /=; destruct (Req_EM_T wl 0) as [h'|h']; first by exfalso; lra.
eexists; congr (Ok (_, _, _)).
  by apply/rowP => j; rewrite !mxE ord1 /= wl_k0 divr1 addr0.
by apply/rowP => j; rewrite !mxE ord1 /= wl_k0 divr1 addr0.
Qed.
Lemma obl_kz : half_kz okx oky 1 1 = \row_j RtoC (4 / 5).
Proof.
apply/rowP => j; rewrite !mxE mul1r.
have -> : 1 - RtoC (3 / 5) ^+ 2 - RtoC 0 ^+ 2 = RtoC (4 / 5) * RtoC (4 / 5) by rewrite !expr2; apply: C_ext => /=; field.
by rewrite (@csqrt_unique (RtoC (4/5))) /= ?conj_real //; lra.
Qed.
Lemma obl_modes : exists2 V : 'M[C]_(1 + 1), free_space_eigenmodes okx oky = Ok (1%:M, V) &
  divcols (Qref okx oky 1 1) (twice (ci *: half_kz okx oky 1 1)) = Ok V.
Proof.
have hV : exists V, divcols (Qref okx oky 1 1) (twice (ci *: half_kz okx oky 1 1)) = Ok V.
  rewrite /divcols ifT; first by eexists.
  apply/forallP => j; rewrite obl_kz /twice mxE; case: split => k; rewrite !mxE; apply/eqP => /(congr1 snd) /=; lra.
have hF : is_ok (free_space_eigenmodes okx oky).
  rewrite /free_space_eigenmodes; set V := divcols _ _.
  suff [v ->] : is_ok V by eexists.
  rewrite /V /divcols ifT; first by eexists.
  apply/forallP => j; rewrite /twice mxE; case: split => k; rewrite !mxE /kz_branch;
  rewrite (_ : 1 - RtoC (3 / 5) ^+ 2 - RtoC 0 ^+ 2 = RtoC (4 / 5) * RtoC (4 / 5)); try (rewrite !expr2; apply: C_ext => /=; field);
  rewrite (@csqrt_unique (RtoC (4/5))) /=; try lra;
  (case: Rlt_dec => h; first by exfalso; move: h => /=; lra); apply/eqP => /(congr1 snd) /=; lra.
case: hV => V hV; case: hF => [[W0 V0] hF]; exists V => //.
have e0 := @vacuum_half 1 okx oky W0 V0 V _ _ hF hV; rewrite hF e0 //; try by move=> j; rewrite mxE.
by move: hF; rewrite /free_space_eigenmodes; case: (divcols _ _) => [V1|//] [<- _].
Qed.

Variables (V : 'M[C]_(1 + 1)) (hF : free_space_eigenmodes okx oky = Ok (1%:M, V))
  (hV : divcols (Qref okx oky 1 1) (twice (ci *: half_kz okx oky 1 1)) = Ok V).
Lemma obl_unit : V \in unitmx.
Proof. by apply: half_V_unit hV; exact: oner_neq0. Qed.
Definition obl_solved : solved 1 := Solved (Some (scattering_identity C_fieldType (1 + 1)))
  (Some (1%:M, V, twice (ci *: half_kz okx oky 1 1))) (Some (inl 1^-1)) None.
Lemma obl_inc : layer_solve eig J1 1 (Layer e (HALF_SPACE_INC 1) 0%Re true) kp wl = Ok obl_solved.
Proof.
have [kz hk] := obl_krows; rewrite /layer_solve /l_exp hk /= hF /= /scattering_reflection oner_eq0 hV /=.
by rewrite (matched_reflection obl_unit) /= /one_over oner_eq0.
Qed.
Lemma obl_trn : layer_solve eig J1 1 (Layer e (HALF_SPACE_TRN 1) 0%Re true) kp wl = Ok obl_solved.
Proof.
have [kz hk] := obl_krows; rewrite /layer_solve /l_exp hk /= hF /= /scattering_transmission oner_eq0 hV /=.
by rewrite (matched_transmission obl_unit) /= /one_over oner_eq0.
Qed.
Definition obl_calls : seq op := [:: SetDevice [::] (inl true); SetSource wl 0 1 0%Re 0%Re (Some kp)].
Definition obl_crystal a b sol : crystal 1 :=
  Crystal false 1 1 e
    [:: (Sref, (Plain (Layer e (HALF_SPACE_INC 1) 0%Re true), a)); (Strans, (Plain (Layer e (HALF_SPACE_TRN 1) 0%Re true), b))]
    (Some ([::], [:: Sref; Strans], [:: true; true]))
    (Some (Source 0 1 0 0 wl)) kp (source_kzi (2 * PI / wl) 1 kp) sol.
Lemma obl_setup : history eig J1 (crystal_of 1 e false 1 1) obl_calls (obl_crystal None None None).
Proof.
eapply history_cons; first by eapply step_device; rewrite /set_device /=; reflexivity.
eapply history_cons; last by constructor.
apply: step_source; rewrite /set_source /=; destruct (Req_EM_T wl 0) as [h|h] => //.
by exfalso; have := PI_RGT_0; move: h; lra.
Qed.
Notation Id := (scattering_identity C_fieldType (1 + 1)).
Definition obl_done : crystal 1 := obl_crystal (Some obl_solved) (Some obl_solved)
  (Some (Solution [:: m_infty; Finite (0 + 0)%Re; p_infty] [:: Some Id; Some Id] [:: Some Id; Some Id] Id)).
Lemma obl_solve : step eig J1 (obl_crystal None None None) Solve obl_done.
Proof.
apply: (step_solve (order := [:: Sref; Strans])).
  by move=> dev [<-]; rewrite perm_refl.
by rewrite /crystal_solve /obl_crystal /= obl_inc /= obl_trn /= /stack_layers /= !rh_idL /= ?rh_idR /=.
Qed.
Definition obl_phase (x z : R) : C := cexp (ci * RtoC (3 / 5) * RtoC (x * 1)%Re) * cexp (- (ci * RtoC (4 / 5)) * RtoC (z * 1)%Re).
Lemma obl_phase0 z : obl_phase 0 z = cexp (- (ci * RtoC (4 / 5)) * RtoC (z * 1)%Re).
Proof. by rewrite /obl_phase Rmult_0_l -[RtoC 0]/(0 : C) mulr0 cexp0 mul1r. Qed.
Lemma obl_fourier z inc amp : (z <= 0)%Re -> solve (layer_eigenbasis_matrix 1%:M V) inc = Ok amp ->
  let a := usubmx amp in
  let v := col_mx (obl_phase 0 z *: a) (- (V *m (obl_phase 0 z *: a))) in
  fourier_fields obl_done z inc =
  Ok (v, longitudinal_fields (usubmx (usubmx v)) (dsubmx (usubmx v)) (usubmx (dsubmx v)) (dsubmx (dsubmx v)) okx oky (inl 1^-1)).
Proof.
move=> hz ha; cbv zeta; set a := usubmx amp.
have [kz hk] := obl_krows.
have u1 := @eigenbasis_unit _ 1%:M V (unitmx1 _ _) obl_unit.
have hv : fourier_fields_from_mode_amplitudes (layer_eigenbasis_matrix 1%:M V) (twice (ci *: half_kz okx oky 1 1))
   (layer_eigenbasis_matrix 1%:M V) (a, 0) (2 * PI / wl * (0 - z))%Re
   = Ok (profile 1%:M V (twice (ci *: half_kz okx oky 1 1)) (2 * PI / wl) a 0 z).
  have [v hv] : is_ok (fourier_fields_from_mode_amplitudes (layer_eigenbasis_matrix 1%:M V) (twice (ci *: half_kz okx oky 1 1))
      (layer_eigenbasis_matrix 1%:M V) (a, 0) (2 * PI / wl * (0 - z))%Re).
    by rewrite /fourier_fields_from_mode_amplitudes /solve u1 /=; eexists.
  rewrite hv; congr Ok; apply: (fields_profile _ hv).
    move=> j; rewrite obl_kz /twice mxE; case: split => k; rewrite !mxE /= (_ : (0 * (4 / 5) - 1 * 0) * _ = 0)%Re; try ring;
    rewrite Rabs_R0; apply: Rlt_le; exact: ln_big.
  by rewrite fwd0 bwd0 !diag_const_mx !mul1mx.
have ht p q : translate_mode_amplitudes Id Id a p q = Ok (a, 0).
  by rewrite /translate_mode_amplitudes /= mulmx0 subr0 /solve unitmx1 /= invmx1 !mul1mx mul0mx.
set v := profile _ _ _ _ _ _ _ in hv.
have ev : v = col_mx (obl_phase 0 z *: a) (- (V *m (obl_phase 0 z *: a))).
  rewrite /v /profile /tangential /stacked /= !mulmx0 addr0 sub0r mul1mx mulmxN wl_k0.
  have -> : diag_mx (fwd (twice (ci *: half_kz okx oky 1 1)) z 1) *m a = obl_phase 0 z *: a.
    apply/colP => j; rewrite mul_diag_mx !mxE obl_kz obl_phase0 /twice; congr (_ * _); congr cexp.
    by rewrite mulNr; congr (- (_ * _)); case: split => k; rewrite !mxE.
  by [].
rewrite -ev /fourier_fields /locate_layer /=.
destruct (Rlt_dec (0 + 0) z) as [h|h]; first by exfalso; lra.
cbn -[fourier_fields_at Rle_dec]; destruct (Rle_dec z 0) as [h'|h'] => //; cbn [is_left].
by rewrite /fourier_fields_at /= hk /= hF /= ha /= ht /= hv.
Qed.
Lemma obl_idft (g : 'cV[C]_1) x y : idft g okx oky x y = g 0 0 * cexp (ci * RtoC (3 / 5) * RtoC (x * 1)%Re).
Proof. by rewrite /idft big_ord1 !mxE; congr (_ * cexp _); rewrite Rmult_1_r; cring. Qed.
Lemma obl_map x y z inc amp : (z <= 0)%Re -> solve (layer_eigenbasis_matrix 1%:M V) inc = Ok amp ->
  let a := usubmx amp in exists H,
  fields_coords_xy obl_done x y z (Some inc) =
  Ok (a (lshift 1 0) 0 * obl_phase x z, a (rshift 1 0) 0 * obl_phase x z, - RtoC (3 / 4) * a (lshift 1 0) 0 * obl_phase x z, H).
Proof.
move=> hz ha; cbv zeta; set a := usubmx amp.
have [kz hk] := obl_krows.
have hff := obl_fourier hz ha; cbv zeta in hff; rewrite -/a in hff; move: hff; set v := col_mx _ _; set f := longitudinal_fields _ _ _ _ _ _ _ => hff.
rewrite /fields_coords_xy /= hk /= hff /= wl_k0 !scale1r.
have ei (g : 'cV[C]_1) : idft g okx oky x y = g 0 0 * cexp (ci * RtoC (3 / 5) * RtoC (x * 1)%Re) by apply: obl_idft.
have ep : cexp (ci * RtoC (3 / 5) * RtoC (x * 1)%Re) * obl_phase 0 z = obl_phase x z.
  by rewrite obl_phase0.
eexists; congr (Ok (_, _, _, _)).
- by rewrite ei /v col_mxKu !mxE -ep; cring.
- by rewrite ei /v col_mxKu !mxE -ep; cring.
rewrite ei; set t := (_ *: _); have -> : t = f.1 by [].
rewrite /f /v col_mxKu col_mxKd (long_outer _ _ (oner_neq0 _) hV) obl_kz !mxE -ep.
have p0 : (4 / 5 <> 0)%Re by lra.
have q : RtoC (3 / 5) / RtoC (4 / 5) = RtoC (3 / 4).
  by apply: (mulIf (RtoC_neq0 p0)); rewrite divfK ?RtoC_neq0 //; apply: C_ext => /=; field.
rewrite -q -[RtoC 0]/(0 : C) mul0r addr0.
by move: (RtoC (3 / 5)) (RtoC (4 / 5))^-1 => u w; cring.
Qed.
Lemma obl_kzi : source_kzi (2 * PI / wl) 1 kp = RtoC (4 / 5).
Proof.
rewrite wl_k0 /source_kzi /= mulr1.
have -> : RtoC 1 ^+ 2 - RtoC (3 / 5) ^+ 2 - RtoC 0 ^+ 2 = RtoC (4 / 5) * RtoC (4 / 5) by rewrite !expr2; apply: C_ext => /=; field.
by rewrite (@csqrt_unique (RtoC (4/5))) /= ?conj_real //; lra.
Qed.
Lemma obl_incident : exists2 ef : 'cV[C]_(1 + 1), incident 1 0 1 (RtoC (3 / 5), RtoC 0, RtoC (4 / 5)) true = Ok ef & ef (lshift 1 0) 0 <> 0.
Proof.
have er : sqrt (3 / 5 * (3 / 5) + 0 * 0) = (3 / 5)%Re.
  by rewrite Rmult_0_l Rplus_0_r sqrt_square //; lra.
have eK : sqrt (3 / 5 * (3 / 5) + 0 * 0 + 4 / 5 * (4 / 5)) = 1%Re.
  by rewrite (_ : (_ + _ = 1 * 1)%Re); [rewrite sqrt_square //; lra|field].
rewrite /incident /pol_vector (_ : sqrt (abs2 0%R + abs2 1%R) = 1%Re); last first.
  by rewrite /abs2 /= (_ : (_ + _ = 1 * 1)%Re); [rewrite sqrt_square //; lra|ring].
destruct (Req_EM_T 1 0) as [h|h]; first by exfalso; lra.
rewrite (frame_oblique (x := (3 / 5)%Re) (y := 0%Re)) er ?eK /=; last by lra.
eexists; first reflexivity.
rewrite col_mxEu !mxE /= !div_1 mul0r add0r mul1r mulr1 => /(congr1 fst) /=; lra.
Qed.
End Oblique.

Lemma oblique_divergence (eig : forall m, 'M[C]_m -> 'rV[C]_m * 'M[C]_m) (J1 : R -> R) :
  exists (c0 c c' : crystal 1) ops d,
  [/\ created c0 false 1 1, all_calls own_call ops, history eig J1 c0 ops c, step eig J1 c Solve c' &
      has_divergence (fun x y z => fields_coords_xy c' x y z None) 0%Re 0%Re (-1)%Re d /\ d <> 0].
Proof.
have [e [he _ hpw hg]] := multilayer_exp 1 1.
have [V hF hV] := obl_modes; have uV := obl_unit hV.
have u1 := @eigenbasis_unit _ 1%:M V (unitmx1 _ _) uV.
have [ef hi he0] := obl_incident.
have hs : source_fields (obl_done e V) = Ok (col_mx ef 0).
  by rewrite /source_fields /= obl_kzi hi.
have ha : solve (layer_eigenbasis_matrix 1%:M V) (col_mx ef 0) = Ok (invmx (layer_eigenbasis_matrix 1%:M V) *m col_mx ef 0).
  by rewrite /solve u1.
have hh := default_half (unitmx1 _ _) uV ha; rewrite invmx1 mul1mx in hh.
set amp := invmx _ *m _ in ha hh.
pose a := usubmx amp (lshift 1 0) 0; pose b := usubmx amp (rshift 1 0) 0.
have a0 : a != 0.
  rewrite /a hh mxE mulf_neq0 ?invr_eq0 ?two_neq0 //; exact/eqP.
exists (crystal_of 1 e false 1 1), (obl_crystal e None None None), (obl_done e V), obl_calls.
have dx : cder (fun t => a * obl_phase t (-1)) 0%Re (a * (RtoC 1 * (ci * RtoC (3 / 5)) * obl_phase 0 (-1))).
  have := cderM (cder_const a 0%Re) (cderM (cder_exp (ci * RtoC (3 / 5)) 1 0) (cder_const (cexp (- (ci * RtoC (4 / 5)) * RtoC (-1 * 1)%Re)) 0%Re)).
  rewrite /obl_phase mul0r add0r mulr0 addr0 !mulrA //.
have dz : cder (fun t => - RtoC (3 / 4) * a * obl_phase 0 t) (-1)%Re (- RtoC (3 / 4) * a * (RtoC 1 * (- (ci * RtoC (4 / 5))) * obl_phase 0 (-1))).
  have h := cderM (cder_const (- RtoC (3 / 4) * a) (-1)%Re) (cder_exp (- (ci * RtoC (4 / 5))) 1 (-1)).
  rewrite mul0r add0r in h; rewrite obl_phase0; apply: cder_ext h => t; by rewrite obl_phase0.
eexists; split.
- exact: multilayer_created he.
- by split=> //; split.
- exact: obl_setup.
- by apply: obl_solve hF hV.
split.
  exists (fun x y z => (a * obl_phase x z, b * obl_phase x z, - RtoC (3 / 4) * a * obl_phase x z)); do 3 eexists; split.
  - exists 1%Re; split=> [|x' y' z' _ _ hz]; first lra.
    have hz' : (z' <= 0)%Re by move: hz; case/Rabs_def2 => *; lra.
    have [H hH] := obl_map hpw hg hF hV x' y' hz' ha.
    by exists H; rewrite /fields_coords_xy hs.
  - exact: dx.
  - exact: cder_const.
  - exact: dz.
  - reflexivity.
rewrite addr0; set P := obl_phase _ _.
have -> : a * (RtoC 1 * (ci * RtoC (3 / 5)) * P) + - RtoC (3 / 4) * a * (RtoC 1 * - (ci * RtoC (4 / 5)) * P) = a * P * (ci * RtoC (6 / 5)).
  have -> : RtoC (6 / 5) = RtoC (3 / 5) + RtoC (3 / 4) * RtoC (4 / 5) by apply: C_ext => /=; field.
  by move: (RtoC (3 / 5)) (RtoC (3 / 4)) (RtoC (4 / 5)) => p q r; rewrite -[RtoC 1]/(1 : C); cring.
apply/eqP; rewrite !mulf_neq0 ?RtoC_neq0 //; try exact: cexp_neq0.
- by apply/eqP => /(congr1 snd) /=; lra.
- by lra.
Qed.
