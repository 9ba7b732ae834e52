(** Field maps: statements over histories, and witnesses. *)
From Coq Require Import Reals ZArith Lra Lia String.
From mathcomp Require Import all_ssreflect all_algebra.
From Coquelicot Require Import Complex Rbar.
From Verif Require Import Base ZmodTac CField CFun Blk ModelRedheffer SpecScatter SpecStack RedhefferProofs ModelLayer SpecLayer
  LayerProofs LayerCProofs LayerApiProofs SpecMaxwell UniformProofs NormalProofs SpecThinFilm ThinFilmProofs EnergyAlg FluxProofs IncidentProofs OuterFlux SpecEig
  ModelExpansion SpecExpansion ExpansionProofs ModelFlux SpecFlux ModelFourier
  ModelExtension ModelDevice SpecDevice StringEq DeviceProofs DeviceEnergy FilmDevice HistoryProofs DepthProofs DeviceExamples DeviceTheorems
  ModelFields SpecFields StackProofs SolvedProofs Calculus FieldsProofs RetainProofs EmergenceProofs LongProofs ScalarProofs.
Set Implicit Arguments. Unset Strict Implicit. Unset Printing Implicit Defensive.
Import GRing.Theory.
Local Open Scope ring_scope.

(** Vacuum as a half space has the modes of free space. *)
Lemma branch_real (r : R) : kz_branch (RtoC r) = Cconj (csqrt (RtoC r)).
Proof.
rewrite /kz_branch; case: Rlt_dec => h; cbn [is_left]; move: h => /= h.
  rewrite (_ : - RtoC r = RtoC (- r)%Re); last by rewrite RtoC_opp.
  by rewrite (csqrt_negr (Rlt_le _ _ h)) csqrt_pos; [apply: C_ext => /=; ring|lra].
by rewrite csqrt_pos ?conj_real //; lra.
Qed.
Lemma vacuum_half n (kx ky : 'rV[C]_n) W0 V0 V : real_row kx -> real_row ky ->
  free_space_eigenmodes kx ky = Ok (W0, V0) ->
  divcols (Qref kx ky 1 1) (twice (ci *: half_kz kx ky 1 1)) = Ok V -> V = V0.
Proof.
move=> rx ry hf hV; move: hf; rewrite /free_space_eigenmodes.
have -> : \row_j kz_branch (1 - kx 0 j ^+ 2 - ky 0 j ^+ 2) = half_kz kx ky 1 1.
  apply/rowP => j; rewrite !mxE mul1r !real_sqr //.
  set a := (fst (kx _ _) * _)%Re; set b := (fst (ky _ _) * _)%Re.
  by have -> : 1 - RtoC a - RtoC b = RtoC (1 - a - b)%Re; [apply: C_ext => /=; ring|exact: branch_real].
rewrite (_ : block_mx _ _ _ _ = Qref kx ky 1 1) ?hV /=; first by case=> _.
rewrite /Qref invr1 scale1r mulr1 !mulmx_diag; congr (block_mx _ (_ - _) (_ - _) (- _)); congr diag_mx;
  apply/rowP => j; rewrite !mxE ?expr2 //.
Qed.

Section Theorems.
Variables (eig : forall m, 'M[C]_m -> 'rV[C]_m * 'M[C]_m) (J1 : R -> R) (n : nat) (ei ee : C).
Implicit Types (c : crystal n).

Lemma inc_modes l kp wl s mo eps : layer_solve eig J1 n l kp wl = Ok s -> l_form l = HALF_SPACE_INC eps ->
  sl_modes s = Some mo -> mo.1.1 = 1%:M /\ mo.1.2 \in unitmx.
Proof.
rewrite /layer_solve => h hf; move: h; case hk : (krows _ _ _ _ _) => [kk|//] /=.
case hfr : (free_space_eigenmodes _ _) => [f|//] /=; rewrite hf.
case hr : (scattering_reflection _ _ _ _ _ _) => [[[[Sr Wr] Vr] Lr]|//] /=.
case ho : (one_over eps) => [ic|//] /= [<-]; case: (l_fields l) => //= -[<-] /=.
have [_ -> eL hV _] := reflection_inv hr; rewrite eL in hV; split=> //.
by apply: half_V_unit hV; [move: ho; rewrite /one_over; case: eqP|exact: oner_neq0].
Qed.

Lemma solved_ref c c' mr : own_crystal ei ee c -> step eig J1 c Solve c' -> named_modes c' Sref = Ok mr ->
  mr.1.1 = 1%:M /\ mr.1.2 \in unitmx.
Proof.
move=> ho hs; have [dev [src [sol [es [Ss sd]]]]] := solve_device ho hs.
have sz : size dev.1.2 = (size dev.1.1).+2 by rewrite (sd_names sd) /= size_rcons.
have x0 : entry n by case: (es) (sd_size sd) => [|x]; rewrite ?sz.
have h0 : (0 < size dev.1.2)%N by rewrite sz.
have [l [s [e1 e2 e3 e4 e5]]] := sd_layer sd x0 (scattering_identity _ _) h0.
have := sd_get sd x0 h0; rewrite e1 (sd_names sd) /= /named_modes => -> /=.
case hm : (sl_modes s) => [mo|//] /= [<-]; apply: (inc_modes (eps := ei) e2 _ hm).
by case: e5 => l1 [[<-] _]; rewrite (sd_names sd) /= => -[].
Qed.

Lemma half_amplitude c0 ops c c' inc a b :
  created c0 false ei ee -> all_calls own_call ops -> history eig J1 c0 ops c -> step eig J1 c Solve c' ->
  source_fields c' = Ok inc -> map_amplitude c' inc a -> flux_amplitude c' b -> a = 2%:R^-1 *: b.
Proof.
move=> hc ho hh hs hi [mr [amp [h1 h2 ->]]] [src [mr' [ef [iW [k1 k2 k3 k4 ->]]]]].
have own := history_own (created_own hc) ho hh.
have e : mr' = mr by move: k2; rewrite h1 => -[].
subst mr'; have [uW uV] := solved_ref own hs h1.
have uW' : mr.1.1 \in unitmx by rewrite uW unitmx1.
move: hi; rewrite /source_fields k1 /= k3 /= => -[ei']; rewrite -ei' in h2.
by rewrite (default_half uW' uV h2); move: k4; rewrite /inv uW' => -[<-].
Qed.

(** The wave the fluxes use is recovered when H is given as well. *)
Lemma full_amplitude c0 ops c c' src mr ef a b :
  created c0 false ei ee -> all_calls own_call ops -> history eig J1 c0 ops c -> step eig J1 c Solve c' ->
  c_source c' = Some src -> named_modes c' Sref = Ok mr ->
  incident n (s_te src) (s_tm src) ((c_kp c').1, (c_kp c').2, c_kzi c') true = Ok ef ->
  map_amplitude c' (col_mx ef (- (mr.1.2 *m ef))) a -> flux_amplitude c' b -> a = b.
Proof.
move=> hc ho hh hs hsrc hm he [mr1 [amp [h1 h2 ->]]] [src1 [mr' [ef' [iW [k1 k2 k3 k4 ->]]]]].
have own := history_own (created_own hc) ho hh.
have e : mr' = mr by move: k2; rewrite hm => -[].
subst mr'; have e : mr1 = mr by move: h1; rewrite hm => -[].
subst mr1; have e : src1 = src by move: k1; rewrite hsrc => -[].
subst src1; have e : ef' = ef by move: k3; rewrite he => -[].
subst ef'; have [uW uV] := solved_ref own hs hm.
have uW' : mr.1.1 \in unitmx by rewrite uW unitmx1.
have eW : invmx mr.1.1 *m ef = ef by rewrite uW invmx1 mul1mx.
have := @proper_source _ mr.1.1 mr.1.2 ef amp uW' uV; rewrite eW => /(_ h2) ->.
by move: k4; rewrite /inv uW' => -[<-]; rewrite eW.
Qed.

Lemma continuous_inside c0 ops c c' ds inc z0 :
  created c0 false ei ee -> all_calls own_call ops -> history eig J1 c0 ops c -> step eig J1 c Solve c' ->
  device_depths c' ds -> all_positive ds -> unclipped c' -> (forall z, is_ok (fourier_fields c' z inc)) ->
  (0 <= z0)%Re -> (z0 < depth_before ds (size ds))%Re -> fields_continuous c' inc z0.
Proof.
move=> hc ho hh hs hd hp hu hall; apply: (device_continuous (history_own (created_own hc) ho hh) hs hd hp hu) => z.
exact: hall.
Qed.
Lemma continuous_end c0 ops c c' ds inc kk f mr mt amp sol src :
  created c0 false ei ee -> all_calls own_call ops -> history eig J1 c0 ops c -> step eig J1 c Solve c' ->
  device_depths c' ds -> all_positive ds -> unclipped c' -> (forall z, is_ok (fourier_fields c' z inc)) ->
  c_source c' = Some src ->
  krows n (c_exp c') (c_kp c') (s_wl src) 1 = Ok kk -> free_space_eigenmodes kk.1.1 kk.1.2 = Ok f ->
  named_modes c' Sref = Ok mr -> named_modes c' Strans = Ok mt ->
  solve (layer_eigenbasis_matrix mr.1.1 mr.1.2) inc = Ok amp -> c_solution c' = Some sol ->
  let c2p := s21 (r_S sol) *m usubmx amp in
  fields_continuous c' inc (depth_before ds (size ds)) <-> f.2 *m c2p = mt.1.2 *m c2p.
Proof.
move=> hc ho hh hs hd hp hu hall; apply: (emergence_continuity (history_own (created_own hc) ho hh) hs hd hp hu) => z.
exact: hall.
Qed.
End Theorems.

Section Vacuum.
Variables (eig : forall m, 'M[C]_m -> 'rV[C]_m * 'M[C]_m) (J1 : R -> R) (n : nat) (ei : C).
Implicit Types (c : crystal n).
(** Emergence into vacuum: continuous everywhere. *)
Lemma continuous_vacuum c0 ops c c' ds inc z0 :
  created c0 false ei 1 -> all_calls own_call ops -> history eig J1 c0 ops c -> step eig J1 c Solve c' ->
  device_depths c' ds -> all_positive ds -> unclipped c' -> (forall z, is_ok (fourier_fields c' z inc)) ->
  snd (c_kp c').1 = 0%Re -> snd (c_kp c').2 = 0%Re ->
  (0 <= z0)%Re -> (z0 <= depth_before ds (size ds))%Re -> fields_continuous c' inc z0.
Proof.
move=> hc ho hh hs hd hp hu hall kx ky h0 h1.
case: h1 => [h1|->]; first exact: (continuous_inside hc ho hh hs hd hp hu hall h0 h1).
have own := history_own (created_own hc) ho hh.
have [dev [src [sol [es [Ss sd]]]]] := solve_device own hs.
have sz : size dev.1.2 = (size dev.1.1).+2 by rewrite (sd_names sd) /= size_rcons.
have x0 : entry n by case: (es) (sd_size sd) => [|x]; rewrite ?sz.
have hN : ((size dev.1.1).+1 < size dev.1.2)%N by rewrite sz.
have hn : nonneg ds.
  move=> i; case: (ltnP i (size ds)) => hi; first by apply: Rlt_le; exact: hp.
  by rewrite nth_default //; lra.
have [v hv] := hall (depth_before ds (size ds) + 1)%Re.
have hloc := locate (depth_before ds (size ds) + 1)%Re (own_outer own) hs hd hn.
have [dv [ed [_ hh2 _]]] := hloc; have [|x [hx hr]] := hh2; first lra.
have [dev' [d1 d2 d3]] := hd; have e : dev' = dev by move: d1; rewrite (sd_dev sd) => -[].
subst dev'; have hgN := sd_get sd x0 hN; rewrite (sd_names sd) /= nth_rcons ltnn eqxx hx in hgN.
have {}hgN : x = nth x0 es (size dev.1.1).+1 by case: hgN.
have hv' : fourier_fields_at c' (nth x0 es (size dev.1.1).+1) (size dev.1.1).+2 (depth_before ds (size ds) + 1 - depth_before ds (size ds))%Re inc = Ok v.
  by move: hv; rewrite /fourier_fields hr /= hgN d2.
have [l [s [mt [kk [f [Sr [srr [amp [Sl [Srr [cd [[b1 b2 b3 b4] [[b5 [mr b6 b7] _ _] _]]]]]]]]]]]]] := fields_used sd hN hv'.
have hmt : named_modes c' Strans = Ok mt by rewrite /named_modes hx /= hgN b1 /= b2.
have hmr : named_modes c' Sref = Ok mr by rewrite /named_modes b5 /= b6.
apply/(continuous_end hc ho hh hs hd hp hu hall (sd_src sd) b3 b4 hmr hmt b7 (sd_sol sd)).
congr (_ *m _); have [l' [s' [e1 e2 e3 e4 e5]]] := sd_layer sd x0 (scattering_identity _ _) hN.
have [el es'] : l' = l /\ s' = s by move: e1; rewrite b1 => -[-> ->].
subst l' s'; have hform : l_form l = HALF_SPACE_TRN 1.
  by case: e5 => l1 [[<-] _]; rewrite (sd_names sd) /= nth_rcons ltnn eqxx => -[].
have [St [_ htr]] := trn_built e2 hform (etrans (congr1 (fun e => krows n e _ _ _) e4) b3) b4 b2.
have [_ _ el2 hV _] := transmission_inv htr; rewrite el2 in hV.
case: kk b3 b4 {htr el2} hV => [[kx' ky'] kz'] b3 b4 hV; have [rx ry] := krows_real kx ky b3.
have b4' : free_space_eigenmodes kx' ky' = Ok (f.1, f.2) by move: b4; case: (f).
by rewrite (vacuum_half rx ry b4' hV).
Qed.
End Vacuum.
