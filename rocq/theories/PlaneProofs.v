(** The energy that crosses each plane of a device. *)
From Coq Require Import Reals ZArith Lra Lia String.
From mathcomp Require Import all_ssreflect all_algebra.
From Coquelicot Require Import Complex Rbar.
From Verif Require Import SpecThinFilm Base ZmodTac CField CFun Blk ModelRedheffer SpecScatter SpecStack RedhefferProofs ModelLayer SpecLayer SpecEig
  LayerProofs LayerCProofs LayerApiProofs ModelExpansion SpecExpansion ExpansionProofs ModelFlux SpecFlux SpecEnergy EnergyAlg FluxProofs IncidentProofs
  OuterFlux ModelFourier SpecFourier FourierProofs ModelExtension ModelDevice SpecDevice StringEq AnalyticalProofs
  DeviceProofs DeviceEnergy HistoryProofs DepthProofs ModelFields SpecFields StackProofs SolvedProofs Calculus FieldsProofs SpecPlane.
Set Implicit Arguments. Unset Strict Implicit. Unset Printing Implicit Defensive.
Import GRing.Theory.
Local Open Scope ring_scope.

(** * One layer *)
Lemma profile_shift m (W V : 'M[C]_m) lam k0 cp cm (z t : R) :
  profile W V lam k0 cp cm (z + t)%Re =
  profile W V lam k0 (diag_mx (fwd lam z k0) *m cp) (diag_mx (bwd lam z k0) *m cm) t.
Proof.
rewrite /profile; congr (stacked (tangential _ _ _ _)); apply/colP => i; rewrite !mul_diag_mx !mxE mulrA -cexpD;
 congr (cexp _ * _); rewrite Rmult_plus_distr_r RtoC_plus; cring.
Qed.
Lemma plane_stacked n (p : 'cV[C]_(n + n) * 'cV[C]_(n + n)) : plane_flux (stacked p) = poynting_z p.1 p.2.
Proof. by rewrite /plane_flux /stacked col_mxKu col_mxKd. Qed.

Section Plane.
Variables (eig : forall m, 'M[C]_m -> 'rV[C]_m * 'M[C]_m) (J1 : R -> R) (n : nat) (strict : bool).
Hypothesis heig : eigen_equation eig.
Let le : R -> R -> Prop := if strict then eq else Rle.
Let good_op m (A : 'M[C]_m) := if strict then lossless_op A else passive_op A.

Lemma profile_flux (kx ky : 'rV[C]_n) Cm W V lam k0 cp cm (z1 z2 : R) : real_row kx -> real_row ky -> Cm \in unitmx ->
  modal_decomposition (structured_P kx ky (invmx Cm)) (structured_Q kx ky Cm) W V lam ->
  good_op Cm -> (0 <= k0)%Re -> (z1 <= z2)%Re ->
  le (plane_flux (profile W V lam k0 cp cm z2)) (plane_flux (profile W V lam k0 cp cm z1)).
Proof.
move=> rx ry uC md gC hk hz; have [_ _ qw _] := md; have pv := modal_PV md.
rewrite (_ : z2 = z1 + (z2 - z1))%Re; last by ring.
rewrite [in X in le X _]profile_shift (_ : profile W V lam k0 cp cm z1 = profile W V lam k0 (diag_mx (fwd lam z1 k0) *m cp) (diag_mx (bwd lam z1 k0) *m cm) 0%Re); last first.
  by rewrite -profile_shift Rplus_0_r.
rewrite !plane_stacked; move: gC; rewrite /good_op /le; case: strict => gC.
  exact: (slab_flux_constant rx ry uC pv qw _ _ _ _ gC).
by apply: (slab_flux_decreases rx ry uC pv qw _ _ gC hk); lra.
Qed.

Lemma layer_modal l kp wl (s : solved n) k mo : good_form strict (l_form l) ->
  krows n (l_exp l) kp wl 1 = Ok k -> layer_solve eig J1 n l kp wl = Ok s -> sl_modes s = Some mo ->
  exists Cm, [/\ Cm \in unitmx, modal_decomposition (structured_P k.1.1 k.1.2 (invmx Cm)) (structured_Q k.1.1 k.1.2 Cm) mo.1.1 mo.1.2 mo.2 &
    good_op Cm].
Proof.
move=> gf hk; rewrite /layer_solve hk /=; case hfr : (free_space_eigenmodes _ _) => [f|//] /=.
have structured Cm (s' : solved n) : good_op Cm ->
  (do IC <- inv Cm; do m <- solve_structured_layer (eig (m:=_)) k.1.1 k.1.2 Cm;
   do S <- build_scatmat m.1.1 m.1.2 f.1 f.2 m.2 (l_depth l) (2 * PI / wl);
   Ok (if l_fields l then Solved (Some S) (Some m) (Some (inr IC)) None
       else Solved (Some S) None None None)) = Ok s' -> sl_modes s' = Some mo ->
  exists Cm, [/\ Cm \in unitmx, modal_decomposition (structured_P k.1.1 k.1.2 (invmx Cm)) (structured_Q k.1.1 k.1.2 Cm) mo.1.1 mo.1.2 mo.2 &
    good_op Cm].
  move=> gC; case: (inv Cm) => [IC|//] /=; case hm : (solve_structured_layer _ _ _ _) => [[[W V] lam]|//] /=.
  case hS : (build_scatmat _ _ _ _ _ _ _) => [S|//] /= [<-]; case: ifP => //= _ [<-].
  by have [uC md] := structured_modal (eig_diagonalises heig hm hS) hm; exists Cm.
move: gf; rewrite /good_form; case: (l_form l) => [p|eps|isl h|eps|eps|] // gf.
- case hC : (convolution_matrix _ _ _) => [Cm|//] /=; apply: structured.
  rewrite /good_op; move: gf; case: (strict) => gf; [exact: (conv_lossless hC gf)|exact: (conv_passive hC gf)].
- case hm : (solve_uniform_layer _ _ _ _) => [[[W V] lam]|//] /=.
  case hS : (build_scatmat _ _ _ _ _ _ _) => [S|//] /=; case: (one_over eps) => [ic|//] /= [<-].
  case: ifP => //= _ [<-]; have [uC md] := uniform_modal hm; exists eps%:M; split=> //.
  rewrite /good_op; move: gf; case: (strict) => gf; [exact: scalar_lossless|exact: scalar_passive].
- case hC : (analytical_matrix _ _ _ _ _) => [Cm|//] /=; apply: structured.
  case: gf => st [gh gi]; rewrite /good_op st; exact: (analytical_lossless gh gi hC).
Qed.

Lemma le_refl_p x : le x x. Proof. by rewrite /le; case: strict => //; lra. Qed.
Lemma le_trans_p x y z : le x y -> le y z -> le x z.
Proof. by rewrite /le; case: strict => [-> //|]; lra. Qed.

(** * A whole device *)
Variables (ei ee : R).
Lemma plane_device c c' ds inc : good_crystal strict ei ee c -> own_crystal (RtoC ei) (RtoC ee) c -> step eig J1 c Solve c' ->
  good_source c' -> device_depths c' ds -> all_positive ds -> unclipped c' -> (forall z, is_ok (fourier_fields c' z inc)) ->
  exists dev src sol es Ss kk f c1p,
  [/\ solved_device eig J1 (RtoC ei) (RtoC ee) c' dev src sol es Ss, size ds = size dev.1.1,
      krows n (c_exp c') (c_kp c') (s_wl src) 1 = Ok kk, free_space_eigenmodes kk.1.1 kk.1.2 = Ok f & map_amplitude c' inc c1p] /\
  let G i := port_flux f.1 f.2 (gap_at sol c1p i).1 (gap_at sol c1p i).2 in
  [/\ (forall z1 z2 v1 v2, (0 <= z1)%Re -> (z1 <= z2)%Re -> (z2 <= depth_before ds (size ds))%Re ->
        fourier_fields c' z1 inc = Ok v1 -> fourier_fields c' z2 inc = Ok v2 -> le (plane_flux v2.1) (plane_flux v1.1)),
      (forall v, fourier_fields c' 0%Re inc = Ok v -> plane_flux v.1 = G 0%N),
      (forall v, fourier_fields c' (depth_before ds (size ds)) inc = Ok v -> plane_flux v.1 = G (size ds)) &
      forall i, (i <= size ds)%N -> exists Sl Sr, [/\ nth None (r_Sls sol) i = Some Sl, nth None (r_Srs sol) i = Some Sr &
        translate_mode_amplitudes Sl Sr c1p 0 0 = Ok (gap_at sol c1p i)]].
Proof.
move=> gc ho hs gs hd hp hu hall.
have hn : nonneg ds.
  move=> i; case: (ltnP i (size ds)) => hi; first by apply: Rlt_le; exact: hp.
  by rewrite nth_default //; lra.
have [dev [src [sol [es [Ss sd]]]]] := solve_device ho hs.
have gc' : good_crystal strict ei ee c' by apply: (step_good gc _ hs); case: (strict).
have hloc z := locate z (own_outer ho) hs hd hn.
have [dev' [d1 d2 d3]] := hd; have e : dev' = dev by move: d1; rewrite (sd_dev sd) => -[].
subst dev'; have sz : size dev.1.2 = (size dev.1.1).+2 by rewrite (sd_names sd) /= size_rcons.
have x0 : entry n by case: (es) (sd_size sd) => [|x]; rewrite ?sz.
have F0 z : (z <= 0)%Re -> fourier_fields c' z inc = fourier_fields_at c' (nth x0 es 0) 1 z inc.
  move=> hz; have [dv [ed [hh _ _]]] := hloc z; have [x [hx hr]] := hh hz.
  rewrite /fourier_fields hr /=; congr fourier_fields_at.
  by have := sd_get sd x0 (i := 0%N); rewrite sz (sd_names sd) /= hx => /(_ isT) [].
have Fi z i : (i < size ds)%N -> (depth_before ds i < z)%Re -> (z <= depth_before ds i.+1)%Re ->
    fourier_fields c' z inc = fourier_fields_at c' (nth x0 es i.+1) i.+2 (z - depth_before ds i)%Re inc.
  move=> hi h1 h2; have [dv [ed [_ _ hh]]] := hloc z; have [x [hx hr]] := hh i hi h1 h2.
  have e : dv = dev by move: ed; rewrite (sd_dev sd) => -[].
  subst dv; rewrite /fourier_fields hr /=; congr fourier_fields_at.
  have := sd_get sd x0 (i := i.+1); rewrite sz (sd_names sd) /= nth_rcons -d2 hi hx => hh2.
  by have [] := hh2 (leqW hi).
have H i : (i <= size dev.1.1)%N -> exists zr v, fourier_fields_at c' (nth x0 es i) i.+1 zr inc = Ok v.
  case: i => [_|i hi].
    by have [v hv] := hall 0%Re; exists 0%Re, v; rewrite -F0 //; lra.
  have [v hv] := hall (depth_before ds i.+1); exists (depth_before ds i.+1 - depth_before ds i)%Re, v.
  rewrite -Fi ?d2 //; last by lra.
  by rewrite depth_beforeS; have := hp i; rewrite d2 => /(_ hi); lra.
have [f [c1p [[kk hk hf] ha HP]]] := place_modes sd H.
exists dev, src, sol, es, Ss, kk, f, c1p; split; first by split.
set G := fun i => port_flux f.1 f.2 (gap_at sol c1p i).1 (gap_at sol c1p i).2.
have [[src' [es' hw]] [hx [hy hreg]]] := gs.
have {}es' : src' = src by move: es'; rewrite (sd_src sd) => -[].
subst src'.
have [rx ry] : real_row kk.1.1 /\ real_row kk.1.2.
  by move: hk; case: (kk) => [[a b] c2] /= hk; exact: krows_real hk.
have hk0 : (0 <= 2 * PI / s_wl src)%Re by apply: Rlt_le; apply: k0_pos.
have slab i : (i < size ds)%N -> exists L, [/\ 
    (forall z, (depth_before ds i < z)%Re -> (z <= depth_before ds i.+1)%Re -> forall w,
       fourier_fields c' z inc = Ok w -> w.1 = L (z - depth_before ds i)%Re),
    (forall z1 z2, (z1 <= z2)%Re -> le (plane_flux (L z2)) (plane_flux (L z1))),
    plane_flux (L (nth 0%Re ds i)) = G i.+1 & plane_flux (L 0%Re) = G i].
  move=> hi; have hi' : (i.+1 <= size dev.1.1)%N by rewrite -d2.
  have [l [s [mo [cp [cm [k1 [k2 [k4 k5 k6]]]]]]]] := HP i.+1 hi'.
  have hg := sd_get sd x0 (i := i.+1); rewrite sz (sd_names sd) /= nth_rcons hi' k1 in hg.
  have {}hg := hg (leqW hi').
  have [x [hx' ed]] := d3 i hi; have ex : x = (Plain l, Some s) by move: hx'; rewrite hg => -[].
  rewrite ex /= in ed; exists (profile mo.1.1 mo.1.2 mo.2 (2 * PI / s_wl src)%Re cp cm).
  have hi2 : (i.+1 < size dev.1.2)%N by rewrite sz ltnS (leq_trans hi').
  have [l' [s' [e1 e2 e3 e4 e5]]] := sd_layer sd x0 (scattering_identity _ _) hi2.
  have {e1} [el es'] : l' = l /\ s' = s by move: e1; rewrite k1 => -[-> ->].
  subst l' s'.
  have hnm : nth ""%string dev.1.1 i \in dev.1.1 by rewrite mem_nth.
  have [lg [elg _ gfd]] := g_dict gc' hg; have {elg} elg : l = lg by case: elg.
  subst lg; have [u1 u2] := user_neq (sd_user sd hnm); rewrite u1 u2 in gfd; case: gfd => gf _.
  have [Cm [uC md gC]] := layer_modal gf (etrans (congr1 (fun e => krows n e _ _ _) e4) hk) e2 k2.
  split.
  - move=> z h1 h2 w hw'; apply: k4; last by rewrite -Fi.
    apply: calm_inside; first last.
    + by rewrite ed; move: h2; rewrite depth_beforeS; lra.
    + lra.
    + by move=> j; apply: (hu _ _ _ _ _ _ (sd_dev sd) (sd_src sd) _ hg k2).
  - by move=> z1 z2 hz; exact: (profile_flux _ _ rx ry uC md gC hk0 hz).
  - by rewrite -ed k5 plane_stacked.
  - by rewrite k6 // plane_stacked.
have GS i : (i < size ds)%N -> le (G i.+1) (G i).
  by move=> hi; have [L [_ h2 <- <-]] := slab i hi; apply: h2; exact: hn.
have GM i j : (i <= j)%N -> (j <= size ds)%N -> le (G j) (G i).
  elim: j => [|j IH]; first by rewrite leqn0 => /eqP -> _; exact: le_refl_p.
  rewrite leq_eqVlt => /orP [/eqP -> _|]; first exact: le_refl_p.
  rewrite ltnS => hij hj; apply: le_trans_p (GS _ hj) (IH hij (ltnW hj)).
have P0 v : fourier_fields c' 0%Re inc = Ok v -> plane_flux v.1 = G 0%N.
  rewrite F0; last by lra.
  have [l [s [mo [cp [cm [k1 [k2 [k4 k5 _]]]]]]]] := HP 0%N isT.
  have dz : l_depth l = 0%Re.
    have hi2 : (0 < size dev.1.2)%N by rewrite sz.
    have [l' [s' [e1 _ _ _ e5]]] := sd_layer sd x0 (scattering_identity _ _) hi2.
    have el : l' = l by move: e1; rewrite k1 => -[->].
    by subst l'; case: e5 => l1 [[<-] _]; rewrite (sd_names sd) /= => -[].
  rewrite dz in k4 k5 => hv; rewrite (k4 0%Re v _ hv) ?k5 ?plane_stacked // => j.
  by rewrite Rminus_0_r !Rmult_0_r Rabs_R0; have := ln_big; lra.
split=> //.
- move=> z1 z2 v1 v2 h0 h12 h2 hv1 hv2.
  case: (Req_dec z2 0) => [e2|ne2].
    have e1 : z1 = 0%Re by lra.
    by move: hv1 hv2; rewrite e1 e2 => -> [<-]; exact: le_refl_p.
  have [|i2 [b1 b2 b3]] := @find_layer ds z2 (size ds) _ h2; first lra.
  have [L2 [f2 m2 g2 g2']] := slab i2 b1.
  case: (Req_dec z1 0) => [e1|ne1].
    subst z1; rewrite (P0 v1 hv1) (f2 z2 b2 b3 v2 hv2).
    apply: le_trans_p (GM 0%N i2 isT (ltnW b1)); rewrite -g2'; apply: m2; lra.
  have [||i1 [a1 a2 a3]] := @find_layer ds z1 (size ds); [lra|lra|].
  have [L1 [f1 m1 g1 g1']] := slab i1 a1.
  case: (ltngtP i1 i2) => hi.
  + rewrite (f1 z1 a2 a3 v1 hv1) (f2 z2 b2 b3 v2 hv2).
    apply: (@le_trans_p _ (G i2)); first by rewrite -g2'; apply: m2; lra.
    apply: le_trans_p (GM _ _ hi (ltnW b1)) _; rewrite -g1; apply: m1.
    by move: a3; rewrite depth_beforeS; lra.
  + by have := depth_mono hn hi; lra.
  + subst i2; rewrite (f1 z1 a2 a3 v1 hv1) (f1 z2 b2 b3 v2 hv2); apply: m1; lra.
- case: (posnP (size ds)) => hz; first by rewrite hz depth_before0.
  case E : (size ds) hz slab => [//|k] _ slab v hv; have [L [h1 _ h3 _]] := slab k (ltnSn k).
  have hdk : (depth_before ds k < depth_before ds k.+1)%Re.
    rewrite depth_beforeS; suff : (0 < nth 0%Re ds k)%Re by lra.
    by apply: hp; rewrite E.
  rewrite (h1 _ hdk (Rle_refl _) v hv) -h3; congr (plane_flux (L _)); rewrite depth_beforeS; ring.
- move=> i hi; rewrite d2 in hi; have [zr [v hv]] := H i hi.
  have [|l0 [s0 [mo0 [kk' [f' [Sr0' [mr' [amp' [Sl [Sr [cd [[b1 b2 b3 b4] [[b5 [m1 b6 b6'] b7 b8] [[a [b b9]] b10]]]]]]]]]]]]]] := fields_used sd _ hv.
    by rewrite sz ltnS (leq_trans hi).
  exists Sl, Sr; split=> //.
  have [m [amp [q1 q2 ->]]] := ha; move: q1; rewrite /named_modes b5 /= b6 => -[em]; subst m.
  move: q2; rewrite b6' => -[<-]; move: b9; rewrite /gap_at b7 b8 => b9.
  by rewrite (_ : translate_mode_amplitudes _ _ _ 0 0 = Ok cd).
Qed.

Lemma amplitude_unique (c : crystal n) inc a b : map_amplitude c inc a -> map_amplitude c inc b -> a = b.
Proof.
move=> [m [x [h1 h2 ->]]] [m' [x' [h1' h2' ->]]]; move: h1'; rewrite h1 => -[e]; subst m'.
by move: h2'; rewrite h2 => -[->].
Qed.

Lemma port_flux_scale (W V : 'M[C]_(n + n)) (x : C) a b : port_flux W V (x *: a) (x *: b) = (sqmod x * port_flux W V a b)%Re.
Proof.
rewrite /port_flux /tangential /= -scalerDr -scalerBr -!scalemxAr /poynting_z -mulRE big_distrr /=; apply: eq_bigr => j _; rewrite mulRE.
rewrite !mxE /sqmod /=; ring.
Qed.

(** The flux just after the first interface and just before the last one. *)
Lemma plane_ends (c c' : crystal n) ds inc x a r t : good_crystal strict ei ee c -> own_crystal (RtoC ei) (RtoC ee) c -> step eig J1 c Solve c' ->
  good_source c' -> device_depths c' ds -> all_positive ds -> unclipped c' -> (forall z, is_ok (fourier_fields c' z inc)) ->
  map_amplitude c' inc (x *: a) -> flux_amplitude c' a -> poynting_flux_end c' = Ok (r, t) ->
  exists src q, [/\ c_source c' = Some src, (0 < q)%Re, c_kzi c' = RtoC (2 * PI / s_wl src * q)%Re &
    (forall v, fourier_fields c' 0%Re inc = Ok v -> plane_flux v.1 = (sqmod x * (q * (1 - r)))%Re) /\
    (forall v, fourier_fields c' (depth_before ds (size ds)) inc = Ok v -> plane_flux v.1 = (sqmod x * (q * t))%Re)].
Proof.
move=> gc ho hs gs hd hp hu hall hm hfa hRT.
have [dev [src [sol [es [Ss [kk [f [c1p [[sd d2 hk hf hma] [_ P0 PD hgap]]]]]]]]]] := plane_device gc ho hs gs hd hp hu hall.
have ea := amplitude_unique hm hma; subst c1p.
have gc' : good_crystal strict ei ee c' by apply: (step_good gc _ hs); case: (strict).
have sz : size dev.1.2 = (size dev.1.1).+2 by rewrite (sd_names sd) /= size_rcons.
have x0 : entry n by case: (es) (sd_size sd) => [|y]; rewrite ?sz.
have [[src' [es' hw]] [hx [hy hreg]]] := gs.
have {}es' : src' = src by move: es'; rewrite (sd_src sd) => -[].
subst src'.
have pR : (0 < size dev.1.2)%N by rewrite sz.
have pT : ((size dev.1.1).+1 < size dev.1.2)%N by rewrite sz.
have [lr [sr [r1 r2 r3 r4 r5]]] := sd_layer sd x0 (scattering_identity _ _) pR.
have [lt [st [t1 t2 t3 t4 t5]]] := sd_layer sd x0 (scattering_identity _ _) pT.
have nT : nth ""%string dev.1.2 (size dev.1.1).+1 = Strans by rewrite (sd_names sd) /= nth_rcons ltnn eqxx.
have nR : nth ""%string dev.1.2 0 = Sref by rewrite (sd_names sd).
have fr : l_form lr = HALF_SPACE_INC (RtoC ei) by case: r5 => l1 [[<-] _]; rewrite nR eqxx => -[].
have ft : l_form lt = HALF_SPACE_TRN (RtoC ee) by case: t5 => l1 [[<-] _]; rewrite nT => -[].
have gR := sd_get sd x0 pR; rewrite nR r1 in gR.
have gT := sd_get sd x0 pT; rewrite nT t1 in gT.
move: hk hf r2 t2; case: kk => -[kx ky] kz /= hk hf; rewrite /layer_solve r4 t4 hk /= hf /= fr ft.
case hr : (scattering_reflection _ _ _ _ _ _) => [[[[Sr Wr] Vr] Lr]|//] /=.
case: (one_over (RtoC ei)) => [icr|//] /= [hsr].
case ht : (scattering_transmission _ _ _ _ _ _) => [[[[St Wt] Vt] Lt]|//] /=.
case: (one_over (RtoC ee)) => [ict|//] /= [hst].
have [_ eWr eLr hVr _] := reflection_inv hr; have [_ eWt eLt hVt _] := transmission_inv ht.
have eSr : nth (scattering_identity _ _) Ss 0 = Sr by move: r3; rewrite -hsr; case: (l_fields lr) => /= -[->].
have eSt : nth (scattering_identity _ _) Ss (size dev.1.1).+1 = St by move: t3; rewrite -hst; case: (l_fields lt) => /= -[->].
have hst' := sd_stack sd; have hS0 : (0 < size Ss)%N by rewrite (sd_sizeS sd).
have [_ z1 z2 _ hn] := stack_layersP hst' hS0.
have [_ _ _ _ hre] := stack_reassemble hst' hS0.
have whole i : (i <= size ds)%N -> exists Sl Sr, [/\ chain (scattering_identity _ _) (take i.+1 Ss) = Ok Sl,
   rchain (scattering_identity _ _) (rev (drop i.+1 Ss)) = Ok Sr, redheffer_product Sl Sr = Ok (r_S sol) &
   translate_mode_amplitudes Sl Sr (x *: a) 0 0 = Ok (gap_at sol (x *: a) i)].
  move=> hi; have hi' : (i < size Ss)%N by rewrite (sd_sizeS sd) sz -d2 ltnS leqW.
  have [Sl [Sr' [g1 g2 g3]]] := hgap i hi.
  have [Sl1 [Sr1 [q1 q2 q3 q4]]] := hn i hi'; have [Sl2 [Sr2 [_ _ w3 w4 w5]]] := hre i hi'.
  exists Sl, Sr'; move: q3 q4 w4 w5; rewrite g1 g2; do 2 (case: ifP => // _).
  by move=> [e1] [e2] [e3] [e4]; subst Sl1 Sr1 Sl2 Sr2.
move: hRT; rewrite /poynting_flux_end /poynting_flux_orders (sd_sol sd) /= (sd_src sd) /= (g_src gc' (sd_src sd)) (g_epsi gc') (g_epse gc').
case hinc : (incident _ _ _ _ _) => [ic|//] /=.
rewrite /named_modes gR gT /=.
case hmr : (sl_modes sr) => [mr|//] /=.
have emr : mr = (Wr, Vr, Lr) by move: hmr; rewrite -hsr; case: (l_fields lr) => //= -[].
rewrite emr /= {1}eWr /inv unitmx1 /=.
case hmt : (sl_modes st) => [mt|//] /=.
have emt : mt = (Wt, Vt, Lt) by move: hmt; rewrite -hst; case: (l_fields lt) => //= -[].
rewrite emt /= eWr eWt invmx1 !mul1mx.
have ea : a = ic.
  case: hfa => src' [mr' [ef [iW [a1 a2 a3 a4 ->]]]].
  have {a1} e1 : src' = src by move: a1; rewrite (sd_src sd) => -[].
  subst src'; move: a3; rewrite (g_src gc' (sd_src sd)) (g_epsi gc') hinc => -[<-].
  move: a2 a4; rewrite /named_modes gR /= hmr /= emr => -[<-] /=; rewrite eWr /inv unitmx1 => -[<-].
  by rewrite invmx1 mul1mx.
subst ic.
case hfT : (poynting_fluxes _ _ _ _ _ _) => [fT|//] /=.
case hfR : (poynting_fluxes _ _ _ _ _ _) => [fR|//] /= [<- <-] /=.
rewrite eLr in hVr; rewrite eLt in hVt.
have [q [q0 [hs1 hf1]]] := balance_kzi hw hx hy hfR.
exists src, q; split=> //.
split=> v hv.
- rewrite (P0 v hv) /=; have [Sl [Sr' [c1 c2 c3 c4]]] := whole 0%N isT.
  have eSl : Sl = Sr.
    move: c1; rewrite (_ : take 1 Ss = [:: Sr]); last by case: (Ss) hS0 eSr => //= y ? _ ->; rewrite take0.
    by rewrite /= rh_idL => -[].
  subst Sl; move: c4; case: (gap_at _ _ _) => cp cm /= c4.
  have [sc _] := amplitudes_out c3 c4; have := (reflection_continuity hr _ _ _ _).1 sc.
  rewrite /interface_response => hif; have {hif} -> : port_flux f.1 f.2 cp cm = port_flux Wr Vr (x *: a) (s11 (r_S sol) *m (x *: a)) by rewrite /port_flux -hif.
  rewrite -scalemxAr port_flux_scale eWr.
  have [q' [p1 p2 p3]] := incident_port hw hx hy (g_exp gc') hreg hk hVr hinc hfR.
  have eq : q' = q by apply: RtoC_inj; rewrite -p2 hf1.
  by rewrite -eq -p3.
- rewrite (PD v hv) /=; have [Sl [Sr' [c1 c2 c3 c4]]] := whole (size ds) (leqnn _).
  have eSl : Sr' = St.
    move: c2; rewrite (_ : drop (size ds).+1 Ss = [:: St]); last first.
      rewrite (drop_nth (scattering_identity _ _)) ?(sd_sizeS sd) ?d2 ?sz // eSt drop_oversize // (sd_sizeS sd) sz //.
    by rewrite /rev /= rh_idR => -[].
  subst Sr'; move: c4; case: (gap_at _ _ _) => cp cm /= c4.
  have [_ sc] := amplitudes_out c3 c4; have := (transmission_continuity ht _ _ _ _).1 sc.
  rewrite /interface_response => hif; have {hif} -> : port_flux f.1 f.2 cp cm = port_flux Wt Vt (s21 (r_S sol) *m (x *: a)) (x *: 0) by rewrite scaler0 /port_flux -hif.
  rewrite -scalemxAr port_flux_scale eWt.
  by rewrite (outgoing_port hw hx hy hk hVt hfT hf1 q0).
Qed.
End Plane.

Lemma calls_imp (P Q : op -> Prop) ops : (forall o, P o -> Q o) -> all_calls P ops -> all_calls Q ops.
Proof. by move=> h; elim: ops => //= o ops IH [/h ? /IH]. Qed.
Lemma lossless_own o : lossless_call o -> own_call o.
Proof. by case: o => //= *; intuition. Qed.
Lemma passive_own o : passive_call o -> own_call o.
Proof. by case: o => //= *; intuition. Qed.

Section Histories.
Variables (eig : forall m, 'M[C]_m -> 'rV[C]_m * 'M[C]_m) (J1 : R -> R) (n : nat) (ei ee : R) (c0 c c' : crystal n) (ops : seq op).
Variables (ds : seq R) (inc : 'cV[C]_((n + n) + (n + n))).
Hypothesis heig : eigen_equation eig.
Hypothesis hc : created c0 false (RtoC ei) (RtoC ee).
Hypothesis hh : history eig J1 c0 ops c.
Hypothesis hs : step eig J1 c Solve c'.
Hypotheses (gs : good_source c') (hd : device_depths c' ds) (hp : all_positive ds) (hu : unclipped c').
Hypothesis hall : forall z, is_ok (fourier_fields c' z inc).
Section Any.
Variables (strict : bool) (hops : all_calls (if strict then lossless_call else passive_call) ops).
Lemma any_good : good_crystal strict ei ee c.
Proof. exact: (history_good (created_good strict hc) hops hh). Qed.
Lemma any_own : own_crystal (RtoC ei) (RtoC ee) c.
Proof.
apply: history_own (created_own hc) _ hh; apply: calls_imp hops.
by case: (strict) => o; [exact: lossless_own|exact: passive_own].
Qed.
End Any.
Lemma planes_lossless z1 z2 v1 v2 : all_calls lossless_call ops ->
  (0 <= z1)%Re -> (z1 <= depth_before ds (size ds))%Re -> (0 <= z2)%Re -> (z2 <= depth_before ds (size ds))%Re ->
  fourier_fields c' z1 inc = Ok v1 -> fourier_fields c' z2 inc = Ok v2 -> plane_flux v1.1 = plane_flux v2.1.
Proof.
move=> ho a1 a2 b1 b2 h1 h2.
have [dev [src [sol [es [Ss [kk [f [c1p [_ [m _ _ _]]]]]]]]]] :=
  plane_device heig (@any_good true ho) (@any_own true ho) hs gs hd hp hu hall.
case: (Rle_dec z1 z2) => h; last by apply: (m z2 z1 v2 v1) => //; lra.
by apply/esym; apply: (m z1 z2 v1 v2).
Qed.
Lemma planes_passive z1 z2 v1 v2 : all_calls passive_call ops ->
  (0 <= z1)%Re -> (z1 <= z2)%Re -> (z2 <= depth_before ds (size ds))%Re ->
  fourier_fields c' z1 inc = Ok v1 -> fourier_fields c' z2 inc = Ok v2 -> (plane_flux v2.1 <= plane_flux v1.1)%Re.
Proof.
move=> ho a1 a2 b2 h1 h2.
have [dev [src [sol [es [Ss [kk [f [c1p [_ [m _ _ _]]]]]]]]]] :=
  plane_device heig (@any_good false ho) (@any_own false ho) hs gs hd hp hu hall.
exact: (m z1 z2 v1 v2).
Qed.
Lemma planes_ends x a r t : all_calls lossless_call ops \/ all_calls passive_call ops ->
  map_amplitude c' inc (x *: a) -> flux_amplitude c' a -> poynting_flux_end c' = Ok (r, t) ->
  exists src q, [/\ c_source c' = Some src, (0 < q)%Re, c_kzi c' = RtoC (2 * PI / s_wl src * q)%Re &
    (forall v, fourier_fields c' 0%Re inc = Ok v -> plane_flux v.1 = (sqmod x * (q * (1 - r)))%Re) /\
    (forall v, fourier_fields c' (depth_before ds (size ds)) inc = Ok v -> plane_flux v.1 = (sqmod x * (q * t))%Re)].
Proof.
case=> ho.
  exact: (plane_ends heig (@any_good true ho) (@any_own true ho) hs gs hd hp hu hall).
exact: (plane_ends heig (@any_good false ho) (@any_own false ho) hs gs hd hp hu hall).
Qed.
End Histories.

(** The film of the example lets energy through. *)
Lemma film_transmits : (0 < 2 / 1 * sqmod (airy_t (RtoC 1) (RtoC 3) (RtoC 2) (cexp (- (ci * RtoC 3 * RtoC (1 * (2 * PI / 1))%Re))%R)))%Re.
Proof.
have -> : ci * RtoC 3 * RtoC (1 * (2 * PI / 1))%Re = ci * RtoC (2 * IZR 3 * PI)%Re.
  by rewrite -mulrA; congr (_ * _); apply: C_ext => /=; field.
rewrite cexp_2kPI /airy_t /fresnel_t /fresnel_r expr1n.
set t := (X in sqmod X).
have h : t * RtoC 3 = RtoC 2.
  have e2 : RtoC 2 = 1 + 1 by apply: C_ext => /=; ring.
  have e3 : RtoC 3 = 1 + 1 + 1 by apply: C_ext => /=; ring.
  rewrite /t e2 e3 -[RtoC 1]/(1 : C) -[2%:R]/(1 + 1); toC; field.
  repeat split; move=> /(congr1 fst) /= h; clear -h; lra.
have : (0 <= sqmod t)%Re by rewrite /sqmod; nra.
case: (Req_dec (sqmod t) 0) => [/sqmod_eq0 t0|]; last lra.
by move: h; rewrite t0 mul0r => /(congr1 fst) /=; lra.
Qed.
