(** The fields on both sides of the emergence interface. *)
From Coq Require Import Reals ZArith Lra Lia String.
From mathcomp Require Import all_ssreflect all_algebra.
From Coquelicot Require Import Complex Rbar.
From Verif Require Import Base ZmodTac CField CFun Blk ModelRedheffer SpecScatter SpecStack RedhefferProofs ModelLayer SpecLayer
  LayerProofs LayerCProofs LayerApiProofs ModelExpansion SpecExpansion ModelFlux ModelFourier ModelExtension ModelDevice SpecDevice StringEq
  DeviceProofs DeviceEnergy HistoryProofs DepthProofs ModelFields SpecFields StackProofs SolvedProofs Calculus FieldsProofs.
Set Implicit Arguments. Unset Strict Implicit. Unset Printing Implicit Defensive.
Import GRing.Theory.
Local Open Scope ring_scope.

Lemma stacked_split m (p q : 'cV[C]_m * 'cV[C]_m) : stacked p = stacked q <-> p.1 = q.1 /\ p.2 = q.2.
Proof. by split=> [/stacked_inj ->|[h1 h2]]; [|rewrite /stacked h1 h2]. Qed.

(** A map made of two continuous pieces is only continuous when they agree. *)
Lemma unglue n (c : crystal n) inc z0 a (L2 : R -> 'cV[C]_((n + n) + (n + n))) d2 v :
  mder L2 z0 d2 -> (0 < a)%Re -> fourier_fields c z0 inc = Ok v ->
  (forall z, (z0 < z)%Re -> (z < z0 + a)%Re -> exists w, fourier_fields c z inc = Ok w /\ w.1 = L2 z) ->
  fields_continuous c inc z0 -> v.1 = L2 z0.
Proof.
move=> h2 ha hv hr [v' [hv' hc]]; have ev : v' = v by move: hv'; rewrite hv => -[].
subst v'; apply/colP => j.
case: (Req_dec (Cmod (v.1 j 0 - L2 z0 j 0)) 0) => [/Cmod_eq_0 h|hne].
  by apply/eqP; rewrite -subr_eq0; apply/eqP.
have hp : (0 < Cmod (v.1 j 0 - L2 z0 j 0)%R)%Re by have := Cmod_ge_0 (v.1 j 0 - L2 z0 j 0)%R; lra.
set e := Cmod _ in hp; have he : (0 < e / 2)%Re by lra.
have [r1 [p1 q1]] := hc _ he; have [r2 p2 q2] := mder_near h2 he.
pose t := (Rmin a (Rmin r1 r2) / 2)%Re.
have hm : (0 < Rmin a (Rmin r1 r2))%Re by do !apply: Rmin_glb_lt.
have m1 := Rmin_l a (Rmin r1 r2); have m2 := Rmin_r a (Rmin r1 r2).
have m3 := Rmin_l r1 r2; have m4 := Rmin_r r1 r2.
have hz : (Rabs (z0 + t - z0) = t)%Re by rewrite Rabs_pos_eq /t; lra.
have [||w [hw ew]] := hr (z0 + t)%Re; [rewrite /t; lra|rewrite /t; lra|].
have [|w' [hw' q1']] := q1 (z0 + t)%Re; first by rewrite hz /t; lra.
have eww : w' = w by move: hw'; rewrite hw => -[].
subst w'; have := q1' j; have := q2 (z0 + t)%Re; rewrite hz => /(_ _ j) b2 b1.
have {}b2 : (Cmod (L2 (z0 + t)%Re j 0 - L2 z0 j 0)%R < e / 2)%Re by apply: b2; rewrite /t; lra.
have : (e <= Cmod (w.1 j 0 - v.1 j 0)%R + Cmod (L2 (z0 + t)%Re j 0 - L2 z0 j 0)%R)%Re.
  rewrite /e -(Cmod_opp (w.1 j 0 - v.1 j 0)); apply: Rle_trans (Cmod_triangle _ _).
  right; congr Cmod; rewrite -ew; toC; ring.
lra.
Qed.

Section Device.
Variables (eig : forall m, 'M[C]_m -> 'rV[C]_m * 'M[C]_m) (J1 : R -> R) (n : nat) (ei ee : C).
Implicit Types (c : crystal n).

Lemma trn_built l kp wl s kk f mo eps : layer_solve eig J1 n l kp wl = Ok s -> l_form l = HALF_SPACE_TRN eps ->
  krows n (l_exp l) kp wl 1 = Ok kk -> free_space_eigenmodes kk.1.1 kk.1.2 = Ok f -> sl_modes s = Some mo ->
  exists S, sl_S s = Some S /\ scattering_transmission kk.1.1 kk.1.2 f.1 f.2 eps 1 = Ok (S, mo.1.1, mo.1.2, mo.2).
Proof.
rewrite /layer_solve => h hf hk hfr; move: h; rewrite hk /= hfr /= hf.
case: (scattering_transmission _ _ _ _ _ _) => [[[[S W] V] l']|//] /=.
case: (one_over eps) => [ic|//] /= [<-]; case: (l_fields l) => //= -[<-] /=.
by exists S.
Qed.

Lemma translate_end (S : smat C_fieldType (n + n)) c1p a b :
  translate_mode_amplitudes S (scattering_identity _ _) c1p a b = Ok (s21 S *m c1p, 0).
Proof.
rewrite /translate_mode_amplitudes /scattering_identity /= mulmx0 subr0 /solve unitmx1 /= invmx1 !mul1mx.
by rewrite mul0mx.
Qed.

Lemma emergence_continuity c c' ds inc kk f mr mt amp sol src :
  own_crystal ei ee c -> step eig J1 c Solve c' -> device_depths c' ds ->
  all_positive ds -> unclipped c' -> (forall z, exists v, fourier_fields c' z inc = Ok v) ->
  c_source c' = Some src ->
  krows n (c_exp c') (c_kp c') (s_wl src) 1 = Ok kk -> free_space_eigenmodes kk.1.1 kk.1.2 = Ok f ->
  named_modes c' Sref = Ok mr -> named_modes c' Strans = Ok mt ->
  solve (layer_eigenbasis_matrix mr.1.1 mr.1.2) inc = Ok amp -> c_solution c' = Some sol ->
  let c2p := s21 (r_S sol) *m usubmx amp in
  fields_continuous c' inc (depth_before ds (size ds)) <-> f.2 *m c2p = mt.1.2 *m c2p.
Proof.
move=> ho hs hd hp hu hall hsrc hk hf hmr hmt hamp hsol c2p.
have hn : nonneg ds.
  move=> i; case: (ltnP i (size ds)) => hi; first by apply: Rlt_le; exact: hp.
  by rewrite nth_default //; lra.
have [dev [src' [sol' [es [Ss sd]]]]] := solve_device ho hs.
have e : src' = src by move: (sd_src sd); rewrite hsrc => -[].
subst src'; have e : sol' = sol by move: (sd_sol sd); rewrite hsol => -[].
subst sol'; have hloc z := locate z (own_outer ho) hs hd hn.
have [dev' [d1 d2 d3]] := hd; have e : dev' = dev by move: d1; rewrite (sd_dev sd) => -[].
subst dev'; have sz : size dev.1.2 = (size dev.1.1).+2 by rewrite (sd_names sd) /= size_rcons.
have x0 : entry n by case: (es) (sd_size sd) => [|x]; rewrite ?sz.
set N := size dev.1.1 in sz d2 *; set D := depth_before ds (size ds).
have hD0 : (0 <= D)%Re.
  by rewrite -(depth_before0 ds); apply: depth_mono.
have F0 z : (z <= 0)%Re -> fourier_fields c' z inc = fourier_fields_at c' (nth x0 es 0) 1 z inc.
  move=> hz; have [dv [ed [hh _ _]]] := hloc z; have [x [hx hr]] := hh hz.
  rewrite /fourier_fields hr /=; congr fourier_fields_at.
  by have := sd_get sd x0 (i := 0%N); rewrite sz (sd_names sd) /= hx => /(_ isT) [].
have Fi z i : (i < size ds)%N -> (depth_before ds i < z)%Re -> (z <= depth_before ds i.+1)%Re ->
    fourier_fields c' z inc = fourier_fields_at c' (nth x0 es i.+1) i.+2 (z - depth_before ds i)%Re inc.
  move=> hi h1 h2; have [dv [ed [_ _ hh]]] := hloc z; have [x [hx hr]] := hh i hi h1 h2.
  have e : dv = dev by move: ed; rewrite (sd_dev sd) => -[].
  subst dv; rewrite /fourier_fields hr /=; congr fourier_fields_at.
  have := sd_get sd x0 (i := i.+1); rewrite sz (sd_names sd) /= nth_rcons -/N -d2 hi hx => hh2.
  by have [] := hh2 (leqW hi).
have Fe z : (D < z)%Re -> fourier_fields c' z inc = fourier_fields_at c' (nth x0 es N.+1) N.+2 (z - D)%Re inc.
  move=> hz; have [dv [ed [_ hh _]]] := hloc z; have [x [hx hr]] := hh hz.
  have e : dv = dev by move: ed; rewrite (sd_dev sd) => -[].
  subst dv; rewrite /fourier_fields hr /= d2; congr fourier_fields_at.
  have := sd_get sd x0 (i := N.+1); rewrite sz (sd_names sd) /= nth_rcons -/N ltnn eqxx hx => hh2.
    by have [] := hh2 (leqnn _).
  by rewrite /D d2.
have H i : (i <= size dev.1.1)%N -> exists zr v, fourier_fields_at c' (nth x0 es i) i.+1 zr inc = Ok v.
  case: i => [_|i hi].
    by have [v hv] := hall 0%Re; exists 0%Re, v; rewrite -F0 //; lra.
  have [v hv] := hall (depth_before ds i.+1); exists (depth_before ds i.+1 - depth_before ds i)%Re, v.
  rewrite -Fi ?d2 //; last by lra.
  by rewrite depth_beforeS; have := hp i; rewrite d2 => /(_ hi); lra.
have [v1 hv1] := hall (D + 1)%Re.
have hv1' : fourier_fields_at c' (nth x0 es N.+1) N.+2 (D + 1 - D)%Re inc = Ok v1 by rewrite -Fe //; lra.
have hiN : (N.+1 < size dev.1.2)%N by rewrite sz.
have hiN' : (N < size dev.1.2)%N by rewrite sz.
have [f' [c1p [[kk' hk' hf'] [m [amp' [hm' hamp' ec1p]]] HP]]] := place_profile sd H.
have e : kk' = kk by move: hk'; rewrite hk => -[].
subst kk'; have e : f' = f by move: hf'; rewrite hf => -[].
subst f'; have e : m = mr by move: hm'; rewrite hmr => -[].
subst m; have e : amp' = amp by move: hamp'; rewrite hamp => -[].
subst amp' c1p.
have stk := @stack_layersP n Ss dev.2 _ _ _ (sd_stack sd).
have [|ctot s1 s2 s3 hnn] := stk; first by rewrite (sd_sizeS sd) sz.
rewrite (sd_sizeS sd) in hnn.
(* the emergence medium *)
have used zr v : fourier_fields_at c' (nth x0 es N.+1) N.+2 zr inc = Ok v -> exists l s,
   [/\ nth x0 es N.+1 = (Plain l, Some s), sl_modes s = Some mt, nth None (r_Sls sol) N.+1 = Some (r_S sol),
     nth None (r_Srs sol) N.+1 = Some (scattering_identity _ _) &
    fourier_fields_from_mode_amplitudes (layer_eigenbasis_matrix mt.1.1 mt.1.2) mt.2 (layer_eigenbasis_matrix f.1 f.2)
     (c2p, 0) (2 * PI / s_wl src * (l_depth l - zr))%Re = Ok v.1].
  move=> h; have [l0 [s0 [mo0 [kk' [f' [Sr0' [mr' [amp' [Sl [Sr [cd [[b1 b2 b3 b4] [[b5 [m1 b6 b6'] b7 b8] [[a [b b9]] b10]]]]]]]]]]]]]] := fields_used sd hiN h.
  have e1 : kk' = kk by move: b3; rewrite hk => -[].
  subst kk'; have e2 : f' = f by move: b4; rewrite hf => -[].
  subst f'; have e3 : m1 = mr by move: hmr; rewrite /named_modes b5 /= b6 /= => -[].
  subst m1; have e5 : amp' = amp by move: b6'; rewrite hamp => -[].
  subst amp'; have e6 : mo0 = mt.
    move: hmt; rewrite /named_modes; have := sd_get sd x0 hiN; rewrite (sd_names sd) /= nth_rcons -/N ltnn eqxx => ->.
    by rewrite b1 /= b2 /= => -[].
  subst mo0; have [Sl2 [Sr2 [g1 g2 g3 g4]]] := hnn _ hiN.
  have eSl : Sl = r_S sol.
    move: b7; rewrite g3; case: ifP => // _ [<-].
    by move: g1; rewrite -sz -(sd_sizeS sd) take_size ctot => -[].
  have eSr : Sr = scattering_identity _ _.
    move: b8; rewrite g4; case: ifP => // _ [<-].
    by move: g2; rewrite -sz -(sd_sizeS sd) drop_size => -[].
  subst Sl Sr; exists l0, s0; split=> //; move: b9; rewrite translate_end => -[e7].
  by rewrite -/c2p in e7; rewrite e7.
have [l [s [es1 hmo hSl hSr hfd]]] := used _ _ hv1'.
have [l' [s' [ee1 ee2 ee3 ee4 ee5]]] := sd_layer sd x0 (scattering_identity _ _) hiN.
have [el es'] : l' = l /\ s' = s by move: ee1; rewrite es1 => -[-> ->].
subst l' s'.
have [hform hdep] : l_form l = HALF_SPACE_TRN ee /\ l_depth l = 0%Re.
  by case: ee5 => l1 [[<-] _]; rewrite (sd_names sd) /= nth_rcons -/N ltnn eqxx.
have [St [hSt htr]] := trn_built ee2 hform (etrans (congr1 (fun e => krows n e _ _ _) ee4) hk) hf hmo.
have eSt : St = nth (scattering_identity _ _) Ss N.+1 by move: ee3; rewrite hSt => -[].
(* the waves in front of it *)
have [zrN [vN hN]] := H N (leqnn _).
have [lN [sN [moN [kk' [f' [Sr0' [mr' [amp' [Sl [Sr [cd [[b1 b2 b3 b4] [[b5 [m1 b6 b6'] b7 b8] [[a [b b9]] b10]]]]]]]]]]]]]] := fields_used sd hiN' hN.
have e1 : kk' = kk by move: b3; rewrite hk => -[].
subst kk'; have e2 : f' = f by move: b4; rewrite hf => -[].
subst f'; have e3 : m1 = mr by move: hmr; rewrite /named_modes b5 /= b6 /= => -[].
subst m1; have e5 : amp' = amp by move: b6'; rewrite hamp => -[].
subst amp'.
have [r1 r2] := stack_neighbours (scattering_identity _ _) (sd_stack sd) (etrans (congr1 (leq _) (sd_sizeS sd)) hiN) b7 b8 hSl hSr.
rewrite -eSt in r1 r2.
have egap : gap_at sol (usubmx amp) N = cd by rewrite /gap_at b7 b8 (_ : translate_mode_amplitudes Sl Sr (usubmx amp) 0 0 = Ok cd).
have hcd : tangential f.1 f.2 cd.1 cd.2 = tangential mt.1.1 mt.1.2 c2p 0.
  move: b9; case: (cd) => cp cm b9; have := gap_step r1 r2 b9 (translate_end (r_S sol) (usubmx amp) 0 0).
  by move=> /(transmission_continuity htr).
have [_ eW0 _ _ _] := transmission_inv htr.
have eWt : mt.1.1 = 1%:M by [].
have eW : f.1 = 1%:M by move: hf; rewrite /free_space_eigenmodes; case: (divcols _ _) => [V0|//] /= [<-].
(* the right piece *)
have [L2 [m2 f2 g2]] : exists L2, [/\ forall z, exists d, mder L2 z d,
   exists2 r, (0 < r)%Re & forall z, (D < z)%Re -> (z < D + r)%Re -> exists w, fourier_fields c' z inc = Ok w /\ w.1 = L2 (z - D)%Re &
   L2 0%Re = stacked (tangential f.1 f.2 c2p 0)].
  move: hfd; rewrite /fourier_fields_from_mode_amplitudes /solve hdep; case: ifP => //= u _.
  pose x := invmx (layer_eigenbasis_matrix mt.1.1 mt.1.2) *m (layer_eigenbasis_matrix f.1 f.2 *m col_mx c2p 0).
  have ex : tangential mt.1.1 mt.1.2 (usubmx x) (dsubmx x) = tangential f.1 f.2 c2p 0.
    by apply: stacked_inj; rewrite -!eigenbasisE vsubmxK /x mulKVmx.
  exists (profile mt.1.1 mt.1.2 mt.2 (2 * PI / s_wl src)%Re (usubmx x) (dsubmx x)); split; last by rewrite profile0 ex.
    by move=> z; exact: profile_mder.
  have [r hr hc] := calm_near mt.2 (2 * PI / s_wl src)%Re; exists r => // z h1 h2.
  have [w hw] := hall z; exists w; split=> //; move: (hw); rewrite Fe // => /used [l2 [s2' [w1 _ _ _ w2]]].
  have e7 : l2 = l by move: w1; rewrite es1 => -[->].
  subst l2; rewrite hdep in w2; apply: (fields_profile _ w2).
    by apply: hc; rewrite Rminus_0_r Rabs_pos_eq; lra.
  by rewrite fwd0 bwd0 !diag_const_mx !mul1mx ex.
(* the left piece *)
have [a1 [L1 [ha1 [d1' m1] f1 g1]]] : exists a L1, [/\ (0 < a)%Re, exists d, mder L1 D d,
   (forall z, (D - a < z)%Re -> (z <= D)%Re -> exists w, fourier_fields c' z inc = Ok w /\ w.1 = L1 z) &
   L1 D = stacked (tangential mt.1.1 mt.1.2 c2p 0)].
  have [l3 [s3' [mo3 [L [[k1 k2 k3] [k4 k5 _]]]]]] := HP N (leqnn _).
  rewrite egap hcd in k5.
  move: (erefl N) d2 F0 Fi k1 k4; rewrite {1}/N; case eN : (size dev.1.1) => [|i] e7 d2 F0' Fi' k1 k4.
    have eN' : N = 0%N by [].
    rewrite eN' in k1 k4; have dz : l_depth l3 = 0%Re.
      have hi2 : (0 < size dev.1.2)%N by rewrite sz.
      have [l' [s' [e1 _ _ _ e5]]] := sd_layer sd x0 (scattering_identity _ _) hi2.
      have el : l' = l3 by move: e1; rewrite k1 => -[->].
      by subst l'; case: e5 => l1 [[<-] _]; rewrite (sd_names sd) /= => -[].
    have eD : D = 0%Re by rewrite /D d2 eN' depth_before0.
    rewrite dz in k4 k5; have [r hr hc] := calm_near mo3.2 (2 * PI / s_wl src)%Re.
    rewrite eD; exists r, L; split=> // z h1 h2; have [w hw] := hall z; exists w; split=> //; apply: k4; last by rewrite -F0'.
    by apply: hc; rewrite Rminus_0_r /Rabs; case: Rcase_abs; lra.
  have eN' : N = i.+1 by [].
  have hi : (i < size ds)%N by rewrite d2 eN'.
  have hg := sd_get sd x0 hiN'; rewrite {1}eN' (sd_names sd) /= nth_rcons -/N eN' ltnSn in hg.
  rewrite eN' in k1 k4; rewrite k1 in hg.
  have [x [hx ed]] := d3 i hi; have ex : x = (Plain l3, Some s3') by move: hx; rewrite hg => -[].
  rewrite ex /= in ed.
  have eD : (D = depth_before ds i + l_depth l3)%Re by rewrite /D d2 eN' depth_beforeS ed.
  have hpi := hp i hi; have [dd hdd] := k3 (D - depth_before ds i)%Re.
  exists (l_depth l3), (fun z => L (z - depth_before ds i)%Re); split.
  - by rewrite ed.
  - by exists dd; exact: mder_shift hdd.
  - move=> z h1 h2; have [w hw] := hall z; exists w; split=> //.
    have h3 : (depth_before ds i < z)%Re by lra.
    have h4 : (z <= depth_before ds i.+1)%Re by rewrite depth_beforeS -ed -eD.
    apply: k4; last by rewrite -Fi'.
    apply: calm_inside; [move=> j | lra | lra].
    apply: (hu _ _ _ _ _ _ (sd_dev sd) (sd_src sd) _ hg k2).
    by rewrite mem_nth // eN.
  - by rewrite -k5; congr L; rewrite eD; ring.
have [r2' hr2 f2'] := f2; have [d2' hd2] := m2 (D - D)%Re; have hd2' := mder_shift hd2.
have eD : (D - D = 0)%Re by ring.
have key : L1 D = L2 (D - D)%Re <-> f.2 *m c2p = mt.1.2 *m c2p.
  rewrite eD g1 g2 stacked_split /tangential /= eW eWt !sub0r !mulmxN; split=> [[_ /oppr_inj ->]|->] //.
split.
  move=> hc; apply/key; have [||w [hw <-]] := f1 D; [lra|lra|].
  apply: (unglue hd2' hr2 hw _ hc) => z h1 h2; exact: f2'.
move=> /key hc; have q1 := Rmin_l a1 r2'; have q2 := Rmin_r a1 r2'.
apply: (glue m1 hd2' hc (a := Rmin a1 r2')); first exact: Rmin_glb_lt.
  by move=> z h1 h2; apply: f1; lra.
by move=> z h1 h2; apply: f2'; lra.
Qed.
End Device.
