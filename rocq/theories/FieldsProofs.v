(** Field maps. *)
From Coq Require Import Reals ZArith Lra Lia String.
From mathcomp Require Import all_ssreflect all_algebra.
From Coquelicot Require Import Complex Rbar.
From Verif Require Import Base ZmodTac CField CFun Blk ModelRedheffer SpecScatter SpecStack RedhefferProofs ModelLayer SpecLayer
  LayerProofs LayerCProofs ModelExpansion SpecExpansion ModelFlux ModelFourier ModelExtension ModelDevice SpecDevice StringEq
  DeviceProofs DeviceEnergy HistoryProofs DepthProofs ModelFields SpecFields StackProofs SolvedProofs Calculus.
Set Implicit Arguments. Unset Strict Implicit. Unset Printing Implicit Defensive.
Import GRing.Theory.
Local Open Scope ring_scope.

(** * One layer *)
Section Layer.
Variable m : nat.
Implicit Types (W V : 'M[C]_m) (lam : 'rV[C]_m) (cp cm : 'cV[C]_m).
Definition stacked (p : 'cV[C]_m * 'cV[C]_m) : 'cV[C]_(m + m) := col_mx p.1 p.2.
Lemma stacked_inj p q : stacked p = stacked q -> p = q.
Proof. by case: p q => a b [a' b'] /= /eq_col_mx [/= -> ->]. Qed.
Lemma eigenbasisE W V cp cm : layer_eigenbasis_matrix W V *m col_mx cp cm = stacked (tangential W V cp cm).
Proof.
rewrite /layer_eigenbasis_matrix /stacked /tangential /= mul_block_col mulmxDr mulmxBr mulNmx addrC.
by rewrite [X in col_mx _ X]addrC [X in col_mx X _]addrC.
Qed.
Definition profile W V lam (k0 : R) cp cm (z : R) : 'cV[C]_(m + m) :=
  stacked (tangential W V (diag_mx (fwd lam z k0) *m cp) (diag_mx (bwd lam z k0) *m cm)).
Lemma profile0 W V lam k0 cp cm : profile W V lam k0 cp cm 0%Re = stacked (tangential W V cp cm).
Proof. by rewrite /profile fwd0 bwd0 !diag_const_mx !mul1mx. Qed.

Lemma Cmod_cexp (z : C) : Cmod (cexp z) = exp (fst z).
Proof.
rewrite /Cmod /cexp /= !Rmult_1_r.
have -> : (exp (fst z) * cos (snd z) * (exp (fst z) * cos (snd z)) + exp (fst z) * sin (snd z) * (exp (fst z) * sin (snd z)) =
   exp (fst z) * exp (fst z) * (Rsqr (sin (snd z)) + Rsqr (cos (snd z))))%Re by rewrite /Rsqr; ring.
rewrite sin2_cos2 Rmult_1_r sqrt_square //; exact: Rlt_le (exp_pos _).
Qed.
Lemma clip_small (x : C) : (Cmod x <= big_phasor)%Re -> clip x = x.
Proof. by rewrite /clip => h; case: Rlt_dec => // h'; lra. Qed.
Lemma clip_cexp (z : C) : (fst z <= ln big_phasor)%Re -> clip (cexp z) = cexp z.
Proof.
move=> h; apply: clip_small; rewrite Cmod_cexp.
have hb : (0 < big_phasor)%Re by rewrite /big_phasor; lra.
rewrite -[X in (_ <= X)%Re](exp_ln _ hb).
by case: h => [h|->]; [left; exact: exp_increasing|right].
Qed.
(** Phasors not clipped at [zbar]. *)
Definition calm lam (zbar : R) : Prop := forall j, (Rabs (fst (lam 0%R j) * zbar) <= ln big_phasor)%Re.
Lemma calm_clip lam zbar : calm lam zbar ->
  map_mx clip (row_mx (compute_z_propagator lam zbar).1 (compute_z_propagator lam zbar).2) =
  row_mx (bwd lam zbar 1) (fwd lam zbar 1).
Proof.
move=> h; rewrite map_row_mx /compute_z_propagator /=; congr row_mx; apply/rowP => j; rewrite !mxE Rmult_1_r.
  rewrite clip_cexp //; have := h j; rewrite /= /Rabs; case: Rcase_abs => ? ?; nra.
rewrite clip_cexp //; have := h j; rewrite /= /Rabs; case: Rcase_abs => ? ?; nra.
Qed.
(** The fields inside a layer are those of modes travelling from its left face. *)
Lemma fields_profile W V lam k0 W0 V0 (b2 a2 : 'cV[C]_m) d zr v :
  calm lam (k0 * (d - zr))%Re ->
  fourier_fields_from_mode_amplitudes (layer_eigenbasis_matrix W V) lam (layer_eigenbasis_matrix W0 V0) (b2, a2)
    (k0 * (d - zr))%Re = Ok v ->
  forall cp cm, tangential W V (diag_mx (fwd lam d k0) *m cp) (diag_mx (bwd lam d k0) *m cm) = tangential W0 V0 b2 a2 ->
  v = profile W V lam k0 cp cm zr.
Proof.
move=> hc; rewrite /fourier_fields_from_mode_amplitudes /solve calm_clip //=; case: ifP => // u [<-] cp cm h.
rewrite eigenbasisE -h -eigenbasisE mulKmx //.
have -> : diag_mx (row_mx (bwd lam (k0 * (d - zr))%Re 1) (fwd lam (k0 * (d - zr))%Re 1)) *m
    col_mx (diag_mx (fwd lam d k0) *m cp) (diag_mx (bwd lam d k0) *m cm) =
    col_mx (diag_mx (fwd lam zr k0) *m cp) (diag_mx (bwd lam zr k0) *m cm).
  rewrite diag_mx_row mul_block_col !mul0mx addr0 add0r; congr col_mx; apply/colP => i;
  rewrite !mul_diag_mx !mxE mulrA -cexpD; congr (cexp _ * _); rewrite Rmult_1_r !RtoC_mult RtoC_minus; cring.
by rewrite eigenbasisE.
Qed.
End Layer.

(** * Continuity *)
Lemma Cmod_le_sum (z : C) : (Cmod z <= Rabs (fst z) + Rabs (snd z))%Re.
Proof.
have h1 := Rabs_pos (fst z); have h2 := Rabs_pos (snd z).
apply: Rsqr_incr_0; [|exact: Cmod_ge_0|lra].
rewrite /Rsqr Cmod_sqr; have := Rsqr_abs (fst z); have := Rsqr_abs (snd z); rewrite /Rsqr; nra.
Qed.
Lemma rder_near (f : R -> R) z d : rder f z d -> forall eps, (0 < eps)%Re -> exists2 dl, (0 < dl)%Re &
  forall t, (Rabs (t - z) < dl)%Re -> (Rabs (f t - f z) < eps)%Re.
Proof.
move=> h eps he; have hc : continuity_pt f z by apply: derivable_continuous_pt; exists d.
have [dl [hd hh]] := hc eps he; exists dl => // t ht.
case: (Req_dec t z) => [->|hne]; first by rewrite Rminus_diag_eq // Rabs_R0.
by apply: hh; split=> //; split=> //; move=> e; apply: hne.
Qed.
Lemma cder_near (f : R -> C) z d : cder f z d -> forall eps, (0 < eps)%Re -> exists2 dl, (0 < dl)%Re &
  forall t, (Rabs (t - z) < dl)%Re -> (Cmod (f t - f z)%R < eps)%Re.
Proof.
move=> [h1 h2] eps he; have he2 : (0 < eps / 2)%Re by lra.
have [d1 p1 q1] := rder_near h1 he2; have [d2 p2 q2] := rder_near h2 he2.
exists (Rmin d1 d2); first exact: Rmin_glb_lt.
move=> t ht; have l1 := Rmin_l d1 d2; have l2 := Rmin_r d1 d2.
apply: Rle_lt_trans (Cmod_le_sum _) _; have := q1 t; have := q2 t => /= a2 a1.
have := a1 (Rlt_le_trans _ _ _ ht l1); have := a2 (Rlt_le_trans _ _ _ ht l2); rewrite /Rminus; lra.
Qed.
Lemma near_all (I : finType) (P : I -> R -> Prop) z :
  (forall i, exists2 dl, (0 < dl)%Re & forall t, (Rabs (t - z) < dl)%Re -> P i t) ->
  exists2 dl, (0 < dl)%Re & forall t, (Rabs (t - z) < dl)%Re -> forall i, P i t.
Proof.
move=> h; suff [dl hd hh] : exists2 dl, (0 < dl)%Re & forall t, (Rabs (t - z) < dl)%Re -> forall i, i \in enum I -> P i t.
  by exists dl => // t ht i; apply: hh => //; rewrite mem_enum.
elim: (enum I) => [|i s [dl hd hh]]; first by exists 1%Re; [lra|].
have [d1 p1 q1] := h i; exists (Rmin d1 dl); first exact: Rmin_glb_lt.
move=> t ht j; rewrite in_cons => /orP [/eqP ->|hj].
  by apply: q1; apply: Rlt_le_trans ht (Rmin_l _ _).
by apply: hh => //; apply: Rlt_le_trans ht (Rmin_r _ _).
Qed.
Lemma mder_near m (f : R -> 'cV[C]_m) z d : mder f z d -> forall eps, (0 < eps)%Re -> exists2 dl, (0 < dl)%Re &
  forall t, (Rabs (t - z) < dl)%Re -> forall j, (Cmod (f t j 0%R - f z j 0%R)%R < eps)%Re.
Proof. by move=> h eps he; apply: near_all => j; apply: cder_near (h j 0) _ he. Qed.

Lemma mder_ext m k (f g : R -> 'M[C]_(m, k)) z d : f =1 g -> mder f z d -> mder g z d.
Proof. by move=> h hf i j; apply: cder_ext (hf i j) => t; rewrite h. Qed.
Lemma fwd_mder m (lam : 'rV[C]_m) k0 (cp : 'cV[C]_m) z : exists d, mder (fun t => diag_mx (fwd lam t k0) *m cp) z d.
Proof.
exists (\col_i (RtoC k0 * (- lam 0 i) * cexp (- lam 0 i * RtoC (z * k0)%Re) * cp i 0 + cexp (- lam 0 i * RtoC (z * k0)%Re) * 0)).
move=> i j; rewrite ord1 mxE; apply: cder_ext (cderM (cder_exp (- lam 0 i) k0 z) (cder_const (cp i 0) z)) => t.
by rewrite mul_diag_mx !mxE mulNr.
Qed.
Lemma bwd_mder m (lam : 'rV[C]_m) k0 (cp : 'cV[C]_m) z : exists d, mder (fun t => diag_mx (bwd lam t k0) *m cp) z d.
Proof.
have [d h] := fwd_mder (- lam) k0 cp z; exists d; apply: mder_ext h => t.
by congr (diag_mx _ *m _); apply/rowP => j; rewrite !mxE mulNr opprK.
Qed.
Lemma mder_col m k (f : R -> 'cV[C]_m) (g : R -> 'cV[C]_k) z a b : mder f z a -> mder g z b ->
  mder (fun t => col_mx (f t) (g t)) z (col_mx a b).
Proof.
move=> h1 h2 i j; rewrite mxE; case: splitP => i' hi.
  by apply: cder_ext (h1 i' j) => t; rewrite mxE; case: splitP => i2 h3; [congr (f t _ _); apply: val_inj; rewrite /= -hi -h3|move: (ltn_ord i'); rewrite -hi h3 ltnNge leq_addr].
by apply: cder_ext (h2 i' j) => t; rewrite mxE; case: splitP => i2 h3; [move: (ltn_ord i2); rewrite -h3 hi ltnNge leq_addr|congr (g t _ _); apply: val_inj; apply: (@addnI m); rewrite /= -hi -h3].
Qed.
Lemma profile_mder m W V (lam : 'rV[C]_m) k0 cp cm z : exists d, mder (profile W V lam k0 cp cm) z d.
Proof.
have [d1 h1] := fwd_mder lam k0 cp z; have [d2 h2] := bwd_mder lam k0 cm z.
eexists; apply: mder_col; first by apply: mderMc; apply: mderD h1 h2.
by apply: mderMc; apply: mderD h2 (mderN h1).
Qed.
Lemma mder_shift m k (f : R -> 'M[C]_(m, k)) a z d : mder f (z - a)%Re d -> mder (fun t => f (t - a)%Re) z d.
Proof.
have key (g : R -> R) x : rder g (z - a)%Re x -> rder (fun t => g (t - a)%Re) z x.
  move=> h eps he; have [dl hd] := h eps he; exists dl => t h0 h1.
  by have := hd t h0 h1; rewrite (_ : z - a + t = z + t - a)%Re //; ring.
by move=> h i j; have [h1 h2] := h i j; split; apply: (key (fun t => _ (f t i j))).
Qed.

(** Two continuous pieces that agree make a continuous map. *)
Lemma glue n (c : crystal n) inc z0 a (L1 L2 : R -> 'cV[C]_((n + n) + (n + n))) d1 d2 :
  mder L1 z0 d1 -> mder L2 z0 d2 -> L1 z0 = L2 z0 -> (0 < a)%Re ->
  (forall z, (z0 - a < z)%Re -> (z <= z0)%Re -> exists w, fourier_fields c z inc = Ok w /\ w.1 = L1 z) ->
  (forall z, (z0 < z)%Re -> (z < z0 + a)%Re -> exists w, fourier_fields c z inc = Ok w /\ w.1 = L2 z) ->
  fields_continuous c inc z0.
Proof.
move=> h1 h2 e ha hl hr; have [||v [hv ev]] := hl z0; [lra|lra|].
exists v; split=> // eps he.
have [r1 p1 q1] := mder_near h1 he; have [r2 p2 q2] := mder_near h2 he.
exists (Rmin a (Rmin r1 r2)); split; first by do !apply: Rmin_glb_lt.
move=> z hz; have m1 := Rmin_l a (Rmin r1 r2); have m2 := Rmin_r a (Rmin r1 r2).
have m3 := Rmin_l r1 r2; have m4 := Rmin_r r1 r2.
have [b1 b2] := Rabs_def2 _ _ hz.
case: (Rle_dec z z0) => hzz.
  have [||w [hw ew]] := hl z; [lra|lra|]; exists w; split=> // j; rewrite ew ev.
  by apply: q1; lra.
have [||w [hw ew]] := hr z; [lra|lra|]; exists w; split=> // j; rewrite ew ev e.
by apply: q2; lra.
Qed.

(** * Through a device *)
Section Stacks.
Variable n : nat.
Lemma stack_neighbours (l : seq (smat C_fieldType (n + n))) mask Sls Srs Stot i S0 Sl Sr Sl' Sr' :
  stack_layers l mask = Ok (Sls, Srs, Stot) -> (i.+1 < size l)%N ->
  nth None Sls i = Some Sl -> nth None Srs i = Some Sr -> nth None Sls i.+1 = Some Sl' -> nth None Srs i.+1 = Some Sr' ->
  redheffer_product Sl (nth S0 l i.+1) = Ok Sl' /\ redheffer_product (nth S0 l i.+1) Sr' = Ok Sr.
Proof.
move=> h hi; have hl : (0 < size l)%N by apply: leq_trans hi.
have [_ _ _ _ hn] := stack_layersP h hl.
have [Sl1 [Sr1 [a1 a2 -> ->]]] := hn i (ltnW hi); have [Sl2 [Sr2 [b1 b2 -> ->]]] := hn i.+1 hi.
case: ifP => // _ [<-]; case: ifP => // _ [<-]; case: ifP => // _ [<-]; case: ifP => // _ [<-].
split.
  by move: b1; rewrite (take_nth S0) // -cats1 chain_cat a1 /=; case: (redheffer_product _ _) => [x|//] /= [->].
by move: a2; rewrite (drop_nth S0) // rev_cons rchain_rcons b2.
Qed.
End Stacks.

Section Device.
Variables (eig : forall m, 'M[C]_m -> 'rV[C]_m * 'M[C]_m) (J1 : R -> R) (n : nat) (ei ee : C).
Implicit Types (c : crystal n).

Lemma slab_built l kp wl s kk f mo : layer_solve eig J1 n l kp wl = Ok s -> slab_form (l_form l) ->
  krows n (l_exp l) kp wl 1 = Ok kk -> free_space_eigenmodes kk.1.1 kk.1.2 = Ok f -> sl_modes s = Some mo ->
  exists S, sl_S s = Some S /\ build_scatmat mo.1.1 mo.1.2 f.1 f.2 mo.2 (l_depth l) (2 * PI / wl)%Re = Ok S.
Proof.
rewrite /layer_solve => h hf hk hfr; move: h; rewrite hk /= hfr /=.
case: (l_form l) hf => // [p|eps|isl host] _.
- case: (convolution_matrix _ _ _) => [Cm|//] /=; case: (inv Cm) => [IC|//] /=.
  case: (solve_structured_layer _ _ _ _) => [m|//] /=; case hb : (build_scatmat _ _ _ _ _ _ _) => [S|//] /= [<-].
  by case: (l_fields l) => //= -[<-]; exists S.
- case: (solve_uniform_layer _ _ _ _) => [m|//] /=; case hb : (build_scatmat _ _ _ _ _ _ _) => [S|//] /=.
  by case: (one_over eps) => [ic|//] /= [<-]; case: (l_fields l) => //= -[<-]; exists S.
- case: (analytical_matrix _ _ _ _) => [Cm|//] /=; case: (inv Cm) => [IC|//] /=.
  case: (solve_structured_layer _ _ _ _) => [m|//] /=; case hb : (build_scatmat _ _ _ _ _ _ _) => [S|//] /= [<-].
  by case: (l_fields l) => //= -[<-]; exists S.
Qed.

(** What computing the fields at place i used. *)
Lemma fields_used c' dev src sol es Ss i x0 zr inc v : solved_device eig J1 ei ee c' dev src sol es Ss ->
  (i < size dev.1.2)%N -> fourier_fields_at c' (nth x0 es i) i.+1 zr inc = Ok v ->
  exists l s mo kk f Sr' mr amp Sl Sr cd,
  [/\ nth x0 es i = (Plain l, Some s), sl_modes s = Some mo, krows n (c_exp c') (c_kp c') (s_wl src) 1 = Ok kk &
      free_space_eigenmodes kk.1.1 kk.1.2 = Ok f] /\
  [/\ dict_get (c_layers c') Sref = Some (Sr', Some mr), 
      (exists2 m, sl_modes mr = Some m & solve (layer_eigenbasis_matrix m.1.1 m.1.2) inc = Ok amp),
      nth None (r_Sls sol) i = Some Sl & nth None (r_Srs sol) i = Some Sr] /\
  [/\ (exists a b, translate_mode_amplitudes Sl Sr (usubmx amp) a b = Ok cd) &
      fourier_fields_from_mode_amplitudes (layer_eigenbasis_matrix mo.1.1 mo.1.2) mo.2 (layer_eigenbasis_matrix f.1 f.2) cd
        (2 * PI / s_wl src * (l_depth l - zr))%Re = Ok v.1].
Proof.
move=> sd hi; have [l [s [hl h2 h3 h4 h5]]] := sd_layer sd x0 (scattering_identity _ _) hi.
rewrite /fourier_fields_at hl /=; case: ifP => // _.
case hm : (sl_modes s) => [mo|//] /=; rewrite (sd_src sd) /=.
case hk : (krows _ _ _ _ _) => [kk|//] /=; case hf : (free_space_eigenmodes _ _) => [f|//] /=.
case hr : (dict_get _ Sref) => [[er or]|//] /=; case: or hr => [mr|//] hr /=.
case hmr : (sl_modes mr) => [mo'|//] /=; case hs : (solve _ inc) => [amp|//] /=.
rewrite (sd_sol sd) /=.
have hsz := @stack_layersP n Ss dev.2 _ _ _ (sd_stack sd).
have [|_ z1 z2 _ _] := hsz; first by rewrite (sd_sizeS sd) (leq_ltn_trans (leq0n i)).
rewrite (sd_sizeS sd) in z1 z2.
rewrite (py_predS None) ?z1 // (py_predS None) ?z2 //=.
case hSl : (nth None (r_Sls sol) i) => [Sl|//] /=; case hSr : (nth None (r_Srs sol) i) => [Sr|//] /=.
case ht : (translate_mode_amplitudes _ _ _ _ _) => [cd|//] /=.
case hv : (fourier_fields_from_mode_amplitudes _ _ _ _ _) => [v'|//] /=.
case: (sl_IC s) => [ic|//] /= [<-].
exists l, s, mo, kk, f, er, mr, amp, Sl, Sr, cd; split=> //; split; split=> //; first by exists mo'.
by do 2 eexists; exact: ht.
Qed.

Definition gap_at (sol : solution n) (c1p : 'cV[C]_(n + n)) i : 'cV[C]_(n + n) * 'cV[C]_(n + n) :=
  match nth None (r_Sls sol) i, nth None (r_Srs sol) i with
  | Some Sl, Some Sr => if translate_mode_amplitudes Sl Sr c1p 0 0 is Ok cd then cd else (0, 0)
  | _, _ => (0, 0)
  end.

Lemma place_modes c' dev src sol es Ss x0 inc : solved_device eig J1 ei ee c' dev src sol es Ss ->
  (forall i, (i <= size dev.1.1)%N -> exists zr v, fourier_fields_at c' (nth x0 es i) i.+1 zr inc = Ok v) ->
  exists f c1p, [/\ (exists2 kk, krows n (c_exp c') (c_kp c') (s_wl src) 1 = Ok kk & free_space_eigenmodes kk.1.1 kk.1.2 = Ok f),
    (exists m amp, [/\ named_modes c' Sref = Ok m, solve (layer_eigenbasis_matrix m.1.1 m.1.2) inc = Ok amp & c1p = usubmx amp]) &
    forall i, (i <= size dev.1.1)%N -> exists l s mo cp cm,
    let L := profile mo.1.1 mo.1.2 mo.2 (2 * PI / s_wl src)%Re cp cm in
    nth x0 es i = (Plain l, Some s) /\ sl_modes s = Some mo /\
    [/\ (forall zr v, calm mo.2 (2 * PI / s_wl src * (l_depth l - zr))%Re ->
          fourier_fields_at c' (nth x0 es i) i.+1 zr inc = Ok v -> v.1 = L zr),
        L (l_depth l) = stacked (tangential f.1 f.2 (gap_at sol c1p i).1 (gap_at sol c1p i).2) &
        (0 < i)%N -> L 0%Re = stacked (tangential f.1 f.2 (gap_at sol c1p i.-1).1 (gap_at sol c1p i.-1).2)]].
Proof.
move=> sd H; have sz : size dev.1.2 = (size dev.1.1).+2 by rewrite (sd_names sd) /= size_rcons.
have [zr0 [v0 h0]] := H 0%N isT.
have [|l0 [s0 [mo0 [kk [f [Sr0 [mr [amp [Sl [Sr [cd [[a1 a2 hk hf] [[a5 [m0 hm0 hamp] a7 a8] [a9 a10]]]]]]]]]]]]]] := fields_used sd _ h0.
  by rewrite sz.
exists f, (usubmx amp); split; [by exists kk | by exists m0, amp; split; rewrite // /named_modes a5 /= hm0 |].
move=> {l0 s0 mo0 Sl Sr cd a1 a2 a7 a8 a9 a10 zr0 v0 h0}.
have used i zr v : (i <= size dev.1.1)%N -> fourier_fields_at c' (nth x0 es i) i.+1 zr inc = Ok v ->
    exists l s mo Sl Sr, [/\ nth x0 es i = (Plain l, Some s), sl_modes s = Some mo, nth None (r_Sls sol) i = Some Sl &
      nth None (r_Srs sol) i = Some Sr] /\
      translate_mode_amplitudes Sl Sr (usubmx amp) 0 0 = Ok (gap_at sol (usubmx amp) i) /\
      fourier_fields_from_mode_amplitudes (layer_eigenbasis_matrix mo.1.1 mo.1.2) mo.2 (layer_eigenbasis_matrix f.1 f.2)
        (gap_at sol (usubmx amp) i) (2 * PI / s_wl src * (l_depth l - zr))%Re = Ok v.1.
  move=> hi h; have [|l0 [s0 [mo0 [kk' [f' [Sr0' [mr' [amp' [Sl [Sr [cd [[b1 b2 b3 b4] [[b5 [m1 b6 b6'] b7 b8] [[a [b b9]] b10]]]]]]]]]]]]]] := fields_used sd _ h.
    by rewrite sz ltnS (leq_trans hi).
  have e1 : kk' = kk by move: b3; rewrite hk => -[].
  subst kk'; have e2 : f' = f by move: b4; rewrite hf => -[].
  subst f'; have e3 : mr' = mr by move: b5; rewrite a5 => -[].
  subst mr'; have e4 : m1 = m0 by move: b6; rewrite hm0 => -[].
  subst m1; have e5 : amp' = amp by move: b6'; rewrite hamp => -[].
  subst amp'; have e6 : cd = gap_at sol (usubmx amp) i by rewrite /gap_at b7 b8 (_ : translate_mode_amplitudes Sl Sr (usubmx amp) 0 0 = Ok cd).
  by rewrite -e6; exists l0, s0, mo0, Sl, Sr; split.
move=> i hi; have [zr1 [v1 h1]] := H i hi.
have [l [s [mo [Sl [Sr [[b1 b2 b3 b4] [b5 b6]]]]]]] := used _ _ _ hi h1.
have hi2 : (i < size dev.1.2)%N by rewrite sz ltnS (leq_trans hi).
have [l' [s' [e1 e2 e3 e4 e5]]] := sd_layer sd x0 (scattering_identity _ _) hi2.
have {e1} [el es'] : l' = l /\ s' = s by move: e1; rewrite b1 => -[-> ->].
subst l' s'.
set k0 := (2 * PI / s_wl src)%Re in b6 *.
have [cp [cm [hr hl]]] : exists cp cm,
   tangential mo.1.1 mo.1.2 (diag_mx (fwd mo.2 (l_depth l) k0) *m cp) (diag_mx (bwd mo.2 (l_depth l) k0) *m cm) =
     tangential f.1 f.2 (gap_at sol (usubmx amp) i).1 (gap_at sol (usubmx amp) i).2 /\
   ((0 < i)%N -> tangential mo.1.1 mo.1.2 cp cm = tangential f.1 f.2 (gap_at sol (usubmx amp) i.-1).1 (gap_at sol (usubmx amp) i.-1).2).
  case: i hi h1 b1 b3 b4 b5 b6 hi2 e3 e5 => [|i] hi h1 b1 b3 b4 b5 b6 hi2 e3 e5.
    have dz : l_depth l = 0%Re.
      by case: e5 => l1 [[<-] _]; rewrite (sd_names sd) /= => -[].
    move: b6; rewrite /fourier_fields_from_mode_amplitudes /solve dz; case: ifP => //= u _.
    pose x := invmx (layer_eigenbasis_matrix mo.1.1 mo.1.2) *m (layer_eigenbasis_matrix f.1 f.2 *m col_mx (gap_at sol (usubmx amp) 0).1 (gap_at sol (usubmx amp) 0).2).
    exists (usubmx x), (dsubmx x); split=> //.
    rewrite fwd0 bwd0 !diag_const_mx !mul1mx; apply: stacked_inj; rewrite -!eigenbasisE vsubmxK.
    by rewrite /x mulKVmx.
  have [zr2 [v2 h2]] := H i (ltnW hi).
  have [_ [_ [_ [Sl' [Sr' [[_ _ c3 c4] [c5 _]]]]]]] := used _ _ _ (ltnW hi) h2.
  have hnm : nth ""%string dev.1.2 i.+1 \in dev.1.1.
    by rewrite (sd_names sd) /= nth_rcons hi mem_nth.
  have hsf : slab_form (l_form l).
    by case: e5 => l1 [[<-] _]; have [-> ->] := user_neq (sd_user sd hnm).
  have [Si [hSi hb]] := slab_built e2 hsf (etrans (congr1 (fun e => krows n e _ _ _) e4) hk) hf b2.
  have [r1 r2] := stack_neighbours (scattering_identity _ _) (sd_stack sd) (etrans (congr1 (leq _) (sd_sizeS sd)) hi2) c3 c4 b3 b4.
  have eS : Si = nth (scattering_identity _ _) Ss i.+1 by move: e3; rewrite hSi => -[].
  rewrite -eS in r1 r2.
  move: b5 c5; case: (gap_at _ _ i.+1) => bp bm; case hg : (gap_at _ _ i) => [ap am] b5 c5.
  have hsc := gap_step r1 r2 c5 b5.
  have [cp [cm [q1 q2]]] := (layer_responseP _ _ _ _ hb).2 hsc.
  by exists cp, cm; split=> // _ ; rewrite -q1 ?hg.
exists l, s, mo, cp, cm; split=> //; split=> //; split.
- move=> zr v hc /(used _ _ _ hi) [l' [s' [mo' [_ [_ [[c1 c2 _ _] [_ c4]]]]]]].
  have [el es'] : l' = l /\ s' = s by move: c1; rewrite b1 => -[-> ->].
  subst l' s'; have em : mo' = mo by move: c2; rewrite b2 => -[].
  subst mo'; move: c4 hr; case: (gap_at _ _ _) => gp gm c4 hr; exact: (fields_profile hc c4).
- by rewrite /profile hr.
- by move=> h; rewrite profile0 hl.
Qed.

Lemma place_profile c' dev src sol es Ss x0 inc : solved_device eig J1 ei ee c' dev src sol es Ss ->
  (forall i, (i <= size dev.1.1)%N -> exists zr v, fourier_fields_at c' (nth x0 es i) i.+1 zr inc = Ok v) ->
  exists f c1p, [/\ (exists2 kk, krows n (c_exp c') (c_kp c') (s_wl src) 1 = Ok kk & free_space_eigenmodes kk.1.1 kk.1.2 = Ok f),
    (exists m amp, [/\ named_modes c' Sref = Ok m, solve (layer_eigenbasis_matrix m.1.1 m.1.2) inc = Ok amp & c1p = usubmx amp]) &
    forall i, (i <= size dev.1.1)%N -> exists l s mo L,
    [/\ nth x0 es i = (Plain l, Some s), sl_modes s = Some mo & forall z, exists d, mder L z d] /\
    [/\ (forall zr v, calm mo.2 (2 * PI / s_wl src * (l_depth l - zr))%Re ->
          fourier_fields_at c' (nth x0 es i) i.+1 zr inc = Ok v -> v.1 = L zr),
        L (l_depth l) = stacked (tangential f.1 f.2 (gap_at sol c1p i).1 (gap_at sol c1p i).2) &
        (0 < i)%N -> L 0%Re = stacked (tangential f.1 f.2 (gap_at sol c1p i.-1).1 (gap_at sol c1p i.-1).2)]].
Proof.
move=> sd H; have [f [c1p [h1 h2 HP]]] := place_modes sd H; exists f, c1p; split=> // i hi.
have [l [s [mo [cp [cm [k1 [k2 k3]]]]]]] := HP i hi.
by exists l, s, mo, (profile mo.1.1 mo.1.2 mo.2 (2 * PI / s_wl src)%Re cp cm); do !split=> //; case: k3 => // *; exact: profile_mder.
Qed.

Lemma ln_big : (0 < ln big_phasor)%Re.
Proof. by rewrite -ln_1; apply: ln_increasing; rewrite /big_phasor; lra. Qed.
Lemma calm_near m (lam : 'rV[C]_m) (k0 : R) : exists2 dl, (0 < dl)%Re &
  forall t, (Rabs (t - 0) < dl)%Re -> calm lam (k0 * (0 - t))%Re.
Proof.
apply: near_all => j; set a := (fst (lam ord0 j) * k0)%Re.
have ha := Rabs_pos a; have hl := ln_big; have h1 : (0 < 1 + Rabs a)%Re by lra.
exists (ln big_phasor / (1 + Rabs a))%Re; first by apply: Rdiv_lt_0_compat; lra.
move=> t; rewrite Rminus_0_r => ht.
have -> : (fst (lam ord0 j) * (k0 * (0 - t)) = a * - t)%Re by rewrite /a; ring.
rewrite Rabs_mult Rabs_Ropp.
have : (Rabs t * (1 + Rabs a) <= ln big_phasor)%Re.
  by apply: Rlt_le; apply/(Rmult_lt_reg_r (/ (1 + Rabs a))); [apply: Rinv_0_lt_compat|rewrite Rmult_assoc Rinv_r ?Rmult_1_r; lra].
have := Rabs_pos t; nra.
Qed.
Lemma calm_inside m (lam : 'rV[C]_m) (k0 d zr : R) :
  (forall j, (Rabs (fst (lam 0%R j)) * Rabs k0 * d < ln big_phasor)%Re) -> (0 <= zr)%Re -> (zr <= d)%Re ->
  calm lam (k0 * (d - zr))%Re.
Proof.
move=> h h0 h1 j; have := h j; rewrite !Rabs_mult (Rabs_pos_eq (d - zr)); last lra.
move=> hj; have p1 := Rabs_pos (fst (lam 0%R j)); have p2 := Rabs_pos k0.
have p3 : (0 <= Rabs (fst (lam 0%R j)) * Rabs k0)%Re by apply: Rmult_le_pos.
nra.
Qed.
Lemma find_layer ds z k : (0 < z)%Re -> (z <= depth_before ds k)%Re ->
  exists i, [/\ (i < k)%N, (depth_before ds i < z)%Re & (z <= depth_before ds i.+1)%Re].
Proof.
move=> h0; elim: k => [|k IH] hk; first by move: hk; rewrite depth_before0; lra.
case: (Rle_dec z (depth_before ds k)) => hz; last by exists k; split=> //; lra.
by have [i [h1 h2 h3]] := IH hz; exists i; split=> //; exact: ltnW.
Qed.

Lemma device_continuous c c' ds inc z0 : own_crystal ei ee c -> step eig J1 c Solve c' -> device_depths c' ds ->
  all_positive ds -> unclipped c' -> (forall z, exists v, fourier_fields c' z inc = Ok v) ->
  (0 <= z0)%Re -> (z0 < depth_before ds (size ds))%Re -> fields_continuous c' inc z0.
Proof.
move=> ho hs hd hp hu hall hz0 hzD.
have hn : nonneg ds.
  move=> i; case: (ltnP i (size ds)) => hi; first by apply: Rlt_le; exact: hp.
  by rewrite nth_default //; lra.
have [dev [src [sol [es [Ss sd]]]]] := solve_device ho hs.
have hloc z := locate z (own_outer ho) hs hd hn.
have [dev' [d1 d2 d3]] := hd; have e : dev' = dev by move: d1; rewrite (sd_dev sd) => -[].
subst dev'; have sz : size dev.1.2 = (size dev.1.1).+2 by rewrite (sd_names sd) /= size_rcons.
have x0 : entry n by case: (es) (sd_size sd) => [|x]; rewrite ?sz.
have F0 z : (z <= 0)%Re -> fourier_fields c' z inc = fourier_fields_at c' (nth x0 es 0) 1 z inc.
  move=> hz; have [dv [ed [hh _ _]]] := hloc z; have [x [hx hr]] := hh hz.
  rewrite /fourier_fields hr /=; congr fourier_fields_at.
  by have := sd_get sd x0 (i := 0%N); rewrite sz (sd_names sd) /= hx => /(_ isT) [].
have Fi z i : (i < size ds)%N -> (depth_before ds i < z)%Re -> (z <= depth_before ds i.+1)%Re ->
    fourier_fields c' z inc = fourier_fields_at c' (nth x0 es i.+1) i.+2 (z - depth_before ds i)%Re inc.
  move=> hi h1 h2; have [dv [ed [_ _ hh]]] := hloc z; have [x [hx hr]] := hh i hi h1 h2.
  have e : dv = dev by move: ed; rewrite (sd_dev sd) => -[].
  subst dv; rewrite /fourier_fields hr /=; congr fourier_fields_at.
  have := sd_get sd x0 (i := i.+1); rewrite sz (sd_names sd) /= nth_rcons -d2 hi hx => hh2.
  by have [] := hh2 (leqW hi).
have H i : (i <= size dev.1.1)%N -> exists zr v, fourier_fields_at c' (nth x0 es i) i.+1 zr inc = Ok v.
  case: i => [_|i hi].
    by have [v hv] := hall 0%Re; exists 0%Re, v; rewrite -F0 //; lra.
  have [v hv] := hall (depth_before ds i.+1); exists (depth_before ds i.+1 - depth_before ds i)%Re, v.
  rewrite -Fi ?d2 //; last by lra.
  by rewrite depth_beforeS; have := hp i; rewrite d2 => /(_ hi); lra.
have [f [c1p [_ _ HP]]] := place_profile sd H.
have slab i : (i < size ds)%N -> exists L, [/\ forall z, exists d, mder L z d,
    (forall z, (depth_before ds i < z)%Re -> (z <= depth_before ds i.+1)%Re ->
       exists w, fourier_fields c' z inc = Ok w /\ w.1 = L (z - depth_before ds i)%Re),
    L (nth 0%Re ds i) = stacked (tangential f.1 f.2 (gap_at sol c1p i.+1).1 (gap_at sol c1p i.+1).2) &
    L 0%Re = stacked (tangential f.1 f.2 (gap_at sol c1p i).1 (gap_at sol c1p i).2)].
  move=> hi; have hi' : (i.+1 <= size dev.1.1)%N by rewrite -d2.
  have [l [s [mo [L [[k1 k2 k3] [k4 k5 k6]]]]]] := HP i.+1 hi'.
  have hg := sd_get sd x0 (i := i.+1); rewrite sz (sd_names sd) /= nth_rcons hi' k1 in hg.
  have {}hg := hg (leqW hi').
  have [x [hx ed]] := d3 i hi; have ex : x = (Plain l, Some s) by move: hx; rewrite hg => -[].
  rewrite ex /= in ed; exists L; split=> //; last 1 first.
  - exact: k6.
  - move=> z h1 h2; have [w hw] := hall z; exists w; split=> //.
    apply: k4; last by rewrite -Fi.
    apply: calm_inside; first last.
    + by rewrite ed; move: h2; rewrite depth_beforeS; lra.
    + lra.
    + move=> j; apply: (hu _ _ _ _ _ _ (sd_dev sd) (sd_src sd) _ hg k2).
      by rewrite mem_nth.
  - by rewrite -ed.
case: (Req_dec z0 0) => [e0|ne0].
  subst z0; have hs0 : (0 < size ds)%N.
    by move: hzD; case: (size ds) => //; rewrite depth_before0; lra.
  have [L2 [m2 f2 _ g2]] := slab 0%N hs0.
  have [l [s [mo [L1 [[k1 k2 k3] [k4 k5 _]]]]]] := HP 0%N isT.
  have dz : l_depth l = 0%Re.
    have hi2 : (0 < size dev.1.2)%N by rewrite sz.
    have [l' [s' [e1 _ _ _ e5]]] := sd_layer sd x0 (scattering_identity _ _) hi2.
    have el : l' = l by move: e1; rewrite k1 => -[->].
    by subst l'; case: e5 => l1 [[<-] _]; rewrite (sd_names sd) /= => -[].
  rewrite dz in k4 k5.
  have [r hr hc] := calm_near mo.2 (2 * PI / s_wl src)%Re.
  have [dd1 hd1] := k3 0%Re; have [dd2 hd2] := m2 0%Re.
  have hp0 := hp 0%N hs0; have hm := Rmin_l r (nth 0%Re ds 0); have hm' := Rmin_r r (nth 0%Re ds 0).
  apply: (@glue _ _ _ _ (Rmin r (nth 0%Re ds 0)) _ _ _ _ hd1 hd2); first by rewrite k5 g2.
  - exact: Rmin_glb_lt.
  - move=> z h1 h2; have [w hw] := hall z; exists w; split=> //; apply: k4; last by rewrite -F0.
    by apply: hc; rewrite Rminus_0_r /Rabs; case: Rcase_abs; lra.
  - move=> z h1 h2; have [||w [hw ew]] := f2 z; rewrite ?depth_before0; first lra.
      by rewrite depth_beforeS depth_before0; lra.
    by exists w; split=> //; rewrite ew depth_before0 Rminus_0_r.
have [||i [hi h1 h2]] := @find_layer ds z0 (size ds); [lra|lra|].
have [L1 [m1 f1 g1 _]] := slab i hi; have [dd1 hd1] := m1 (z0 - depth_before ds i)%Re.
have hd1' := mder_shift hd1.
case: (Rlt_dec z0 (depth_before ds i.+1)) => hlt.
  apply: (@glue _ _ _ _ (Rmin (z0 - depth_before ds i) (depth_before ds i.+1 - z0)) _ _ _ _ hd1' hd1') => //.
  - by apply: Rmin_glb_lt; lra.
  - by move=> z h3 h4; apply: f1; have := Rmin_l (z0 - depth_before ds i) (depth_before ds i.+1 - z0); lra.
  - by move=> z h3 h4; apply: f1; have := Rmin_r (z0 - depth_before ds i) (depth_before ds i.+1 - z0); lra.
have e0 : z0 = depth_before ds i.+1 by lra.
have hi1 : (i.+1 < size ds)%N.
  rewrite ltn_neqAle hi andbT; apply/eqP => ee1; rewrite ee1 in e0; lra.
have [L2 [m2 f2 _ g2]] := slab i.+1 hi1; have [dd2 hd2] := m2 (z0 - depth_before ds i.+1)%Re.
have hp1 := hp _ hi1; have hp2 := hp _ hi.
have hm := Rmin_l (nth 0%Re ds i) (nth 0%Re ds i.+1); have hm' := Rmin_r (nth 0%Re ds i) (nth 0%Re ds i.+1).
apply: (@glue _ _ _ _ (Rmin (nth 0%Re ds i) (nth 0%Re ds i.+1)) _ _ _ _ hd1' (mder_shift hd2)).
- rewrite (_ : z0 - depth_before ds i = nth 0%Re ds i)%Re; last by rewrite e0 depth_beforeS; ring.
  by rewrite (_ : z0 - depth_before ds i.+1 = 0)%Re ?g1 ?g2 //; rewrite e0; ring.
- exact: Rmin_glb_lt.
- by move=> z h3 h4; apply: f1; [move: h3; rewrite e0 depth_beforeS; lra|lra].
- by move=> z h3 h4; apply: f2; [lra|rewrite (depth_beforeS ds i.+1); lra].
Qed.
End Device.
