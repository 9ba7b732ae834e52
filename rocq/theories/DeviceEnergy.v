(** Energy balance of a whole device, for every history of calls. *)
From Coq Require Import Reals ZArith Lra Lia String.
From mathcomp Require Import all_ssreflect all_algebra.
From Coquelicot Require Import Complex Rbar.
From Verif Require Import Base ZmodTac CField CFun ModelRedheffer SpecScatter RedhefferProofs ModelLayer SpecLayer SpecEig
  LayerProofs LayerApiProofs ModelExpansion SpecExpansion ExpansionProofs ModelFlux SpecFlux SpecEnergy EnergyAlg
  FluxProofs IncidentProofs OuterFlux ModelFourier SpecFourier FourierProofs ModelExtension ModelDevice SpecDevice
  StringEq DeviceProofs AnalyticalProofs.
Set Implicit Arguments. Unset Strict Implicit. Unset Printing Implicit Defensive.
Import GRing.Theory.
Local Open Scope ring_scope.

Section Energy.
Variables (eig : forall m, 'M[C]_m -> 'rV[C]_m * 'M[C]_m) (J1 : R -> R) (n : nat).
Hypothesis heig : eigen_equation eig.
Variable strict : bool.
Let le : R -> R -> Prop := if strict then eq else Rle.
Let good_op m (A : 'M[C]_m) := if strict then lossless_op A else passive_op A.
Let good_depth (d : R) := if strict then True else (0 <= d)%Re.

Lemma le_reflx x : le x x.
Proof. rewrite /le; case: strict => //; exact: Rle_refl. Qed.
Lemma le_transx x y z : le x y -> le y z -> le x z.
Proof. rewrite /le; case: strict; first by move=> -> ->. exact: Rle_trans. Qed.

Lemma diss_conserves m (S : smat C_fieldType m) fl fr : conserves S fl fr -> dissipates le S fl fr.
Proof. move=> h a1 a2 b1 b2 /h ->; exact: le_reflx. Qed.

Lemma slab_good kx ky Cm (W V W0 V0 : 'M[C]_(n + n)) lam d k0 S : real_row kx -> real_row ky ->
  Cm \in unitmx -> modal_decomposition (structured_P kx ky (invmx Cm)) (structured_Q kx ky Cm) W V lam ->
  build_scatmat W V W0 V0 lam d k0 = Ok S -> good_op Cm -> (0 <= k0)%Re -> good_depth d ->
  dissipates le S (port_flux W0 V0) (port_flux W0 V0).
Proof.
move=> rx ry uC md hS; rewrite /good_op /good_depth /le; case: strict => hC hk hd.
  by move=> a1 a2 b1 b2 /(slab_conserves rx ry uC md hS hC) ->.
exact: (slab_dissipates rx ry uC md hS hC hk hd).
Qed.

Lemma eig_diagonalises kx ky Cm (W V W0 V0 : 'M[C]_(n + n)) lam d k0 S :
  solve_structured_layer (@eig _) kx ky Cm = Ok (W, V, lam) ->
  build_scatmat W V W0 V0 lam d k0 = Ok S ->
  let M := structured_P kx ky (invmx Cm) *m structured_Q kx ky Cm in diagonalises M (eig M).
Proof.
move=> h hS M; split; last exact: heig.
have [uW _] := build_scatmat_unit hS; move: h; rewrite /solve_structured_layer /inv.
case: ifP => //= _; rewrite -/M; case: (eig M) => l2 W' /=; case: (divcols _ _) => // V' [e _ _].
by rewrite e.
Qed.

Definition good_form (f : formulation) : Prop :=
  match f with
  | FFT p => if strict then real_picture p else passive_picture p
  | UNIFORM eps => if strict then snd eps = 0%Re else (snd eps <= 0)%Re
  | ANALYTICAL isl h => strict /\ snd h = 0%Re /\ forall i, (i < size isl)%N -> snd (nth (OtherShape, 0) isl i).2 = 0%Re
  | _ => False
  end.

Lemma layer_good l kp wl s k f : good_form (l_form l) -> good_depth (l_depth l) -> (0 < wl)%Re ->
  snd kp.1 = 0%Re -> snd kp.2 = 0%Re ->
  krows n (l_exp l) kp wl 1 = Ok k -> free_space_eigenmodes k.1.1 k.1.2 = Ok f ->
  layer_solve eig J1 n l kp wl = Ok s ->
  exists2 S, sl_S s = Some S & dissipates le S (port_flux f.1 f.2) (port_flux f.1 f.2).
Proof.
move=> hf hd hw hx hy hk hfr; rewrite /layer_solve hk /= hfr /=.
have [rx ry] : real_row k.1.1 /\ real_row k.1.2.
  by move: hk; case: (k) => [[a b] c] /= hk; exact: krows_real hk.
have hk0 : (0 <= 2 * PI / wl)%Re by apply: Rlt_le; apply: k0_pos.
have structured Cm (s' : solved n) : good_op Cm ->
  (do IC <- inv Cm; do m <- solve_structured_layer (eig (m:=_)) k.1.1 k.1.2 Cm;
   do S <- build_scatmat m.1.1 m.1.2 f.1 f.2 m.2 (l_depth l) (2 * PI / wl);
   Ok (if l_fields l then Solved (Some S) (Some m) (Some (inr IC)) None
       else Solved (Some S) None None None)) = Ok s' ->
  exists2 S, sl_S s' = Some S & dissipates le S (port_flux f.1 f.2) (port_flux f.1 f.2).
  move=> gC; case: (inv Cm) => [IC|//] /=; case hm : (solve_structured_layer _ _ _ _) => [[[W V] lam]|//] /=.
  case hS : (build_scatmat _ _ _ _ _ _ _) => [S|//] /= [<-].
  exists S; first by case: ifP.
  have [uC md] := structured_modal (eig_diagonalises hm hS) hm.
  exact: (slab_good rx ry uC md hS gC hk0 hd).
move: hf; rewrite /good_form; case: (l_form l) => [p|eps|isl h|eps|eps|] // gf.
- case hC : (convolution_matrix _ _ _) => [Cm|//] /=; apply: structured.
  rewrite /good_op; move: gf; case: (strict) => gf.
    exact: (conv_lossless hC gf).
  exact: (conv_passive hC gf).
- case hm : (solve_uniform_layer _ _ _ _) => [[[W V] lam]|//] /=.
  case hS : (build_scatmat _ _ _ _ _ _ _) => [S|//] /=; case: (one_over eps) => [ic|//] /= [<-].
  exists S; first by case: ifP.
  have [uC md] := uniform_modal hm.
  apply: (slab_good rx ry uC md hS _ hk0 hd); rewrite /good_op; move: gf; case: (strict) => gf.
    exact: scalar_lossless.
  exact: scalar_passive.
- case hC : (analytical_matrix _ _ _ _ _) => [Cm|//] /=; apply: structured.
  case: gf => st [gh gi]; rewrite /good_op st; exact: (analytical_lossless gh gi hC).
Qed.

(** * Invariant of histories *)
Section Invariant.
Variables (ei ee : R).
Definition good_entry (e : expansion) (k : string) (o : layer_obj) : Prop :=
  exists l, [/\ o = Plain l, l_exp l = e &
    if k == Sref then l_form l = HALF_SPACE_INC (RtoC ei)
    else if k == Strans then l_form l = HALF_SPACE_TRN (RtoC ee)
    else good_form (l_form l) /\ good_depth (l_depth l)].
Definition good_dict (e : expansion) (d : seq (string * entry n)) : Prop :=
  forall k x, dict_get d k = Some x -> good_entry e k x.1.
Record good_crystal (c : crystal n) : Prop := GoodCrystal
  { g_void : c_void c = false; g_epsi : c_epsi c = RtoC ei; g_epse : c_epse c = RtoC ee;
    g_exp : built (c_exp c); g_dict : good_dict (c_exp c) (c_layers c);
    g_src : forall src, c_source c = Some src ->
      c_kzi c = source_kzi (2 * PI / s_wl src)%Re (c_epsi c) (c_kp c);
    g_dev : forall dev, c_device c = Some dev ->
      dev.1.2 = Sref :: rcons dev.1.1 Strans /\ user_stack dev.1.1 }.

Lemma good_set e d k x : good_dict e d -> good_entry e k x.1 -> good_dict e (dict_set d k x).
Proof. by move=> h hx k' y; rewrite dict_get_set; case: eqP => [<- [<-]|_ /h]. Qed.
Lemma user_neq k : user_name k -> ((k == Sref) = false) /\ ((k == Strans) = false).
Proof. by case=> /eqP h1 /eqP h2; rewrite (negbTE h1) (negbTE h2). Qed.
Lemma good_add e d k l : good_dict e d -> user_name k -> l_exp l = e -> good_form (l_form l) ->
  good_depth (l_depth l) -> good_dict e (dict_set d k (Plain l, None)).
Proof.
move=> h /user_neq [h1 h2] he hf hd; apply: good_set => //; exists l; split=> //.
by rewrite h1 h2.
Qed.
Lemma good_enable e k b o : good_entry e k o -> good_entry e k (obj_enable b o).
Proof. by case=> l [-> he h]; exists (Layer (l_exp l) (l_form l) (l_depth l) (l_fields l || b)). Qed.
Lemma good_enable_fields e d l d' : good_dict e d -> enable_fields d l = Ok d' -> good_dict e d'.
Proof.
elim: l d => [|[name b] l IH] d hd /=; first by case=> <-.
case hg : (dict_get d name) => [x|//] /=; apply: IH; apply: good_set => //=.
by apply: good_enable; apply: hd hg.
Qed.
Lemma good_default d req name type e eps : good_dict e d ->
  good_entry e name (obj_enable true (Plain (half_infinite e type eps))) ->
  good_dict e (add_default d req name type e eps).
Proof. by move=> hd hx; rewrite /add_default; case: ifP => // _; apply: good_set. Qed.

Lemma created_good c : created c false (RtoC ei) (RtoC ee) -> good_crystal c.
Proof.
case.
  case=> pw [l [a]]; rewrite /mk_crystal; case: (crystal_lattice a l) => [lat|//] /=.
  case he : (mk_expansion pw lat) => [e|//] /=; case: ifP => // _ [<-].
  by split=> //=; exact: built_init he.
case=> e [l [a [he]]]; rewrite /from_expansion; case: (mk_crystal _ _ _ _ _ _ _) => [c0|//] /= [<-].
by split.
Qed.

Lemma with_layers_good c d : good_crystal c -> good_dict (c_exp c) d -> good_crystal (with_layers c d).
Proof. by case. Qed.

Lemma const_real p : ~~ ((a_rows p == 0%N) || (a_cols p == 0%N)) ->
  (if strict then real_picture p else passive_picture p) -> good_form (UNIFORM (a_at p 0 0)).
Proof.
rewrite negb_or -!lt0n => /andP [h1 h2] /=; case: strict => h; exact: h.
Qed.

Lemma step_good c o c' : good_crystal c -> (if strict then lossless_call o else passive_call o) ->
  step eig J1 c o c' -> good_crystal c'.
Proof.
move=> g ho hs; case: hs ho => {o c'}.
- move=> name eps d ho; apply: with_layers_good => //; move: ho; have h := g_dict g.
  rewrite /good_form /good_depth => ho.
  have [h1 [h2 h3]] : user_name name /\ (if strict then snd eps = 0%Re else (snd eps <= 0)%Re) /\ good_depth d.
    by move: ho; rewrite /good_depth; case: (strict) => /= -[? ?].
  exact: good_add.
- move=> name p d ho; apply: with_layers_good => //; have h := g_dict g.
  have [h1 [h2 h3]] : user_name name /\ (if strict then real_picture p else passive_picture p) /\ good_depth d.
    by move: ho; rewrite /good_depth; case: (strict) => /= -[? ?].
  exact: good_add.
- move=> name p d c'; rewrite /add_pixmap_or_uniform /pixmap_or_uniform; case: ifP => // /negbT hp.
  move=> hs ho; have h := g_dict g.
  have [h1 [h2 h3]] : user_name name /\ (if strict then real_picture p else passive_picture p) /\ good_depth d.
    by move: ho; rewrite /good_depth; case: (strict) => /= -[? ?].
  move: hs; case: ifP => _ /= -[<-]; apply: with_layers_good => //; apply: good_add => //.
  exact: const_real.
- move=> name isl hst d ho; apply: with_layers_good => //; have h := g_dict g.
  move: ho => /= ho.
  have [h1 [h2 h3]] : user_name name /\ good_form (ANALYTICAL isl hst) /\ good_depth d.
    by move: ho; rewrite /good_depth /good_form; case: (strict) => //= -[? [? ?]].
  exact: good_add.
- by move=> name l; case: (strict).
- by move=> name who l c'; case: (strict).
- move=> stack mask c'; rewrite /set_device (g_void g).
  case hd : (enable_fields _ _) => [d|//] /= [<-] ho.
  have hu : user_stack stack by move: ho; case: (strict).
  split=> //=; try by case: g.
  + apply: good_enable_fields hd; apply: good_default; first apply: good_default.
    * exact: g_dict.
    * by eexists; split; [reflexivity|by []|rewrite /= (g_epsi g)].
    * by eexists; split; [reflexivity|by []|rewrite /= (g_epse g)].
  + by move=> dev [<-].
- move=> wl te tm th ph kp c'; rewrite /set_source.
  case: (match kp with Some _ => _ | None => _ end) => [k|//] /=.
  destruct (Req_EM_T wl 0) as [h0|h0] => // -[<-] _; case: g => *; split=> //= src [<-] //.
- move=> order c' _; rewrite /crystal_solve.
  case hsrc : (c_source c) => [src|//] /=; case hdev : (c_device c) => [dev|//] /=.
  case hd : (solve_all _ _ _ _ _ _) => [d|//] /=.
  case: (mapM _ _) => [es|//] /=; case: (stack_positions _ _) => [pos|//] /=.
  case: (mapM _ _) => [Ss|//] /=; case: (stack_layers _ _) => [st|//] /= [<-] _.
  have g' := g; case: g' => gv g1 g2 g3 g4 g5 g6; split=> //=; try by rewrite -?hsrc -?hdev.
  move=> k x hx; have [_ /(_ k)] := solve_all_ok hd; case: ifP => _; last by rewrite hx => /esym /g4.
  by case=> x0 [s [h1 h2]]; rewrite hx => -[->] /=; apply: g4 h1.
Qed.
Lemma history_good c ops c' : good_crystal c ->
  all_calls (if strict then lossless_call else passive_call) ops ->
  history eig J1 c ops c' -> good_crystal c'.
Proof.
move=> g h hh; elim: hh g h => {c ops c'} [//|c o ops c1 c2 hs _ IH] g [h1 h2]; apply: IH => //.
by apply: step_good hs => //; move: h1; case: (strict).
Qed.

(** * The last solve *)
Lemma mapM_rcons A B (f : A -> res B) l x ys : mapM f (rcons l x) = Ok ys ->
  exists ys' y, [/\ mapM f l = Ok ys', f x = Ok y & ys = rcons ys' y].
Proof.
move/mapMP; rewrite map_rcons; case/lastP: ys => [|ys y]; first by case: (map f l).
by rewrite map_rcons => /rcons_inj [/mapMP h1 h2]; exists ys, y.
Qed.
Lemma mapM_all (A : eqType) B (f : A -> res B) (P : B -> Prop) l ys :
  (forall x y, x \in l -> f x = Ok y -> P y) -> mapM f l = Ok ys -> List.Forall P ys.
Proof.
elim: l ys => [|x l IH] ys h /=; first by case=> <-.
case hx : (f x) => [y|//] /=; case hl : (mapM f l) => [zs|//] /= [<-]; constructor.
  by apply: h hx; rewrite mem_head.
by apply: IH hl => z w hz; apply: h; rewrite in_cons hz orbT.
Qed.
Lemma mapM_bind A B D (f : A -> res B) (g : B -> res D) l ys zs :
  mapM f l = Ok ys -> mapM g ys = Ok zs -> mapM (fun x => do y <- f x; g y) l = Ok zs.
Proof.
elim: l ys zs => [|x l IH] ys zs /=; first by case=> <-.
case hx : (f x) => [y|//] /=; case hl : (mapM f l) => [ys'|//] /= [<-] /=.
case hy : (g y) => [z|//] /=; case hz : (mapM g ys') => [zs'|//] /= [<-].
by rewrite (IH _ _ hl hz).
Qed.

Lemma device_energy c c' RT : good_crystal c -> step eig J1 c Solve c' -> good_source c' ->
  poynting_flux_end c' = Ok RT -> le (RT.1 + RT.2)%Re 1%Re.
Proof.
move=> g hs gs; inversion hs as [| | | | | | | |order cc ho hsol e1 e2]; subst cc => {hs e1}.
move: hsol; rewrite /crystal_solve.
case hsrc : (c_source c) => [src|//] /=; case hdev : (c_device c) => [dev|//] /=.
case hd : (solve_all _ _ _ _ _ _) => [d|//] /=.
case hes : (mapM _ _) => [es|//] /=; case: (stack_positions _ _) => [pos|//] /=.
case hSs : (mapM _ es) => [Ss|//] /=; case hst : (stack_layers _ _) => [st|//] /= ec.
case: ec => ec; rewrite -ec in gs *; move=> {ec c'}.
case: gs => /= -[src' [es' hw]] [hx [hy hreg]].
have {es'} es' : src' = src by case: es'.
rewrite {}es' in hw => {src'}.
have [eg us] := g_dev g hdev.
have [_ hall] := solve_all_ok hd.
have ho' k : k \in dev.1.2 -> k \in order by rewrite (perm_mem (ho _ hdev)) mem_undup.
have hR : Sref \in dev.1.2 by rewrite eg mem_head.
have hT : Strans \in dev.1.2 by rewrite eg in_cons mem_rcons mem_head orbT.
have solved_entry k : k \in dev.1.2 -> exists x s,
  [/\ dict_get (c_layers c) k = Some x, obj_solve eig J1 n x.1 (c_kp c) (s_wl src) = Ok s &
      dict_get d k = Some (x.1, Some s)].
  by move=> hk; have := hall k; rewrite (ho' _ hk).
have [xr [sr [hr1 hr2 hr3]]] := solved_entry _ hR.
have [xt [s_t [ht1 ht2 ht3]]] := solved_entry _ hT.
have hSs2 := mapM_bind hes hSs; rewrite eg in hSs2.
have [lr [hlr her hfr]] := g_dict g hr1.
have [lt [hlt het hft]] := g_dict g ht1.
rewrite hlr /= /layer_solve her in hr2.
rewrite hlt /= /layer_solve het in ht2.
move: hr2 ht2; case hk : (krows _ _ _ _ _) => [[[kx ky] kz]|//] /=.
case hf : (free_space_eigenmodes kx ky) => [[W0 V0]|//] /=; rewrite hfr hft.
case hr : (scattering_reflection _ _ _ _ _ _) => [[[[Sr Wr] Vr] Lr]|//] /=.
case: (one_over (RtoC ei)) => [icr|//] /= [hsr].
case ht : (scattering_transmission _ _ _ _ _ _) => [[[[St Wt] Vt] Lt]|//] /=.
case: (one_over (RtoC ee)) => [ict|//] /= [hst'].
have [_ eWr eLr hVr _] := reflection_inv hr; have [_ eWt eLt hVt _] := transmission_inv ht.
have er : entry_S (xr.1, Some sr) = Ok Sr by rewrite /entry_S -hsr; case: (l_fields lr).
have et : entry_S (xt.1, Some s_t) = Ok St by rewrite /entry_S -hst'; case: (l_fields lt).
move: hSs2; rewrite /= hr3 /= er /=; case hrest : (mapM _ _) => [rest|//] /= [eSs].
have [Sl [St' [hl hSt' erest]]] := mapM_rcons hrest.
have {hSt'} eSt : St' = St by move: hSt'; rewrite ht3 /= et => -[].
rewrite {}eSt in erest; rewrite {}erest in eSs.
have hch := stack_chain hst; rewrite -eSs in hch.
have hdiss : dissipates le st.2 (port_flux Wr Vr) (port_flux Wt Vt).
  apply: (device_diss le_reflx le_transx _ _ _ hch).
  - by apply: diss_conserves; apply: interface_conserves => a1 a2 b1 b2 /(reflection_continuity hr); apply.
  - by apply: diss_conserves; apply: interface_conserves => a1 a2 b1 b2 /(transmission_continuity ht); apply.
  apply: (mapM_all _ hl) => k Sk hk' /=.
  have hkg : k \in dev.1.2 by rewrite eg in_cons mem_rcons in_cons hk' !orbT.
  have [xk [sk [h1 h2 ->]]] /= := solved_entry _ hkg.
  have [lk [elk eek gfd]] := g_dict g h1; have [u1 u2] := user_neq (us _ hk'); rewrite u1 u2 in gfd; case: gfd => gf gd.
  rewrite elk /= in h2; rewrite -eek in hk.
  have [Sk' e1 e2] := layer_good gf gd hw hx hy hk hf h2.
  by rewrite /entry_S /= e1 => -[<-].
rewrite /poynting_flux_end /poynting_flux_orders /= (g_src g hsrc).
case hinc : (incident _ _ _ _ _) => [inc|//] /=.
rewrite /named_modes /= hr3 /=.
case hmr : (sl_modes sr) => [mr|//] /=.
have emr : mr = (Wr, Vr, Lr) by move: hmr; rewrite -hsr; case: (l_fields lr) => //= -[].
rewrite emr /= {1}eWr /inv unitmx1 /=.
rewrite ht3 /=; case hmt : (sl_modes s_t) => [mt|//] /=.
have emt : mt = (Wt, Vt, Lt) by move: hmt; rewrite -hst'; case: (l_fields lt) => //= -[].
rewrite emt /= eWr eWt invmx1 !mul1mx (g_epsi g) (g_epse g).
case hfT : (poynting_fluxes _ _ _ _ _ _) => [fT|//] /=.
case hfR : (poynting_fluxes _ _ _ _ _ _) => [fR|//] /= [<-] /=.
rewrite (g_epsi g) in hinc; rewrite eWr eWt in hdiss.
rewrite eLr in hVr; rewrite eLt in hVt.
move: hdiss; rewrite /le; case: (strict) => hdiss.
  apply: (balance_lossless hw hx hy (g_exp g) hreg hk hVr hVt hinc hfR hfT erefl erefl).
  by move=> a1 a2 b1 b2 /hdiss ->.
exact: (balance_passive hw hx hy (g_exp g) hreg hk hVr hVt hinc hfR hfT erefl erefl).
Qed.
End Invariant.
End Energy.
