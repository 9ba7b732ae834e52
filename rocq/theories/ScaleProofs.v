(** Lemmas for C98: scale invariance. *)
From Coq Require Import Reals ZArith Lra Lia String.
From mathcomp Require Import all_ssreflect all_algebra.
From Coquelicot Require Import Complex Rbar.
From Verif Require Import Base ZmodTac CField CFun ModelRedheffer ModelLayer ModelExpansion ModelFlux ModelFourier ModelExtension
  ModelDevice ModelFields SpecDevice StringEq ExpansionProofs IncidentProofs DeviceProofs SpecScale.
Set Implicit Arguments. Unset Strict Implicit. Unset Printing Implicit Defensive.
Import GRing.Theory.
Local Open Scope ring_scope.

Lemma RtoC_mul (x y : R) : RtoC (x * y)%Re = RtoC x * RtoC y.
Proof. by apply: C_ext => /=; ring. Qed.
Lemma bind_ext A B (x : res A) (f g : A -> res B) : (forall a, f a = g a) -> bind x f = bind x g.
Proof. by case: x => //= a h; exact: h. Qed.
Lemma bind_eq A B (x y : res A) (f g : A -> res B) : x = y -> (forall a, f a = g a) -> bind x f = bind y g.
Proof. by move=> -> h; exact: bind_ext. Qed.
Lemma mapM_map A B D (f : B -> res D) (g : A -> B) l : mapM f (map g l) = mapM (fun x => f (g x)) l.
Proof. by elim: l => //= x l ->. Qed.
Lemma mapM_ext A B (f g : A -> res B) l : (forall x, List.In x l -> f x = g x) -> mapM f l = mapM g l.
Proof.
elim: l => //= x l IH h; rewrite (h x); last by left.
by rewrite IH // => y hy; apply: h; right.
Qed.

Lemma csqrt_mul2 (t : R) (z : C) : (0 < t)%Re -> csqrt (RtoC t ^+ 2 * z) = RtoC t * csqrt z.
Proof.
move=> ht; have ht2 : (0 < t * t)%Re by nra.
have e : RtoC t ^+ 2 * z = ((t * t * fst z)%Re, (t * t * snd z)%Re) by rewrite expr2; apply: C_ext => /=; ring.
have m : Cmod (RtoC t ^+ 2 * z) = (t * t * Cmod z)%Re.
  rewrite [LHS](Cmod_mult (RtoC t ^+ 2) z) (_ : RtoC t ^+ 2 = RtoC (t * t)%Re); last by rewrite expr2 RtoC_mul.
  by rewrite Cmod_R Rabs_right; lra.
have r (x : R) : sqrt (t * t * x)%Re = (t * sqrt x)%Re.
  rewrite sqrt_mult_alt; last lra.
  by rewrite sqrt_square; lra.
apply: C_ext.
  rewrite {1}/csqrt m e /= (_ : (_ / 2 = t * t * ((Cmod z + fst z) / 2))%Re); last by field.
  by rewrite r; ring.
rewrite {1}/csqrt m e; cbn [fst snd]; rewrite (_ : ((t * t * Cmod z - t * t * fst z) / 2 = t * t * ((Cmod z - fst z) / 2))%Re); last by field.
rewrite r /csqrt; cbn [fst snd].
destruct (Rlt_dec (t * t * snd z) 0) as [h|h]; destruct (Rlt_dec (snd z) 0) as [h'|h'] => /=; try ring; exfalso; nra.
Qed.

Section Scale.
Variable s : R.
Hypothesis s0 : (0 < s)%Re.
Let t := (/ s)%Re.
Let t0 : (0 < t)%Re. Proof. exact: Rinv_0_lt_compat. Qed.
Let st : (s * t = 1)%Re. Proof. by rewrite /t; field; lra. Qed.
Let tC : RtoC t != 0. Proof. by apply/eqP => /(congr1 fst) /=; lra. Qed.

Lemma k0_longer wl : (2 * PI / (s * wl) = t * (2 * PI / wl))%Re.
Proof. by rewrite /t /Rdiv Rinv_mult; ring. Qed.
Lemma wl_longer wl : (s * wl = 0)%Re <-> wl = 0%Re.
Proof. by split=> [h|->]; [apply: (Rmult_eq_reg_l s); lra | ring]. Qed.

Lemma kz_longer kx ky k0 eps : kz_from_kplanar (RtoC t * kx) (RtoC t * ky) (t * k0) eps = RtoC t * kz_from_kplanar kx ky k0 eps.
Proof.
rewrite /kz_from_kplanar; rewrite (_ : _ - _ - _ = RtoC t ^+ 2 * (RtoC k0 ^+ 2 * Cconj eps - kx ^+ 2 - ky ^+ 2)); last first.
  by rewrite RtoC_mul !exprMn !mulrBr mulrA.
by rewrite csqrt_mul2 //; apply: C_ext => /=; ring.
Qed.

Lemma krows_longer n e kp wl eps : krows n (longer_expansion s e) (slower_kp s kp) (s * wl) eps = krows n e kp wl eps.
Proof.
rewrite /krows; destruct (Req_EM_T wl 0) as [h|h].
  by destruct (Req_EM_T (s * wl) 0) as [h'|h'] => //; case: h'; apply/wl_longer.
destruct (Req_EM_T (s * wl) 0) as [h'|h']; first by case: h; apply/wl_longer.
rewrite /e_size k0_longer; cbn [e_pw longer_expansion e_g]; rewrite size_map.
case: ifP => // hn; case: ifP => // hg.
have k : RtoC (2 * PI / wl)%Re != 0.
  by apply/eqP => /(congr1 fst) /=; apply: Rmult_integral_contrapositive_currified; [have := PI_RGT_0; lra | exact: Rinv_neq_0_compat].
pose g (j : 'I_n) := if size (e_g e) == n then nth (0%Re, 0%Re) (e_g e) j else nth (0%Re, 0%Re) (e_g e) 0.
have eg (j : 'I_n) : (if size (e_g e) == n then nth (0%Re, 0%Re) (map (slower s) (e_g e)) j
    else nth (0%Re, 0%Re) (map (slower s) (e_g e)) 0) = slower s (g j).
  rewrite /g; case: eqP => [hs|hs].
    by rewrite (nth_map (0%Re, 0%Re)) // hs.
  rewrite (nth_map (0%Re, 0%Re)) //; move: hg; case: eqP => //= _ /negbFE /eqP -> //.
have e1 (j : 'I_n) : (slower_kp s kp).1 + RtoC (slower s (g j)).1 = RtoC t * (kp.1 + RtoC (g j).1).
  by rewrite /slower_kp /slower; cbn [fst snd]; rewrite RtoC_mul mulrDr.
have e2 (j : 'I_n) : (slower_kp s kp).2 + RtoC (slower s (g j)).2 = RtoC t * (kp.2 + RtoC (g j).2).
  by rewrite /slower_kp /slower; cbn [fst snd]; rewrite RtoC_mul mulrDr.
by congr (Ok (_, _, _)); apply/rowP => j; rewrite !mxE eg ?e1 ?e2 ?kz_longer RtoC_mul -/(g j) -mulf_div divff // mul1r.
Qed.

(** Analytical layers. *)
Lemma gvecs_longer b idx : gvecs (slower s b.1, slower s b.2) idx = map (slower s) (gvecs b idx).
Proof. by rewrite /gvecs -map_comp; apply: eq_map => mn /=; congr (_, _); rewrite /slower /=; ring. Qed.

Lemma RtoC_prod (z1 z2 z1' z2' : R) (c : C) : (z1' * z2' = z1 * z2)%Re -> c * RtoC z1' * RtoC z2' = c * RtoC z1 * RtoC z2.
Proof. by move=> e; rewrite -!mulrA -!RtoC_mul e. Qed.

Lemma rectangle_longer x0 y0 x1 y1 g sigma :
  transform_rectangle (s * x0) (s * y0) (s * x1) (s * y1) (slower s g).1 (slower s g).2 (s * s * sigma) =
  transform_rectangle x0 y0 x1 y1 g.1 g.2 sigma.
Proof.
have sne : s <> 0%Re by lra.
rewrite /transform_rectangle /slower; cbn [fst snd].
have e0 : ((s * x1 - s * x0) * (s * y1 - s * y0) / (s * s * sigma) = (x1 - x0) * (y1 - y0) / sigma)%Re.
  rewrite /Rdiv !Rinv_mult (_ : ((s * x1 - s * x0) * (s * y1 - s * y0) * (/ s * / s * / sigma) =
    (s * / s) * (s * / s) * ((x1 - x0) * (y1 - y0) * / sigma))%Re); last by ring.
  by rewrite Rinv_r //; ring.
rewrite e0 (@RtoC_prod g.1 (x1 - x0)%Re (/ s * g.1)%Re (s * x1 - s * x0)%Re); last by field.
rewrite (@RtoC_prod g.2 (y1 - y0)%Re (/ s * g.2)%Re (s * y1 - s * y0)%Re); last by field.
by rewrite (_ : (s * x0 * (/ s * g.1) + s * y0 * (/ s * g.2) = x0 * g.1 + y0 * g.2)%Re) //; field.
Qed.

Lemma isclose_zero x y : isclose0 x && isclose0 y <-> ~ (1 / 100000000 < Rabs x \/ 1 / 100000000 < Rabs y)%Re.
Proof.
rewrite /isclose0; destruct (Rle_dec (Rabs x) (1 / 100000000)) as [h|h]; destruct (Rle_dec (Rabs y) (1 / 100000000)) as [h'|h'];
  split=> //=; try lra; move=> H; exfalso; apply: H; lra.
Qed.

Lemma disc_longer J1 x y r g sigma : isclose0 (slower s g).1 && isclose0 (slower s g).2 = isclose0 g.1 && isclose0 g.2 ->
  transform_disc J1 (s * x) (s * y) (s * r) (slower s g).1 (slower s g).2 (s * s * sigma) = transform_disc J1 x y r g.1 g.2 sigma.
Proof.
have sne : s <> 0%Re by lra.
move=> hc; rewrite /transform_disc hc.
have e0 : (PI * (s * r * (s * r)) / (s * s * sigma) = PI * (r * r) / sigma)%Re.
  rewrite /Rdiv !Rinv_mult (_ : (PI * (s * r * (s * r)) * (/ s * / s * / sigma) =
    (s * / s) * (s * / s) * (PI * (r * r) * / sigma))%Re); last by ring.
  by rewrite Rinv_r //; ring.
rewrite e0; case: ifP => // _; rewrite /slower; cbn [fst snd].
have e1 : (sqrt (/ s * g.1 * (/ s * g.1) + / s * g.2 * (/ s * g.2)) * (s * r) = sqrt (g.1 * g.1 + g.2 * g.2) * r)%Re.
  rewrite (_ : (/ s * g.1 * (/ s * g.1) + / s * g.2 * (/ s * g.2) = (t * t) * (g.1 * g.1 + g.2 * g.2))%Re); last by rewrite /t; ring.
  rewrite sqrt_mult_alt; last by nra.
  rewrite sqrt_square; last by lra.
  by rewrite /t; field.
by rewrite e1 (_ : (s * x * (/ s * g.1) + s * y * (/ s * g.2) = x * g.1 + y * g.2)%Re) //; field.
Qed.

Lemma gvecs_in b idx g : List.In g (gvecs b idx) -> exists mn : Z * Z, g =
  ((IZR mn.1 * b.1.1 + IZR mn.2 * b.2.1)%Re, (IZR mn.1 * b.1.2 + IZR mn.2 * b.2.2)%Re).
Proof.
elim: idx => //= mn idx IH [<-|/IH //]; by exists mn.
Qed.

Lemma map_ext_In A B (f g : A -> B) l : (forall x, List.In x l -> f x = g x) -> map f l = map g l.
Proof. elim: l => //= x l IH h; rewrite (h x); last by left. by rewrite IH // => y hy; apply: h; right. Qed.

Lemma transform_longer J1 sh b idx sigma :
  ((if sh is Disc _ _ _ then true else false) -> resolved b /\ resolved (slower s b.1, slower s b.2)) ->
  transform J1 (longer_shape s sh) (map (slower s) (gvecs b idx)) (s * s * sigma) = transform J1 sh (gvecs b idx) sigma.
Proof.
move=> hr; rewrite /transform.
have e : (s * s * sigma = 0)%Re <-> sigma = 0%Re.
  by split=> [h|->]; [apply: (Rmult_eq_reg_l (s * s)); nra | ring].
destruct (Req_EM_T sigma 0) as [h|h].
  by destruct (Req_EM_T (s * s * sigma) 0) as [h'|h'] => //; case: h'; apply/e.
destruct (Req_EM_T (s * s * sigma) 0) as [h'|h']; first by case: h; apply/e.
case: sh hr => [x0 y0 x1 y1|x y r||] hr //=.
- by rewrite -map_comp; congr Ok; apply: eq_map => g; rewrite /= rectangle_longer.
- have er : (s * r = 0)%Re <-> r = 0%Re by exact: wl_longer.
  destruct (Req_EM_T r 0) as [k|k].
    by destruct (Req_EM_T (s * r) 0) as [k'|k'] => //; case: k'; apply/er.
  destruct (Req_EM_T (s * r) 0) as [k'|k']; first by case: k; apply/er.
  have [h1 h2] := hr isT.
  rewrite -map_comp; congr Ok; apply: map_ext_In => g /gvecs_in [mn eg].
  rewrite /comp disc_longer //.
  have es : slower s g = ((IZR mn.1 * (slower s b.1).1 + IZR mn.2 * (slower s b.2).1)%Re, (IZR mn.1 * (slower s b.1).2 + IZR mn.2 * (slower s b.2).2)%Re).
    by rewrite eg /slower /=; congr (_, _); ring.
  case: mn eg es => i j eg es.
  case: (Z.eq_dec i BinNums.Z0) => ei; first case: (Z.eq_dec j BinNums.Z0) => ej.
  + have g0 : g = (0%Re, 0%Re) by rewrite eg ei ej /=; congr (_, _); ring.
    by rewrite g0 /slower /= Rmult_0_r.
  + have ne : (i, j) <> (BinNums.Z0, BinNums.Z0) by case.
    have [a1 a2] := (h1 _ _ ne, h2 _ _ ne); rewrite es eg; cbn [fst snd].
    by apply/idP/idP => /isclose_zero.
  + have ne : (i, j) <> (BinNums.Z0, BinNums.Z0) by case.
    have [a1 a2] := (h1 _ _ ne, h2 _ _ ne); rewrite es eg; cbn [fst snd].
    by apply/idP/idP => /isclose_zero.
- by rewrite -map_comp.
Qed.

Lemma analytical_longer J1 n e isl host : resolved_islands s e isl ->
  analytical_matrix J1 n (longer_expansion s e) (longer_islands s isl) host = analytical_matrix J1 n e isl host.
Proof.
move=> hr; rewrite /analytical_matrix /g_vectors_expanded; cbn [e_pw longer_expansion e_reciprocal e_sigma].
case: generate_expansion_indices => [idx|//]; cbn [bind fst snd].
rewrite gvecs_longer /longer_islands mapM_map.
suff -> : mapM (fun x => do t1 <- transform J1 (longer_shape s x.1, x.2).1 (map (slower s) (gvecs (e_reciprocal e) idx)) (s * s * e_sigma e); Ok (t1, (longer_shape s x.1, x.2).2)) isl =
  mapM (fun x => do t1 <- transform J1 x.1 (gvecs (e_reciprocal e) idx) (e_sigma e); Ok (t1, x.2)) isl by [].
elim: isl hr => //= x isl IH hr; cbn [fst snd].
rewrite transform_longer; last by move=> hd; apply: hr; rewrite /has_disc /= hd.
by rewrite IH // => hd; apply: hr; rewrite /has_disc /= -/(has_disc isl) hd orbT.
Qed.

Lemma build_longer m (WI VI W0 V0 : 'M[C]_m) L d k0 : build_scatmat WI VI W0 V0 L (s * d) (t * k0) = build_scatmat WI VI W0 V0 L d k0.
Proof.
rewrite /build_scatmat; congr build_core; apply/rowP => j; rewrite !mxE; congr cexp.
apply: RtoC_prod; have e : (s * d * (t * k0) = (s * t) * (d * k0))%Re by ring.
by rewrite e st; ring.
Qed.

Section Solve.
Variables (eig : forall m, 'M[C]_m -> 'rV[C]_m * 'M[C]_m) (J1 : R -> R).

Lemma layer_longer n l kp wl : resolved_layer s l ->
  layer_solve eig J1 n (longer_layer s l) (slower_kp s kp) (s * wl) = layer_solve eig J1 n l kp wl.
Proof.
move=> hr; rewrite /layer_solve; cbn [l_exp longer_layer l_depth l_fields l_form].
rewrite krows_longer k0_longer; apply: bind_ext => k; apply: bind_ext => f.
case: l hr => e f0 d b; rewrite /resolved_layer; cbn [l_exp l_form l_depth l_fields].
case: f0 => [p|eps|isl h|eps|eps|] hr; cbn [longer_form longer_expansion e_pw].
- by apply: bind_ext => Cm; apply: bind_ext => IC; apply: bind_ext => m; rewrite build_longer; exact: erefl.
- by apply: bind_ext => m; rewrite build_longer; exact: erefl.
- rewrite analytical_longer; last exact: hr.
  by apply: bind_ext => Cm; apply: bind_ext => IC; apply: bind_ext => m; rewrite build_longer; exact: erefl.
- exact: erefl.
- exact: erefl.
- exact: erefl.
Qed.

(** Extended layers. *)
Definition longer_ext (x : extended) : extended :=
  Extended (longer_expansion s (x_exp x)) (x_mode x) (map (slower s) (x_gs x)) (longer_layer s (x_base x)) (x_fields x).
Definition longer_obj (o : layer_obj) : layer_obj := match o with Plain l => Plain (longer_layer s l) | Ext x => Ext (longer_ext x) end.
Definition resolved_obj (o : layer_obj) : Prop := match o with Plain l => resolved_layer s l | Ext x => resolved_layer s (x_base x) end.

Lemma shift_longer g kp : shift_kp (slower s g) (slower_kp s kp) = slower_kp s (shift_kp g kp).
Proof. by rewrite /shift_kp /slower_kp /slower; cbn [fst snd]; rewrite !RtoC_mul !mulrDr. Qed.

Lemma freespace_longer N n e gs wl mode kp :
  extended_freespace N n (longer_expansion s e) (map (slower s) gs) (s * wl) mode (slower_kp s kp) = extended_freespace N n e gs wl mode kp.
Proof.
rewrite /extended_freespace mapM_map (mapM_ext (g := fun g => do k <- krows N e (shift_kp g kp) wl 1; free_space_eigenmodes k.1.1 k.1.2)) //.
by move=> g _; rewrite shift_longer krows_longer.
Qed.

Lemma obj_longer n o kp wl : resolved_obj o ->
  obj_solve eig J1 n (longer_obj o) (slower_kp s kp) (s * wl) = obj_solve eig J1 n o kp wl.
Proof.
case: o => [l|x] /= hr; first exact: layer_longer.
rewrite /extended_solve; cbn [x_base longer_ext x_gs x_mode x_fields longer_layer l_exp].
change (e_size (longer_expansion s (l_exp (x_base x)))) with (e_size (l_exp (x_base x))); set N := e_size _; clearbody N.
apply: bind_eq.
  etransitivity; first exact: mapM_map.
  eapply mapM_ext; move=> g _; rewrite shift_longer.
  exact: (@layer_longer N (Layer (l_exp (x_base x)) (l_form (x_base x)) (l_depth (x_base x)) (x_fields x)) (shift_kp g kp) wl hr).
move=> sols; apply: bind_ext => Ss; apply: bind_ext => S; case: (x_fields x); last by [].
apply: bind_ext => ms; apply: bind_ext => W; apply: bind_ext => V; apply: bind_eq; last by [].
exact: freespace_longer.
Qed.

Lemma mk_extended_longer e who l : mk_extended (longer_expansion s e) who (longer_layer s l) = (do x <- mk_extended e who l; Ok (longer_ext x)).
Proof. by rewrite /mk_extended /=; case: (e_lhs_rhs e) => [[a b]|] //=; case: who. Qed.

(** The crystal. *)
Variable n : nat.
Definition longer_entry (x : entry n) : entry n := (longer_obj x.1, x.2).
Definition longer_dict (d : seq (string * entry n)) := [seq (p.1, longer_entry p.2) | p <- d].
Definition longer_source (r : source) : source := Source (s_te r) (s_tm r) (s_theta r) (s_phi r) (s * s_wl r)%Re.
Definition longer_solution (r : solution n) : solution n := Solution (map (longer_bar s) (r_positions r)) (r_Sls r) (r_Srs r) (r_S r).
Definition longer_crystal (c : crystal n) : crystal n :=
  Crystal (c_void c) (c_epsi c) (c_epse c) (longer_expansion s (c_exp c)) (longer_dict (c_layers c)) (c_device c)
    (omap longer_source (c_source c)) (slower_kp s (c_kp c)) (RtoC t * c_kzi c) (omap longer_solution (c_solution c)).
Definition resolved_dict (d : seq (string * entry n)) : Prop := forall k x, dict_get d k = Some x -> resolved_obj x.1.

Lemma get_longer d k : dict_get (longer_dict d) k = omap longer_entry (dict_get d k).
Proof. by elim: d => //= -[k' v] d IH /=; case: ifP. Qed.
Lemma set_longer d k v : dict_set (longer_dict d) k (longer_entry v) = longer_dict (dict_set d k v).
Proof. by elim: d => //= -[k' v'] d IH /=; case: ifP => //= _; rewrite IH. Qed.
Lemma resolved_set d k v : resolved_dict d -> resolved_obj v.1 -> resolved_dict (dict_set d k v).
Proof. by move=> h hv k' x; rewrite dict_get_set; case: ifP => [_ [<-]|_ /h]. Qed.

Lemma enable_longer b o : obj_enable b (longer_obj o) = longer_obj (obj_enable b o).
Proof. by case: o. Qed.
Lemma enable_resolved b o : resolved_obj o -> resolved_obj (obj_enable b o).
Proof. by case: o. Qed.

Lemma default_longer d g name type e eps :
  add_default (longer_dict d) g name type (longer_expansion s e) eps = longer_dict (add_default d g name type e eps).
Proof.
rewrite /add_default get_longer; case: dict_get => [x|] /=; first by rewrite andbF.
rewrite andbT; case: ifP => // _; rewrite -set_longer; congr dict_set; rewrite /longer_entry; cbn [fst snd].
by rewrite /half_infinite; case: ifP => _; [|case: ifP => _]; rewrite /= /longer_layer /= Rmult_0_r.
Qed.
Lemma default_resolved d g name type e eps : resolved_dict d -> resolved_dict (add_default d g name type e eps).
Proof.
rewrite /add_default; case: ifP => // _ h; apply: resolved_set => //; apply: enable_resolved.
by rewrite /half_infinite; case: ifP => // _; case: ifP.
Qed.

Lemma enable_fields_longer d l : enable_fields (longer_dict d) l = (do d' <- enable_fields d l; Ok (longer_dict d')).
Proof.
elim: l d => //= -[name b] l IH d; rewrite get_longer; case: dict_get => [x|] //=.
by rewrite -IH -set_longer /longer_entry /= enable_longer.
Qed.
Lemma enable_fields_resolved d l d' : resolved_dict d -> enable_fields d l = Ok d' -> resolved_dict d'.
Proof.
elim: l d => [d h [<-] //|[name b] l IH d h] /=; case e : dict_get => [x|] //; apply: IH; apply: resolved_set => //.
by apply: enable_resolved; exact: h e.
Qed.

Lemma set_device_longer c stack mask : set_device (longer_crystal c) stack mask = (do c' <- set_device c stack mask; Ok (longer_crystal c')).
Proof. by rewrite /set_device /= !default_longer enable_fields_longer; case: enable_fields. Qed.

Lemma kplanar_longer epsi wl th ph : compute_kplanar epsi (s * wl) th ph = (do k <- compute_kplanar epsi wl th ph; Ok (slower_kp s k)).
Proof.
rewrite /compute_kplanar; destruct (Req_EM_T wl 0) as [h|h].
  by destruct (Req_EM_T (s * wl) 0) as [h'|h'] => //; case: h'; apply/wl_longer.
destruct (Req_EM_T (s * wl) 0) as [h'|h']; first by case: h; apply/wl_longer.
have w : RtoC wl != 0 by apply/eqP => /(congr1 fst).
have e (a b : C) : a / RtoC (s * wl)%Re * b = RtoC t * (a / RtoC wl * b).
  rewrite (_ : RtoC (s * wl)%Re = (RtoC t)^-1 * RtoC wl); last first.
    apply: (mulfI tC); rewrite mulrA divff // mul1r -RtoC_mul.
    have et : (t * (s * wl) = (s * t) * wl)%Re by ring.
    by rewrite et st; congr RtoC; ring.
  by rewrite invfM invrK !mulrA (mulrC a) .
by cbn [bind]; rewrite /slower_kp; cbn [fst snd]; rewrite !e.
Qed.

Lemma kzi_longer k0 epsi kp : source_kzi (t * k0) epsi (slower_kp s kp) = RtoC t * source_kzi k0 epsi kp.
Proof.
rewrite /source_kzi /slower_kp; cbn [fst snd].
rewrite (_ : _ - _ - _ = RtoC t ^+ 2 * (RtoC k0 ^+ 2 * epsi - kp.1 ^+ 2 - kp.2 ^+ 2)); last first.
  by rewrite RtoC_mul !exprMn !mulrBr mulrA.
by rewrite csqrt_mul2 //; apply: C_ext => /=; ring.
Qed.

Lemma set_source_longer c wl te tm th ph kp : set_source (longer_crystal c) (s * wl) te tm th ph (omap (slower_kp s) kp) =
  (do c' <- set_source c wl te tm th ph kp; Ok (longer_crystal c')).
Proof.
rewrite /set_source; cbn [c_epsi longer_crystal].
have -> : match omap (slower_kp s) kp with Some k => Ok k | None => compute_kplanar (c_epsi c) (s * wl) th ph end =
  (do k <- match kp with Some k => Ok k | None => compute_kplanar (c_epsi c) wl th ph end; Ok (slower_kp s k)).
  by case: kp => [k|] //=; exact: kplanar_longer.
case: (match kp with Some k => Ok k | None => _ end) => [k|//]; cbn [bind].
destruct (Req_EM_T wl 0) as [h|h].
  by destruct (Req_EM_T (s * wl) 0) as [h'|h'] => //; case: h'; apply/wl_longer.
destruct (Req_EM_T (s * wl) 0) as [h'|h']; first by case: h; apply/wl_longer.
by cbn [bind]; rewrite k0_longer kzi_longer.
Qed.

Lemma solve_all_longer d order kp wl : resolved_dict d ->
  solve_all eig J1 (longer_dict d) order (slower_kp s kp) (s * wl) = (do d' <- solve_all eig J1 d order kp wl; Ok (longer_dict d')).
Proof.
elim: order d => //= name r IH d h; rewrite get_longer; case e : dict_get => [x|] //=.
rewrite obj_longer; last exact: h e.
case: obj_solve => [sv|//]; cbn [bind]; rewrite (set_longer d name (x.1, Some sv)) IH //.
by apply: resolved_set => //; exact: h e.
Qed.
Lemma solve_all_resolved d order kp wl d' : resolved_dict d -> solve_all eig J1 d order kp wl = Ok d' -> resolved_dict d'.
Proof.
elim: order d => [d h [<-] //|name r IH d h] /=; case e : dict_get => [x|] //=.
by case: obj_solve => //= sv; apply: IH; apply: resolved_set => //; exact: h e.
Qed.

Lemma cumsum_longer acc l : cumsum_from (s * acc) (map (Rmult s) l) = map (Rmult s) (cumsum_from acc l).
Proof. by elim: l acc => //= x l IH acc; rewrite -Rmult_plus_distr_l IH. Qed.
Lemma positions_longer void l : stack_positions void (map (Rmult s) l) = (do p <- stack_positions void l; Ok (map (longer_bar s) p)).
Proof.
rewrite /stack_positions -{1}(Rmult_0_r s) cumsum_longer -map_rev; case: (rev (cumsum_from 0 l)) => //= x r.
by congr Ok; case: void => /=; rewrite map_rcons -map_rev -!map_comp.
Qed.

Lemma solve_longer c order : resolved_dict (c_layers c) ->
  crystal_solve eig J1 order (longer_crystal c) = (do c' <- crystal_solve eig J1 order c; Ok (longer_crystal c')).
Proof.
move=> h; rewrite /crystal_solve /=; case: (c_source c) => [src|] //=; case: (c_device c) => [dev|] //=.
rewrite solve_all_longer //; case: solve_all => [d|//]; cbn [bind].
have -> : mapM (fun name => get (dict_get (longer_dict d) name) KeyError) dev.1.2 =
  (do es <- mapM (fun name => get (dict_get d name) KeyError) dev.1.2; Ok (map longer_entry es)).
  elim: (dev.1.2) => //= name l ->; rewrite get_longer; case: dict_get => //= x.
  by case: mapM.
case: mapM => [es|//]; cbn [bind].
have -> : [seq obj_depth e.1 | e <- map longer_entry es] = map (Rmult s) [seq obj_depth e.1 | e : entry n <- es].
  by rewrite -!map_comp; apply: eq_map => -[[l|x] sv].
rewrite positions_longer; case: stack_positions => [pos|//]; cbn [bind].
have -> : mapM (@entry_S n) (map longer_entry es) = mapM (@entry_S n) es by rewrite mapM_map.
case: mapM => [Ss|//]; cbn [bind]; case: stack_layers => [r|//] //.
Qed.

Lemma step_longer c o c' : step eig J1 c o c' -> resolved_dict (c_layers c) -> resolved_call s (c_exp c) o ->
  [/\ step eig J1 (longer_crystal c) (longer_call s o) (longer_crystal c'), resolved_dict (c_layers c') & c_exp c' = c_exp c].
Proof.
case=> {o c'} /=.
- move=> name eps d h _; split=> //; last exact: resolved_set.
  by have := step_uniform eig J1 (longer_crystal c) name eps (s * d); rewrite /add_layer_uniform /add_layer /add_obj /with_layers /longer_crystal /= -set_longer.
- move=> name p d h _; split=> //; last exact: resolved_set.
  by have := step_pixmap eig J1 (longer_crystal c) name p (s * d); rewrite /add_layer_pixmap /add_layer /add_obj /with_layers /longer_crystal /= -set_longer.
- move=> name p d c' e h _.
  have [l [hl rl ll]] : exists l, [/\ c' = add_layer c name l, resolved_layer s l & pixmap_or_uniform (c_exp (longer_crystal c)) p (s * d) = Ok (longer_layer s l)].
    move: e; rewrite /add_pixmap_or_uniform /pixmap_or_uniform; case: ifP => // _; case: ifP => _ [<-].
      by exists (layer_uniform (c_exp c) (a_at p 0 0) d).
    by exists (layer_pixmap (c_exp c) p d).
  rewrite hl; split=> //; last exact: resolved_set.
  by apply: step_pixmap_or_uniform; rewrite /add_pixmap_or_uniform ll /= /add_layer /add_obj /with_layers /longer_crystal /= -set_longer.
- move=> name isl hst d h hr; split=> //; last exact: resolved_set.
  by have := step_analytical eig J1 (longer_crystal c) name (longer_islands s isl) hst (s * d); rewrite /add_layer_analytical /add_layer /add_obj /with_layers /longer_crystal /= -set_longer.
- move=> name l h hr; split=> //; last exact: resolved_set.
  by have := step_layer eig J1 (longer_crystal c) name (longer_layer s l); rewrite /add_layer /add_obj /with_layers /longer_crystal /= -set_longer.
- move=> name who l c' e h hr; move: (e); rewrite /add_layer_extended; case ex : mk_extended => [x|] //= [ec]; rewrite -ec.
  split=> //; last first.
    apply: resolved_set => //=; move: ex; rewrite /mk_extended; case: (e_lhs_rhs _) => [[a b]|] //.
    by case: who e => // _ [<-].
  by apply: step_extended; rewrite /add_layer_extended /= mk_extended_longer ex /= /add_obj /with_layers /longer_crystal /= -set_longer.
- move=> stack mask c' e h _; split; last first.
  + by move: e; rewrite /set_device; case: enable_fields => //= d [<-].
  + move: e; rewrite /set_device; case ed : enable_fields => [d|] //= [<-] /=.
    by apply: enable_fields_resolved ed; do 2! apply: default_resolved.
  by apply: step_device; rewrite set_device_longer e.
- move=> wl te tm th ph kp c' e h _; split; last first.
  + by move: e; rewrite /set_source; case: (match kp with Some k => Ok k | None => _ end) => //= k; case: Req_EM_T => // _ [<-].
  + by move: e; rewrite /set_source; case: (match kp with Some k => Ok k | None => _ end) => //= k; case: Req_EM_T => // _ [<-].
  by apply: step_source; rewrite set_source_longer e.
- move=> order c' hp e h _; split; last first.
  + move: e; rewrite /crystal_solve; case: get => //= src; case: get => //= dev; case: solve_all => //= d; case: mapM => //= es.
    by case: stack_positions => //= pos; case: mapM => //= Ss; case: stack_layers => //= r [<-].
  + move: e; rewrite /crystal_solve; case: get => //= src; case: get => //= dev; case ea : solve_all => [d|] //=; case: mapM => //= es.
    case: stack_positions => //= pos; case: mapM => //= Ss; case: stack_layers => //= r [<-] /=.
    exact: solve_all_resolved ea.
  by apply: (step_solve (order := order)) => //; rewrite solve_longer // e.
Qed.

Lemma history_longer c ops c' : history eig J1 c ops c' -> resolved_dict (c_layers c) -> all_calls (resolved_call s (c_exp c)) ops ->
  history eig J1 (longer_crystal c) (map (longer_call s) ops) (longer_crystal c').
Proof.
elim=> {c ops c'} [c _ _|c o ops c1 c2 st1 _ IH hd [ho hops]]; first exact: history_nil.
have [s1 h1 e1] := step_longer st1 hd ho.
by apply: history_cons s1 _; apply: IH => //; rewrite e1.
Qed.

(** The source. *)
Lemma abs2_longer z : abs2 (RtoC t * z) = (t * t * abs2 z)%Re.
Proof. by rewrite /abs2 /=; ring. Qed.
Lemma sqrt_longer x : sqrt (t * t * x) = (t * sqrt x)%Re.
Proof. by rewrite sqrt_mult_alt; [rewrite sqrt_square; lra | nra]. Qed.
Lemma frame_longer kp kz : same_side s kp ->
  pol_frame ((slower_kp s kp).1, (slower_kp s kp).2, RtoC t * kz) = pol_frame (kp.1, kp.2, kz).
Proof.
rewrite /same_side => hs; rewrite /pol_frame; cbn [fst snd].
have en (k : C * C) : sqrt (fst k.1 * fst k.1 + snd k.1 * snd k.1 + (fst k.2 * fst k.2 + snd k.2 * snd k.2)) = sqrt (abs2 k.1 + abs2 k.2) by [].
move: hs; rewrite !en => hs.
rewrite !(Rabs_right (sqrt _)); try exact/Rle_ge/sqrt_pos.
destruct (Rlt_dec (sqrt (abs2 (slower_kp s kp).1 + abs2 (slower_kp s kp).2)) (1 / 100000000)) as [h|h];
  destruct (Rlt_dec (sqrt (abs2 kp.1 + abs2 kp.2)) (1 / 100000000)) as [h'|h'] => //; try by case: hs => h1 h2; exfalso; auto.
have -> : div3 ((slower_kp s kp).1, (slower_kp s kp).2, RtoC t * kz) (norm3 ((slower_kp s kp).1, (slower_kp s kp).2, RtoC t * kz)) =
  div3 (kp.1, kp.2, kz) (norm3 (kp.1, kp.2, kz)); last by [].
have -> : norm3 ((slower_kp s kp).1, (slower_kp s kp).2, RtoC t * kz) = (t * norm3 (kp.1, kp.2, kz))%Re.
  by rewrite /norm3 /slower_kp; cbn [fst snd]; rewrite -/t !abs2_longer -!Rmult_plus_distr_l sqrt_longer.
rewrite /div3 /slower_kp; cbn [fst snd]; rewrite -/t RtoC_mul.
by rewrite -!mulf_div divff // !mul1r.
Qed.
Lemma incident_longer te tm kp kz b : same_side s kp ->
  incident n te tm ((slower_kp s kp).1, (slower_kp s kp).2, RtoC t * kz) b = incident n te tm (kp.1, kp.2, kz) b.
Proof. by move=> h; rewrite /incident /pol_vector frame_longer. Qed.

Lemma fluxes_longer (e : expansion) (v : 'cV[C]_(n + n)) kp wl epsi epse :
  poynting_fluxes (longer_expansion s e) v (slower_kp s kp) (s * wl) epsi epse = poynting_fluxes e v kp wl epsi epse.
Proof.
rewrite /poynting_fluxes; destruct (Req_EM_T wl 0) as [h|h].
  by destruct (Req_EM_T (s * wl) 0) as [h'|h'] => //; case: h'; apply/wl_longer.
destruct (Req_EM_T (s * wl) 0) as [h'|h']; first by case: h; apply/wl_longer.
rewrite krows_longer k0_longer.
have -> : flux_kzi (t * (2 * PI / wl)) (slower_kp s kp) epsi = flux_kzi (2 * PI / wl) kp epsi; last by [].
rewrite /flux_kzi -!/(source_kzi _ _ _) kzi_longer RtoC_mul -mulf_div divff // mul1r //.
Qed.

Lemma modes_longer c name : named_modes (longer_crystal c) name = named_modes c name.
Proof. by rewrite /named_modes /= get_longer; case: dict_get. Qed.

Lemma orders_longer c : same_side s (c_kp c) -> poynting_flux_orders (longer_crystal c) = poynting_flux_orders c.
Proof.
move=> h; rewrite /poynting_flux_orders !modes_longer; cbn [c_solution longer_crystal c_source c_kp c_kzi c_exp c_epsi c_epse].
case: (c_solution c) => [sol|]; cbn [omap obind oapp get bind]; last exact: erefl.
case: (c_source c) => [src|]; cbn [omap obind oapp get bind]; last exact: erefl.
cbn [omap obind oapp get bind longer_solution r_S longer_source s_te s_tm s_wl]; rewrite incident_longer //.
apply: bind_ext => inc; apply: bind_ext => mr; apply: bind_ext => iW; apply: bind_ext => mt.
apply: bind_eq; first exact: fluxes_longer.
by move=> T; apply: bind_eq; first exact: fluxes_longer.
Qed.

(** The fields. *)
Lemma below_longer p z : below (longer_bar s p) (s * z) = below p z.
Proof.
case: p => [x||] //=; destruct (Rlt_dec (s * x) (s * z)) as [h|h]; destruct (Rlt_dec x z) as [h'|h'] => //; exfalso; nra.
Qed.
Lemma sorted_longer l z : searchsorted (map (longer_bar s) l) (s * z) = searchsorted l z.
Proof. by rewrite /searchsorted find_map; apply: eq_find => p /=; rewrite below_longer. Qed.
Lemma pred_map A B (f : A -> B) l k : py_pred (map f l) k = (do x <- py_pred l k; Ok (f x)).
Proof.
case: l => //= x r; case: k => [|k] /=; first by rewrite last_map.
by rewrite size_map; case: ifP => // h; rewrite -map_cons (nth_map x).
Qed.

Lemma locate_longer c z : locate_layer (longer_crystal c) (s * z) = (do r <- locate_layer c z; Ok (longer_entry r.1.1, r.1.2, longer_bar s r.2)).
Proof.
rewrite /locate_layer /=; case: (c_solution c) => [sol|] //=; case: (c_device c) => [dev|] //=.
rewrite sorted_longer; case: py_pred => //= name; rewrite pred_map; case: py_pred => //= p.
rewrite size_map; case: ifP => // _; rewrite get_longer; case: dict_get => //= x.
have -> : (if Rle_dec (s * z) 0 then Finite (s * z) else bar_sub (s * z) (longer_bar s p)) =
  longer_bar s (if Rle_dec z 0 then Finite z else bar_sub z p); last by [].
destruct (Rle_dec (s * z) 0) as [h|h]; destruct (Rle_dec z 0) as [h'|h'] => //; try by exfalso; nra.
by case: p => //= y; congr Finite; ring.
Qed.

Lemma solved_entry x : (longer_entry x).2 = x.2. Proof. by []. Qed.
Lemma fields_at_longer c x k zr inc :
  fourier_fields_at (longer_crystal c) (longer_entry x) k (s * zr) inc = fourier_fields_at c x k zr inc.
Proof.
case: x => o so; rewrite /fourier_fields_at; cbn [fst snd longer_entry c_source longer_crystal c_exp c_kp c_layers c_solution].
have hf : obj_fields (longer_obj o) = obj_fields o by case: (o).
have hd : obj_depth (longer_obj o) = (s * obj_depth o)%Re by case: (o).
have hr := get_longer (c_layers c) Sref.
move: (obj_fields (longer_obj o)) (obj_depth (longer_obj o)) (dict_get (longer_dict _) _) hf hd hr => b1 d1 g1 -> -> ->.
case: (obj_fields o); cbn [negb]; last exact: erefl.
apply: bind_ext => sv; apply: bind_ext => m.
case: (c_source c) => [src|]; cbn [omap obind oapp get bind]; last exact: erefl.
cbn [omap obind oapp get bind longer_source s_wl]; rewrite krows_longer; apply: bind_ext => kk.
apply: bind_eq; first by case: (o) => ?; exact: erefl.
move=> f; case: (dict_get (c_layers c) Sref) => [er|]; cbn [omap obind oapp get bind]; last exact: erefl.
cbn [omap obind oapp get bind longer_entry snd]; apply: bind_ext => sr; apply: bind_ext => mr; apply: bind_ext => amp.
case: (c_solution c) => [sol|]; cbn [omap obind oapp get bind]; last exact: erefl.
cbn [omap obind oapp get bind longer_solution r_S r_Sls r_Srs].
apply: bind_ext => oSl; apply: bind_ext => oSr; apply: bind_ext => Sl; apply: bind_ext => Sr; apply: bind_ext => cd.
apply: bind_eq; last by move=> v; exact: erefl.
congr (fourier_fields_from_mode_amplitudes _ _ _ _ _).
rewrite k0_longer; have e : (t * (2 * PI / s_wl src) * (s * obj_depth o - s * zr) = (s * t) * (2 * PI / s_wl src * (obj_depth o - zr)))%Re by ring.
by rewrite e st; ring.
Qed.

Lemma fields_longer c z inc : fourier_fields (longer_crystal c) (s * z) inc = fourier_fields c z inc.
Proof.
rewrite /fourier_fields locate_longer; case: locate_layer => [[[x k] zr]|]; cbn [bind fst snd]; last by [].
by case: zr => [y||]; cbn [longer_bar]; [exact: fields_at_longer | exact: erefl | exact: erefl].
Qed.

Lemma idft_longer (f : 'cV[C]_n) kx ky k0 x y : idft f (RtoC (t * k0) *: kx) (RtoC (t * k0) *: ky) (s * x) (s * y) = idft f (RtoC k0 *: kx) (RtoC k0 *: ky) x y.
Proof.
apply: eq_bigr => j _; rewrite !mxE; congr (_ * cexp (ci * _)).
have e (a : R) (z : C) : RtoC (t * k0) * z * RtoC (s * a) = RtoC k0 * z * RtoC a.
  rewrite mulrAC -RtoC_mul [RHS]mulrAC -RtoC_mul; congr (RtoC _ * _).
  have e : (t * k0 * (s * a) = (s * t) * (k0 * a))%Re by ring.
  by rewrite e st; ring.
by rewrite !e.
Qed.

Lemma source_fields_longer c : same_side s (c_kp c) -> source_fields (longer_crystal c) = source_fields c.
Proof.
move=> h; rewrite /source_fields; cbn [c_source longer_crystal c_kp c_kzi]; case: (c_source c) => [src|]; cbn [omap obind oapp get bind]; last exact: erefl.
by cbn [omap obind oapp get bind longer_source s_te s_tm]; rewrite incident_longer.
Qed.

Lemma maps_longer c x y z inc : same_side s (c_kp c) \/ inc <> None ->
  fields_coords_xy (longer_crystal c) (s * x) (s * y) (s * z) inc = fields_coords_xy c x y z inc.
Proof.
move=> h; rewrite /fields_coords_xy; cbn [c_solution longer_crystal c_source c_exp c_kp].
case: (c_solution c) => [sol|]; cbn [omap obind oapp get bind]; last exact: erefl.
cbn [omap obind oapp get bind]; apply: bind_eq.
  by case: inc h => [f|] [h|//]; rewrite ?source_fields_longer.
move=> f; case: (c_source c) => [src|]; cbn [omap obind oapp get bind]; last exact: erefl.
cbn [omap obind oapp get bind longer_source s_wl]; rewrite krows_longer; apply: bind_ext => kk.
rewrite fields_longer k0_longer; apply: bind_ext => g.
by rewrite !idft_longer.
Qed.
End Solve.

(** The longer crystal from the start. *)
Lemma mk_expansion_longer pw l : mk_expansion pw (longer s l.1, longer s l.2) = (do e <- mk_expansion pw l; Ok (longer_expansion s e)).
Proof.
rewrite /mk_expansion /reciproc /longer; cbn [fst snd].
set det := (_ - _)%Re; set det' := (_ - _)%Re.
have ed : det = (s * s * det')%Re by rewrite /det /det'; ring.
have hs : s <> 0%Re by lra.
destruct (Req_EM_T det' 0) as [h|h].
  by destruct (Req_EM_T det 0) as [h'|h'] => //; case: h'; rewrite ed h; ring.
destruct (Req_EM_T det 0) as [h'|h']; first by case: h; apply: (Rmult_eq_reg_l (s * s)); nra.
cbn [bind]; case: generate_expansion_indices => [idx|//]; cbn [bind]; congr Ok.
rewrite ed; have eb (x : R) : (s * x * (twopi / (s * s * det')) = / s * (x * (twopi / det')))%Re by field.
have eb' (x : R) : (- (s * x) * (twopi / (s * s * det')) = / s * (- x * (twopi / det')))%Re by field.
rewrite /longer_expansion -gvecs_longer /=; cbn [e_pw e_reciprocal e_g e_sigma e_lhs_rhs omap]; rewrite /slower; cbn [fst snd].
rewrite !eb !eb'; congr (Expansion_ _ _ _ _ _).
rewrite /unitcellarea; cbn [fst snd]; rewrite (_ : (_ - _)%Re = (s * s * det')%Re); last by rewrite /det'; ring.
by rewrite Rabs_mult (Rabs_right (s * s)); [|nra].
Qed.

Lemma mk_crystal_longer n pw l a void epsi epse :
  mk_crystal n pw (longer_lattice s l) (s * a) void epsi epse = (do c <- mk_crystal n pw l a void epsi epse; Ok (longer_crystal c)).
Proof.
rewrite /mk_crystal.
have -> : crystal_lattice (s * a) (longer_lattice s l) = (do v <- crystal_lattice a l; Ok (longer s v.1, longer s v.2)).
  by case: l => [m|v] //=; rewrite /crystal_lattice; case: ifP => _; [|case: ifP => _ //]; congr Ok; rewrite /longer /=; congr ((_, _), (_, _)); ring.
case: crystal_lattice => [v|//]; cbn [bind]; rewrite mk_expansion_longer; case: mk_expansion => [e|//]; cbn [bind].
rewrite {1}/e_size; cbn [e_pw longer_expansion]; rewrite -/(e_size e); case: ifP => // _; cbn [bind]; congr Ok.
rewrite /crystal_of /longer_crystal /=; congr (Crystal _ _ _ _ _ _ _ _ _ _).
  by rewrite /slower_kp /= !mulr0.
by rewrite mulr0.
Qed.
End Scale.

(** The theorem. *)
Lemma scale_invariance s eig J1 n pw l a void epsi epse (c0 c : crystal n) ops : (0 < s)%Re ->
  mk_crystal n pw l a void epsi epse = Ok c0 -> history eig J1 c0 ops c -> all_calls (resolved_call s (c_exp c0)) ops ->
  exists c0' c', [/\ mk_crystal n pw (longer_lattice s l) (s * a) void epsi epse = Ok c0', history eig J1 c0' (map (longer_call s) ops) c',
    (forall sol, c_solution c = Some sol -> exists sol', [/\ c_solution c' = Some sol', r_S sol' = r_S sol &
       r_positions sol' = map (longer_bar s) (r_positions sol)]),
    (same_side s (c_kp c) -> poynting_flux_orders c' = poynting_flux_orders c) &
    forall x y z inc, same_side s (c_kp c) \/ inc <> None ->
       fields_coords_xy c' (s * x) (s * y) (s * z) inc = fields_coords_xy c x y z inc].
Proof.
move=> s0 h0 h hr; exists (longer_crystal s c0), (longer_crystal s c); split.
- by rewrite (mk_crystal_longer s0) h0.
- apply: (history_longer s0) => //; move: h0; rewrite /mk_crystal; case: crystal_lattice => //= v; case: mk_expansion => //= e.
  by case: ifP => // _ [<-].
- by move=> sol es; exists (longer_solution s sol); rewrite /= es.
- exact: (orders_longer s0).
- exact: (maps_longer s0).
Qed.

(** The source changes at 1e-8. *)
Lemma one_crystal a : a <> 0%Re -> is_ok (mk_crystal 1 (1, 1)%N (LatticeName "square") a false 1 1).
Proof.
move=> ha; rewrite /mk_crystal /crystal_lattice; cbn [String.eqb Ascii.eqb Bool.eqb bind]; rewrite /mk_expansion /reciproc; cbn [fst snd].
destruct (Req_EM_T (a * 1 * (a * 1) - a * 0 * (a * 0)) 0) as [h|h]; first by exfalso; nra.
by cbn [bind generate_expansion_indices odd fst snd negb]; eexists.
Qed.

Lemma kzi_one (wl x : R) : (0 < wl <= 2)%Re -> (0 <= x <= 1)%Re -> exists z : R, source_kzi (2 * PI / wl) 1 (RtoC x, 0) = RtoC z.
Proof.
move=> hw hx; rewrite /source_kzi; cbn [fst snd].
have k1 : (1 <= 2 * PI / wl)%Re.
  apply: (Rmult_le_reg_r wl); first lra.
  by rewrite /Rdiv Rmult_assoc Rinv_l; [have := PI2_1; lra|lra].
set k0 := (2 * PI / wl)%Re in k1 *.
have -> : RtoC k0 ^+ 2 * 1 - RtoC x ^+ 2 - 0 ^+ 2 = RtoC (k0 * k0 - x * x)%Re.
  by rewrite !expr2; apply: C_ext => /=; ring.
exists (sqrt (k0 * k0 - x * x)); rewrite csqrt_pos; last nra.
by apply: C_ext => /=; ring.
Qed.

Lemma scale_source eig J1 : exists (c0 c0' c c' : crystal 1) (kp : C * C), let calls := [:: SetSource 1 1 0 0 0 (Some kp)] in
  [/\ mk_crystal 1 (1, 1)%N (LatticeName "square") 1 false 1 1 = Ok c0, history eig J1 c0 calls c,
      mk_crystal 1 (1, 1)%N (LatticeName "square") (2 * 1) false 1 1 = Ok c0', history eig J1 c0' (map (longer_call 2) calls) c' &
      exists E E', [/\ source_fields c = Ok E, source_fields c' = Ok E' & E <> E']].
Proof.
pose x := (1 / 100000000)%Re; pose kp : C * C := (RtoC x, 0).
have [c0 h0] := one_crystal R1_neq_R0.
have i2 : (2 * 1)%Re <> 0%Re by lra.
have [c0' h0'] := one_crystal i2.
have eps c a : mk_crystal 1 (1, 1)%N (LatticeName "square") a false 1 1 = Ok c -> c_epsi c = 1.
  by rewrite /mk_crystal; case: crystal_lattice => //= v; case: mk_expansion => //= e; case: ifP => // _ [<-].
have set_ (c : crystal 1) wl k : (0 < wl)%Re -> exists c', [/\ set_source c wl 1 0 0 0 (Some k) = Ok c', c_source c' = Some (Source 1 0 0 0 wl), c_kp c' = k & c_kzi c' = source_kzi (2 * PI / wl) (c_epsi c) k].
  by move=> hw; rewrite /set_source /=; destruct (Req_EM_T wl 0) as [h|h]; [exfalso; lra | eexists; split].
have [//|c [e1 s1 k1 z1]] := set_ c0 1%Re kp; first lra.
have [//|c' [e2 s2 k2 z2]] := set_ c0' (2 * 1)%Re (slower_kp 2 kp); first lra.
have ek : slower_kp 2 kp = (RtoC (x / 2)%Re, 0).
  by rewrite /slower_kp /kp /=; congr (_, _); apply: C_ext => /=; field.
exists c0, c0', c, c', kp; split=> //.
- by apply: history_cons (history_nil _ _ _); apply: step_source.
- by apply: history_cons (history_nil _ _ _); apply: step_source.
have hx : (0 <= x <= 1)%Re by rewrite /x; lra.
have hx2 : (0 <= x / 2 <= 1)%Re by lra.
have w1 : (0 < 1 <= 2)%Re by lra.
have w2 : (0 < 2 * 1 <= 2)%Re by lra.
have [z hz] := kzi_one w1 hx.
have [z' hz'] := kzi_one w2 hx2.
rewrite /source_fields s1 s2 k1 k2 z1 z2 ek (eps _ _ h0) (eps _ _ h0') hz hz'; cbn [get bind s_te s_tm fst snd kp].
rewrite incident_te_oblique // ?incident_te_sliver //; first last.
- by rewrite /tiny /x; lra.
- by rewrite /x /tiny; lra.
cbn [bind]; do 2 eexists; split=> // /(congr1 usubmx); rewrite !col_mxKu => /(congr1 usubmx); rewrite !col_mxKu => /matrixP /(_ 0 0).
by rewrite !mxE /= => /(congr1 fst) /=; lra.
Qed.
