(** Field maps of concrete devices. *)
From Coq Require Import Reals ZArith Lra Lia String.
From mathcomp Require Import all_ssreflect all_algebra.
From Coquelicot Require Import Complex Rbar.
From Verif Require Import Base ZmodTac CField CFun Blk ModelRedheffer SpecScatter SpecStack RedhefferProofs ModelLayer SpecLayer
  LayerProofs LayerCProofs LayerApiProofs SpecMaxwell UniformProofs NormalProofs SpecThinFilm ThinFilmProofs EnergyAlg FluxProofs IncidentProofs OuterFlux SpecEig
  ModelExpansion SpecExpansion ExpansionProofs ModelFlux SpecFlux ModelFourier
  ModelExtension ModelDevice SpecDevice StringEq DeviceProofs DeviceEnergy FilmDevice HistoryProofs DepthProofs DeviceExamples DeviceTheorems
  ModelFields SpecFields StackProofs SolvedProofs Calculus FieldsProofs RetainProofs EmergenceProofs LongProofs ScalarProofs FieldsTheorems.
Set Implicit Arguments. Unset Strict Implicit. Unset Printing Implicit Defensive.
Import GRing.Theory.
Local Open Scope ring_scope.

Section Film.
Variables (eig : forall m, 'M[C]_m -> 'rV[C]_m * 'M[C]_m) (J1 : R -> R).
Variables (n1 n3 d wl : R) (w te tm : C).
Hypotheses (h1 : (0 < n1)%Re) (h3 : (0 < n3)%Re) (hw : (0 < fst w)%Re) (hw' : snd w = 0%Re)
  (hd : (0 < d)%Re) (hl : (0 < wl)%Re) (hp : (te, tm) <> (0, 0)).
Notation phi := (cexp (- (ci * w * RtoC (d * (2 * PI / wl))%Re))).
Notation S_film := (scS (1 + 1) (airy_r (RtoC n1) w (RtoC n3) phi) (airy_t (RtoC n3) w (RtoC n1) phi)
                  (airy_t (RtoC n1) w (RtoC n3) phi) (airy_r (RtoC n3) w (RtoC n1) phi)).

Lemma film_fields : exists (e : expansion) sol,
  let c0 := crystal_of 1 e false (RtoC (n1 * n1)%Re) (RtoC (n3 * n3)%Re) in
  let c := film_crystal e n1 n3 d wl w te tm None None None None in
  let c' := film_crystal e n1 n3 d wl w te tm (Some (film_solved d wl w)) (Some (inc_solved n1)) (Some (trn_solved n3)) (Some sol) in
  [/\ e_pw e = (1, 1)%N, e_g e = [:: (0, 0)%Re], created c0 false (RtoC (n1 * n1)%Re) (RtoC (n3 * n3)%Re),
      all_calls own_call (film_calls d wl w te tm) & history eig J1 c0 (film_calls d wl w te tm) c] /\
  [/\ step eig J1 c Solve c', r_S sol = S_film, device_depths c' [:: d], unclipped c' &
      forall inc z, is_ok (fourier_fields c' z inc)].
Proof.
have [e [he _ hpw hg]] := multilayer_exp (RtoC (n1 * n1)%Re) (RtoC (n3 * n3)%Re).
have hw2 : (snd w <= 0)%Re by lra.
have hd0 : (0 <= d)%Re by lra.
have [sol [hs hS]] := @film_solve eig J1 e hpw hg n1 n3 d wl w te tm h1 h3 hw hw2 hd0 hl None None None None.
exists e, sol; cbv zeta.
set c0 := crystal_of _ _ _ _ _; set c := film_crystal _ _ _ _ _ _ _ _ None _ _ _; set c' := film_crystal _ _ _ _ _ _ _ _ (Some _) _ _ _.
have hc0 : created c0 false (RtoC (n1 * n1)%Re) (RtoC (n3 * n3)%Re) := multilayer_created he.
have hcalls : all_calls own_call (film_calls d wl w te tm).
  by split=> //; split; [exact: film_stack|split].
have hh : history eig J1 c0 (film_calls d wl w te tm) c by exact: film_setup.
have hds : device_depths c' [:: d].
  eexists; split; [reflexivity|by []|]; case=> // _.
  by eexists; split; [reflexivity|].
split; split=> //.
- move=> dev src name l s m [<-] [<-] /=; rewrite inE => /eqP ->; rewrite /= => -[<- <-] /= [<-] /= j.
  have -> : twof (fun _ : 'I_1 => ci * w) 0 j = ci * w by rewrite mxE; case: split => k; rewrite mxE.
  by rewrite /= hw' (_ : 0 * fst w - 1 * 0 = 0)%Re ?Rabs_R0 ?Rmult_0_l; [exact: ln_big|ring].
- move=> inc z.
  have hstep : exists c1 c2, [/\ own_crystal (RtoC (n1 * n1)%Re) (RtoC (n3 * n3)%Re) c1,
     step eig J1 c1 (SetDevice [:: "film"%string] (inl true)) c2 & step eig J1 c2 (SetSource wl te tm 0%Re 0%Re None) c].
    inversion hh as [|o ops c1 c2 s1 hh1]; subst.
    inversion hh1 as [|o ops c3 c4 s2 hh2]; subst.
    inversion hh2 as [|o ops c5 c6 s3 hh3]; subst.
    have o1 : own_crystal (RtoC (n1 * n1)%Re) (RtoC (n3 * n3)%Re) c1.
      exact: (@step_own _ _ _ _ _ _ (AddUniform "film" (w * w) d) _ (created_own hc0) film_user s1).
    by exists c1, c3; split=> //; inversion hh3; subst.
  have [c1 [c2 [o1 s1 s2]]] := hstep.
  have nn : nonneg [:: d] by case=> [|[|i]] /=; lra.
  apply/(retained inc z o1 film_stack s1 s2 hs _ hds nn) => //.
  case: (Rle_dec z 0) => hz; first by left.
  case: (Rlt_dec d z) => hz2; first by right; left; rewrite /depth_before /= big_ord1.
  by right; right; exists 0%N; split=> //; rewrite ?depth_beforeS depth_before0 /=; lra.
Qed.
Notation c'_ e sol := (film_crystal e n1 n3 d wl w te tm (Some (film_solved d wl w)) (Some (inc_solved n1)) (Some (trn_solved n3)) (Some sol)).
(** Its source. *)
Lemma film_amplitudes e sol : exists inc a b, [/\ source_fields (c'_ e sol) = Ok inc, map_amplitude (c'_ e sol) inc a,
  flux_amplitude (c'_ e sol) b & b <> 0].
Proof.
have hreg : frame_regular 0%Re 0%Re by left.
have [v hv] := @incident_def 1 te tm 0%Re 0%Re (2 * PI / wl * n1)%Re hreg isT hp.
have [j0 [sz [_ _ ht hn _]]] := @incident_transverse 1 te tm 0%Re 0%Re (2 * PI / wl * n1)%Re v hreg hv.
have uV : RtoC n1 *: V0n 1 \in unitmx.
  rewrite unitmxZ; last by rewrite unitfE RtoC_neq0 //; lra.
  by apply: (proj1 (mulmx1_unit (V0n_sqr 1))).
have ue := @eigenbasis_unit _ 1%:M (RtoC n1 *: V0n 1) (unitmx1 _ _) uV.
exists (col_mx v 0), (usubmx (invmx (layer_eigenbasis_matrix 1%:M (RtoC n1 *: V0n 1)) *m col_mx v 0)), (invmx 1%:M *m v).
split.
- by rewrite /source_fields /= hv.
- by eexists; eexists; split; [reflexivity|rewrite /solve /= ue|].
- by do 4 eexists; split; [reflexivity|reflexivity|exact: hv|rewrite /inv /= unitmx1|].
- rewrite invmx1 mul1mx => v0; move: hn; rewrite v0 !mxE; move: ht; rewrite v0 !mxE /dot3 /vx /vy /vz /= !mul0r !add0r => /eqP.
  have kp := k0_pos hl; rewrite mulf_eq0 => /orP [/eqP /(congr1 fst) /=|/eqP ->]; last by rewrite /abs2 /=; lra.
  by move=> h; have := Rmult_lt_0_compat _ _ kp h1; rewrite h => /Rlt_irrefl.
Qed.
End Film.

Section Refuted.
Variables (eig : forall m, 'M[C]_m -> 'rV[C]_m * 'M[C]_m) (J1 : R -> R).

Lemma amplitude_mismatch : exists (c0 c c' : crystal 1) ops inc a b,
  [/\ created c0 false (RtoC (1 * 1)%Re) (RtoC (2 * 2)%Re), all_calls own_call ops, history eig J1 c0 ops c, step eig J1 c Solve c' &
   [/\ source_fields c' = Ok inc, map_amplitude c' inc a, flux_amplitude c' b & a <> b]].
Proof.
have hp : (1 : C, 0 : C) <> (0, 0) by case=> h; move: h; lra.
have p1 : (0 < 1)%Re by lra.
have p2 : (0 < 2)%Re by lra.
have p3 : (0 < 3)%Re by lra.
have [e [sol [[_ _ k1 k2 k3] [k4 _ _ _ _]]]] := @film_fields eig J1 1 2 1 1 (RtoC 3) 1 0 p1 p2 p3 erefl p1 p1.
have [inc [a [b [a1 a2 a3 a4]]]] := @film_amplitudes 1 2 1 1 (RtoC 3) 1 0 p1 p1 hp e sol.
do 3 eexists; exists (film_calls 1 1 (RtoC 3) 1 0), inc, a, b; split; [exact: k1|exact: k2|exact: k3|exact: k4|split=> //].
rewrite (half_amplitude k1 k2 k3 k4 a1 a2 a3) => h; apply: a4.
have : (2%:R^-1 - 1) *: b = 0 by rewrite scalerBl h scale1r subrr.
move/eqP; rewrite scaler_eq0 => /orP [/eqP|/eqP //] h2.
have t0 := two_neq0; have : 2%:R * (2%:R^-1 - 1) = 0 :> C by rewrite h2 mulr0.
rewrite mulrBr mulfV // mulr1 -[2%:R]/(1 + 1) opprD addrA subrr sub0r => /(congr1 fst) /=; lra.
Qed.

Lemma jump_at_end : exists (c0 c c' : crystal 1) ops ds inc,
  [/\ created c0 false (RtoC (1 * 1)%Re) (RtoC (2 * 2)%Re), all_calls own_call ops, history eig J1 c0 ops c, step eig J1 c Solve c' &
   [/\ device_depths c' ds, all_positive ds, unclipped c', (forall z, is_ok (fourier_fields c' z inc)) & source_fields c' = Ok inc]] /\
  ~ fields_continuous c' inc (depth_before ds (size ds)).
Proof.
have hp : (1 : C, 0 : C) <> (0, 0) by case=> h; move: h; lra.
have p1 : (0 < 1)%Re by lra.
have p2 : (0 < 2)%Re by lra.
have [e [sol [[hpw hg k1 k2 k3] [k4 k5 k6 k7 k8]]]] := @film_fields eig J1 1 2 1 1 (RtoC 1) 1 0 p1 p2 p1 erefl p1 p1.
have [inc [a [b [a1 a2 a3 a4]]]] := @film_amplitudes 1 2 1 1 (RtoC 1) 1 0 p1 p1 hp e sol.
have ha := half_amplitude k1 k2 k3 k4 a1 a2 a3.
have hpos : all_positive [:: 1%Re] by case=> //= _; lra.
do 3 eexists; exists (film_calls 1 1 (RtoC 1) 1 0), [:: 1%Re], inc; split.
  split; [exact: k1|exact: k2|exact: k3|exact: k4|split=> //; exact: k8].
case: a2 => mr [amp [b1 b2 b3]].
have hk : krows 1 e (0, 0) 1%Re 1 = Ok (0, 0, \row_(j < 1) RtoC 1).
  by have := @film_kz e hpw hg 1%Re 1%Re Rlt_0_1 Rlt_0_1; rewrite Rmult_1_l.
have [|kz [hk' _]] := film_krows hpw hg 1 (wl := 1%Re); first lra.
move/(continuous_end k1 k2 k3 k4 k6 hpos k7 (k8 inc) (erefl _) hk (free_normal 1) b1 (erefl _) b2 (erefl _)).
rewrite /= k5 /= -b3 ha; set t := airy_t _ _ _ _; rewrite !mul_scalar_mx => h.
have {h} : t *: (2%:R^-1 *: b) = 0.
  move: h; set x := t *: _; rewrite -scalemxAl => /(congr1 (mulmx (V0n 1))).
  rewrite -[RHS]scalemxAr !mulmxA V0n_sqr !mul1mx => h; have : RtoC 2 *: x - x = 0 by rewrite -h subrr.
  by rewrite (_ : RtoC 2 = 1 + 1) ?scalerDl ?scale1r ?addrK //; apply: C_ext => /=; ring.
rewrite scalerA => /eqP; rewrite scaler_eq0 => /orP [|/eqP //]; rewrite mulf_eq0 invr_eq0 (negbTE two_neq0) orbF => /eqP t0.
move: t0; rewrite /t /airy_t /fresnel_r -[RtoC 1]/(1 : C) subrr !mul0r addr0 divr1 /fresnel_t => /eqP.
rewrite !mulf_eq0 (negbTE (cexp_neq0 _)) orbF !invr_eq0 (negbTE two_neq0) oner_eq0 /=.
by move=> /eqP /(congr1 fst) /=; lra.
Qed.
End Refuted.

(** * Devices without outer media *)
Section Void.
Variables (eig : forall m, 'M[C]_m -> 'rV[C]_m * 'M[C]_m) (J1 : R -> R).
Section Any.
Variable n : nat.
Implicit Types (c : crystal n).
Definition no_ref c : Prop := c_void c = true /\ dict_get (c_layers c) Sref = None /\
  forall dev, c_device c = Some dev -> Sref \notin dev.1.2.
Lemma created_no_ref c e1 e2 : created c true e1 e2 -> no_ref c.
Proof.
case.
  case=> pw [l [a]]; rewrite /mk_crystal; case: (crystal_lattice a l) => [lat|//] /=.
  by case he : (mk_expansion pw lat) => [e|//] /=; case: ifP => // _ [<-].
case=> e [l [a [he]]]; rewrite /from_expansion; case: (mk_crystal _ _ _ _ _ _ _) => [c0|//] /= [<-].
by [].
Qed.
Lemma get_set_ref (d : seq (string * entry n)) name x : user_name name -> dict_get d Sref = None ->
  dict_get (dict_set d name x) Sref = None.
Proof. by move=> [h _] hd; rewrite dict_get_set; case: eqP. Qed.
Lemma enable_ref (d d' : seq (string * entry n)) l : enable_fields d l = Ok d' -> dict_get d Sref = None -> dict_get d' Sref = None.
Proof.
elim: l d => [|[name b] l IH] d /=; first by case=> <-.
case hg : (dict_get d name) => [x0|//] /= /IH h hd; apply: h; rewrite dict_get_set.
by case: eqP => // e; rewrite e hd in hg.
Qed.
Lemma step_no_ref c o c' : no_ref c -> outer_call o -> step eig J1 c o c' -> no_ref c'.
Proof.
move=> [hv [hd hdev]] ho hs; case: hs ho => {o c'} /=.
- by move=> name eps d u; split=> //; split=> //; apply: get_set_ref.
- by move=> name p d u; split=> //; split=> //; apply: get_set_ref.
- move=> name p d c'; rewrite /add_pixmap_or_uniform /pixmap_or_uniform; case: ifP => // _.
  by case: ifP => _ /= -[<-] u; split=> //; split=> //; apply: get_set_ref.
- by move=> name isl h d u; split=> //; split=> //; apply: get_set_ref.
- by move=> name l u; split=> //; split=> //; apply: get_set_ref.
- move=> name who l c'; rewrite /add_layer_extended; case: (mk_extended _ _ _) => [x|//] /= [<-] u.
  by split=> //; split=> //; apply: get_set_ref.
- move=> stack mask c'; rewrite /set_device hv; case he : (enable_fields _ _) => [d|//] /= [<-] u; split=> //=.
  have ns s : s = Sref \/ s = Strans -> s \in stack = false by move=> hs; apply/negP => /u [k1 k2]; case: hs.
  split.
    apply: enable_ref he _; rewrite /add_default /= !ns //=; by [left|right].
  by move=> dev [<-] /=; apply/negP => /u [].
- move=> wl te tm th ph kp c'; rewrite /set_source; case: (match kp with Some _ => _ | None => _ end) => [k|//] /=.
  by destruct (Req_EM_T wl 0) as [h0|h0] => // -[<-] _.
- move=> order c' hord /solve_parts [src' [dev' [d' [es' [pos [Ss' [st' [[h1 h2 h3 h4] h5 h6 h7 ->]]]]]]]] _.
  split=> //=; split; last by [].
  have [_ /(_ Sref)] := solve_all_ok h3.
  have := perm_mem (hord _ h2) Sref; rewrite mem_undup (negbTE (hdev _ h2)) => ->.
  by move=> ->.
Qed.
Lemma history_no_ref c ops c' : no_ref c -> all_calls outer_call ops -> history eig J1 c ops c' -> no_ref c'.
Proof.
move=> g h hh; elim: hh g h => {c ops c'} [//|c o ops c1 c2 hs _ IH] g [h1 h2]; apply: IH => //.
exact: step_no_ref hs.
Qed.
(** Without outer media no field can be computed, whatever the mask. *)
Lemma void_no_fields c0 e1 e2 ops c z inc : created c0 true e1 e2 -> all_calls outer_call ops -> history eig J1 c0 ops c ->
  ~ is_ok (fourier_fields c z inc).
Proof.
move=> hc ho hh; have [_ [hr _]] := history_no_ref (created_no_ref hc) ho hh.
case=> v; rewrite /fourier_fields; case: (locate_layer c z) => [[[x k] [zr||]]|] //=.
rewrite /fourier_fields_at; case: ifP => // _; case: (x.2) => [s|] //=; case: (sl_modes s) => [m|] //=.
case: (c_source c) => [src|] //=; case: (krows _ _ _ _ _) => [kk|] //=.
case: (match x.1 with Plain _ => _ | Ext _ => _ end) => [f|] //=.
by rewrite hr.
Qed.
Lemma void_no_fluxes c0 e1 e2 ops c : created c0 true e1 e2 -> all_calls outer_call ops -> history eig J1 c0 ops c ->
  ~ is_ok (poynting_flux_end c).
Proof.
move=> hc ho hh; have [_ [hr _]] := history_no_ref (created_no_ref hc) ho hh.
case=> v; rewrite /poynting_flux_end /poynting_flux_orders; case: (c_solution c) => [sol|] //=.
case: (c_source c) => [src|] //=; case: (incident _ _ _ _ _) => [inc|] //=.
by rewrite /named_modes hr.
Qed.
End Any.

Lemma void_lookup : exists (c0 c : crystal 1) r,
  [/\ created c0 true 1 1, all_calls outer_call void_calls, history eig J1 c0 void_calls c,
      device_depths c [:: 1%Re; 1%Re] & locate_layer c (1 / 2)%Re = Ok r /\ r.2 <> Finite (1 / 2 - depth_before [:: 1%Re; 1%Re] 0)%Re].
Proof.
have p1 : (0 < 1)%Re by lra.
have p0 : (0 <= 1)%Re by lra.
have p5 : (0 <= 0)%Re by lra.
have [e [he hpw hg]] := void_exp 1 1.
exists (crystal_of 1 e true 1 1).
set phi := cexp (- (ci * RtoC 1 * RtoC (1 * (2 * PI / 1))%Re)).
have r0 : film_r (RtoC 1) phi = 0 by rewrite /film_r -[RtoC 1]/(1 : C) subrr !mul0r.
have [S2 hS2] : is_ok (redheffer_product (film_sc (1 + 1) (RtoC 1) phi) (film_sc (1 + 1) (RtoC 1) phi)).
  rewrite /film_sc rh_scal; first by eexists.
  by rewrite r0 mulr0 subr0 oner_neq0.
eexists; eexists; split.
- by left; exists (1, 1)%N, (LatticeName "square"), 1%Re.
- split=> //; split; last by split.
  by move=> s; rewrite !inE => /orP [] /eqP ->.
- apply: (history_cons (step_uniform _ _ _ _ _ _)).
  eapply history_cons; first by eapply step_device; rewrite /set_device /=; reflexivity.
  eapply history_cons.
    apply: step_source; rewrite /set_source [compute_kplanar _ _ _ _](film_kplanar p1) /=.
    by destruct (Req_EM_T 1 0) as [h|h]; [lra|reflexivity].
  eapply history_cons; last by constructor.
  apply: (step_solve (order := [:: "film"%string])); first by move=> dev [<-].
  rewrite /crystal_solve /= (@film_layer eig J1 e hpw hg 1%Re 1%Re (RtoC 1) p1 p5 p0 p1) /=.
  rewrite /stack_layers /= rh_idL /= -/phi hS2 /= rh_idR /=; reflexivity.
- eexists; split; [reflexivity|by []|]; case=> [|[|//]] _; by eexists; split; [reflexivity|].
- rewrite /locate_layer /=.
  destruct (Rlt_dec (0 + 1) (1 / 2)) as [h|h]; first by exfalso; lra.
  cbn -[film_sc depth_before Rle_dec]; destruct (Rle_dec (1 / 2) 0) as [h'|h']; first by exfalso; lra.
  by cbn -[film_sc depth_before]; split; [reflexivity|].
Qed.
End Void.
