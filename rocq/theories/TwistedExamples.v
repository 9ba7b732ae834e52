(** A device made of a layer of one of two twisted gratings. *)
From Coq Require Import Reals ZArith Lra String.
From mathcomp Require Import all_ssreflect all_algebra.
From Coquelicot Require Import Complex Rbar.
From Verif Require Import Base CField CFun Blk ModelRedheffer RedhefferProofs SpecScatter ModelLayer SpecLayer UniformProofs LayerApiProofs
  ModelExpansion SpecExpansion ExpansionProofs ModelFlux SpecFlux ModelExtension ModelFourier ModelDevice SpecDevice StringEq SpecExtension ExtensionProofs
  JoinProofs ExtendedProofs NormalProofs FilmDevice DeviceExamples ExtensionTheorems FieldsTheorems ObliqueProofs IncidentProofs SpecTwisted.
Set Implicit Arguments. Unset Strict Implicit. Unset Printing Implicit Defensive.
Import GRing.Theory.
Local Open Scope ring_scope.

(** * A vacuum device of any lattice with any object that reflects nothing *)
Section Vac.
Variables (eig : forall m, 'M[C]_m -> 'rV[C]_m * 'M[C]_m) (J1 : R -> R) (n : nat) (e : expansion) (wl : R) (kp : C * C).
Variables (kx ky kz : 'rV[C]_n) (D : 'M[C]_(n + n)).
Hypotheses (hk : krows n e kp wl 1 = Ok (kx, ky, kz)) (rx : real_row kx) (ry : real_row ky).
Hypothesis hz : forall j, 1 - kx 0 j ^+ 2 - ky 0 j ^+ 2 != 0.
Notation Id := (scattering_identity C_fieldType (n + n)).
Lemma vac_modes : exists2 V : 'M[C]_(n + n), free_space_eigenmodes kx ky = Ok (1%:M, V) &
  divcols (Qref kx ky 1 1) (twice (ci *: half_kz kx ky 1 1)) = Ok V.
Proof.
have hV : exists V, divcols (Qref kx ky 1 1) (twice (ci *: half_kz kx ky 1 1)) = Ok V.
  rewrite /divcols ifT; first by eexists.
  apply/forallP; apply: twice_neq0E => j; rewrite !mxE mul1r mulf_neq0 ?ci_neq0 //.
  apply/eqP => /(congr1 Cconj); rewrite conjCK conjC0 => /eqP; rewrite csqrt_eq0; exact/negP.
have [W0 [V0 hF]] : exists W0 V0, free_space_eigenmodes kx ky = Ok (W0, V0).
  rewrite /free_space_eigenmodes; set V := divcols _ _.
  suff [v ->] : is_ok V by do 2 eexists.
  rewrite /V /divcols ifT; first by eexists.
  by apply/forallP; apply: twice_neq0E => j; rewrite !mxE mulf_neq0 ?kz_branch_eq0 ?ci_neq0.
case: hV => V hV; exists V => //.
have e0 := @vacuum_half n kx ky W0 V0 V rx ry hF hV; rewrite hF e0 //.
by move: hF; rewrite /free_space_eigenmodes; case: (divcols _ _) => [V1|//] [<- _].
Qed.
Definition vac_solved V : solved n := Solved (Some Id) (Some (1%:M, V, twice (ci *: half_kz kx ky 1 1))) (Some (inl 1^-1)) None.
Section Modes.
Variables (V : 'M[C]_(n + n)) (hF : free_space_eigenmodes kx ky = Ok (1%:M, V))
  (hV : divcols (Qref kx ky 1 1) (twice (ci *: half_kz kx ky 1 1)) = Ok V).
Lemma vac_unit : V \in unitmx.
Proof. by apply: half_V_unit hV; exact: oner_neq0. Qed.
Lemma vac_inc : layer_solve eig J1 n (Layer e (HALF_SPACE_INC 1) 0%Re true) kp wl = Ok (vac_solved V).
Proof.
rewrite /layer_solve /l_exp hk /= hF /= /scattering_reflection oner_eq0 hV /=.
by rewrite (matched_reflection vac_unit) /= /one_over oner_eq0.
Qed.
Lemma vac_trn : layer_solve eig J1 n (Layer e (HALF_SPACE_TRN 1) 0%Re true) kp wl = Ok (vac_solved V).
Proof.
rewrite /layer_solve /l_exp hk /= hF /= /scattering_transmission oner_eq0 hV /=.
by rewrite (matched_transmission vac_unit) /= /one_over oner_eq0.
Qed.
End Modes.

Lemma vac_stack (S : smat C_fieldType (n + n)) : stack_layers [:: Id; S; Id] [:: true; true; true] =
  Ok ([:: Some Id; Some S; Some S], [:: Some S; Some Id; Some Id], S).
Proof.
rewrite /stack_layers /stack_left rh_idL; cbn [bind]; rewrite rh_idL /mask_at /=; rewrite rh_idR /=; rewrite rh_idL /= rh_idR /=.
by [].
Qed.
Definition vac_crystal o (s a b : option (solved n)) src sol : crystal n :=
  Crystal false 1 1 e
    [:: ("twist"%string, (o, s)); (Sref, (Plain (Layer e (HALF_SPACE_INC 1) 0%Re true), a)); (Strans, (Plain (Layer e (HALF_SPACE_TRN 1) 0%Re true), b))]
    (Some ([:: "twist"%string], [:: Sref; "twist"%string; Strans], [:: true; true; true]))
    (omap fst src) (if src is Some r then r.2 else (0, 0)) (if src is Some r then source_kzi (2 * PI / s_wl r.1) 1 r.2 else 0) sol.
Notation src1 := (Some (Source 1 0 0%Re 0%Re wl, kp)).
Lemma vac_solve o s : obj_solve eig J1 n o kp wl = Ok s -> sl_S s = Some (Smat 0 D D 0) ->
  exists V sol, step eig J1 (vac_crystal o None None None src1 None) Solve
    (vac_crystal o (Some s) (Some (vac_solved V)) (Some (vac_solved V)) src1 (Some sol)) /\ r_S sol = Smat 0 D D 0.
Proof.
move=> hs hS; have [V hF hV] := vac_modes; exists V; eexists; split.
  apply: (step_solve (order := [:: Sref; "twist"%string; Strans])).
    by move=> dev [<-]; rewrite perm_refl.
  rewrite /crystal_solve /vac_crystal /= (vac_inc hF hV) /= hs /= (vac_trn hF hV) /= /entry_S /= hS /= vac_stack /=.
  reflexivity.
by [].
Qed.
End Vac.

(** * The twisted pair of three-order gratings *)
Section Pair.
Variables (eig : forall m, 'M[C]_m -> 'rV[C]_m * 'M[C]_m) (J1 : R -> R).

Lemma pair_inside (q t s c d : R) : (q * q <= 1)%Re -> (t * t <= 1)%Re -> (s * s <= 1)%Re -> (d * d + c * c = 1)%Re ->
  ((q + t * c + s) / 10 * ((q + t * c + s) / 10) + t * d / 10 * (t * d / 10) < 1)%Re.
Proof.
move=> hq ht hs h4.
have h6 : (t * c * (t * c) + t * d * (t * d) = t * t)%Re.
  have -> : (t * t = t * t * (d * d + c * c))%Re by rewrite h4; ring.
  ring.
have h7 : (0 <= t * c * (t * c))%Re by apply: Rle_0_sqr.
have h8 : (0 <= t * d * (t * d))%Re by apply: Rle_0_sqr.
have a1 := Rle_0_sqr (q - t * c)%Re; have a2 := Rle_0_sqr (q - s)%Re; have a3 := Rle_0_sqr (t * c - s)%Re.
rewrite /Rsqr in a1 a2 a3.
have -> : ((q + t * c + s) / 10 * ((q + t * c + s) / 10) + t * d / 10 * (t * d / 10) =
  ((q + t * c + s) * (q + t * c + s) + t * d * (t * d)) / 100)%Re by field.
lra.
Qed.
Lemma pair_row (q t s c d : R) : (q * q <= 1)%Re -> (t * t <= 1)%Re -> (s * s <= 1)%Re -> (d * d + c * c = 1)%Re ->
  1 - (RtoC (2 * PI * (q + t * c + s))%Re / RtoC (2 * PI / / 10)%Re) ^+ 2 -
    (RtoC (2 * PI * (t * d))%Re / RtoC (2 * PI / / 10)%Re) ^+ 2 != 0 :> C.
Proof.
move=> hq ht hs h4; have hpi := PI_neq0.
have hk0 : (2 * PI / / 10 <> 0)%Re by apply: Rmult_integral_contrapositive_currified; lra.
have kE u : RtoC (2 * PI * u)%Re / RtoC (2 * PI / / 10)%Re = RtoC (u / 10)%Re.
  rewrite invCE mulCE -RtoC_inv // -RtoC_mult; congr RtoC; field; lra.
by rewrite !kE; apply: inside_light; apply: pair_inside.
Qed.

Variables (e es : expansion).
Hypotheses (he : mk_expansion (3, 1)%N unit_lattice = Ok e) (hb : built e).
Hypothesis hg : e_g e = [:: ((-2 * PI)%Re, 0%Re); (0%Re, 0%Re); ((2 * PI)%Re, 0%Re)].
Hypothesis hes : add_expansion e (rotate 1%Re e) = Ok es.
Definition pair_kp (q : R) : C * C := (RtoC (2 * PI * q)%Re, RtoC 0%Re).
Definition pair_layer := Layer e (UNIFORM 1) 3%Re true.
Definition pair_ext := Extended es 1 (e_g (rotate 1%Re e)) pair_layer true.
Lemma pair_pw : e_pw e = (3%N, 1%N).
Proof. by move: he; rewrite /mk_expansion; case: (reciproc _ _) => // b; cbn [bind] => /= -[<-]. Qed.
Lemma pair_size : e_size e = 3%N. Proof. by rewrite /e_size pair_pw. Qed.
Lemma pair_sizes : e_size es = 9%N.
Proof. by have [_ _ _ ->] := add_expansionE hes; rewrite pair_size. Qed.
Lemma pair_built : built es.
Proof. by apply: built_add hes => //; apply: built_rotate. Qed.
Lemma pair_mk : mk_extended es IsLhs pair_layer = Ok pair_ext.
Proof. by rewrite /mk_extended; have [_ -> _ _] := add_expansionE hes. Qed.
Lemma pair_own j : (j < 3)%N -> exists2 s : R, (s * s <= 1)%Re & nth (0%Re, 0%Re) (e_g e) j = ((2 * PI * s)%Re, 0%Re).
Proof.
rewrite hg; case: j => [|[|[|//]]] _ /=; [exists (-1)%Re|exists 0%Re|exists 1%Re]; try lra; congr pair; ring.
Qed.
Lemma pair_other g : List.In g (e_g (rotate 1%Re e)) ->
  exists2 t : R, (t * t <= 1)%Re & g = ((2 * PI * (t * cos 1))%Re, (2 * PI * (t * sin 1))%Re).
Proof.
rewrite /= hg /= => -[<-|[<-|[<-|[]]]]; rewrite /rotate2 /=; [exists (-1)%Re|exists 0%Re|exists 1%Re]; try lra; congr pair; ring.
Qed.
Lemma pair_sum j : (j < 9)%N -> exists t s : R, [/\ (t * t <= 1)%Re, (s * s <= 1)%Re &
  nth (0%Re, 0%Re) (e_g es) j = ((2 * PI * (t * cos 1 + s))%Re, (2 * PI * (t * sin 1))%Re)].
Proof.
move=> hj; have [-> _ _ _] := add_expansionE hes.
have hin : List.In (nth (0%Re, 0%Re) (flatten [seq [seq add2 g1 g2 | g1 <- e_g (rotate 1%Re e)] | g2 <- e_g e]) j)
    (flatten [seq [seq add2 g1 g2 | g1 <- e_g (rotate 1%Re e)] | g2 <- e_g e]).
  by move: hj; rewrite /= hg /=; do 9 (case: j => [|j]; first by move=> _ /=; tauto).
move: hin; set v := nth _ _ _; clearbody v; rewrite hg /= !List.in_app_iff !List.in_map_iff.
move=> [[g1 [<- /pair_other [t ht ->]]]|[[g1 [<- /pair_other [t ht ->]]]|[[g1 [<- /pair_other [t ht ->]]]|[]]]]; exists t.
- by exists (-1)%Re; split=> //; [lra|rewrite /add2 /=; congr pair; ring].
- by exists 0%Re; split=> //; [lra|rewrite /add2 /=; congr pair; ring].
- by exists 1%Re; split=> //; [lra|rewrite /add2 /=; congr pair; ring].
Qed.

Lemma pair_wl : (/ 10 <> 0)%Re. Proof. lra. Qed.
Lemma pair_krows q : (q * q <= 1)%Re -> exists kx ky kz, [/\ krows 9 es (pair_kp q) (/ 10)%Re 1 = Ok (kx, ky, kz), real_row kx, real_row ky &
  forall j, 1 - kx 0 j ^+ 2 - ky 0 j ^+ 2 != 0].
Proof.
move=> hq; have hs := built_size pair_built.
have [[[kx ky] kz] hk] := krows_ok (pair_kp q) 1 pair_wl pair_sizes (etrans hs pair_sizes).
exists kx, ky, kz; have [] := @OuterFlux.krows_real 9 es (pair_kp q) (/ 10)%Re erefl erefl 1 _ _ _ hk; split=> // j.
have [_ _ /= -> ->] := krowsE hk hs; rewrite !mxE.
have [t [s [ht hs' ->]]] := pair_sum (ltn_ord j).
have hr := pair_row hq ht hs' (sin2_cos2 1).
have e1 : RtoC (2 * PI * (q + t * cos 1 + s))%Re = (pair_kp q).1 + RtoC (2 * PI * (t * cos 1 + s))%Re.
  by rewrite /= addCE -RtoC_plus; congr RtoC; ring.
have e2 : RtoC (2 * PI * (t * sin 1))%Re = (pair_kp q).2 + RtoC (2 * PI * (t * sin 1))%Re by rewrite /= add0r.
by rewrite e1 e2 in hr.
Qed.
Lemma pair_extended q : (q * q <= 1)%Re -> exists s D, extended_solve eig J1 9 pair_ext (pair_kp q) (/ 10)%Re = Ok s /\ sl_S s = Some (Smat 0 D D 0).
Proof.
move=> hq.
have [s hs] : is_ok (extended_solve eig J1 9 pair_ext (pair_kp q) (/ 10)%Re).
  rewrite (_ : 9%N = (e_size (l_exp pair_layer) * e_size (l_exp pair_layer))%N); last by rewrite /= pair_size.
  apply: (@extended_uniform_ok eig J1 pair_layer pair_ext 1) => //; first by rewrite /= pair_size size_map hg.
  move=> g /pair_other [t ht gE]; rewrite /= pair_size.
  have [k hk] := krows_ok (shift_kp g (pair_kp q)) 1 pair_wl pair_size (etrans (built_size hb) pair_size).
  suff hz : forall j, 1 - k.1.1 0 j ^+ 2 - k.1.2 0 j ^+ 2 != 0.
    by have [s [h4 _]] := vacuum_layer_ok eig J1 3%Re true hk hz; exists s.
  move=> j; have [_ _ -> ->] := krowsE hk (built_size hb); rewrite !mxE.
  have [s hs' ->] := pair_own (ltn_ord j); rewrite gE /shift_kp /=.
  have hr := pair_row hq ht hs' (sin2_cos2 1).
  have e1 : RtoC (2 * PI * (q + t * cos 1 + s))%Re = RtoC (2 * PI * (t * cos 1))%Re + RtoC (2 * PI * q)%Re + RtoC (2 * PI * s)%Re.
    by rewrite !addCE -!RtoC_plus; congr RtoC; ring.
  have e2 : RtoC (2 * PI * (t * sin 1))%Re = RtoC (2 * PI * (t * sin 1))%Re + RtoC 0%Re + RtoC 0%Re by rewrite !addr0.
  by rewrite e1 e2 in hr.
have [s' [h1 h2 _ _]] := extended_uniform_built hb (built_rotate _ hb) hes (erefl : l_exp pair_layer = operand_of IsLhs e (rotate 1%Re e)) erefl pair_mk hs.
have [k [[W0 V0] [[[W V] lam] [S [k1 k2 k3 k4 [_ k5]]]]]] := layer_uniformE h1.
have k6 := vacuum_layer 3%Re (2 * PI / / 10)%Re k2 k3; move: k4; rewrite k6 => -[eS].
by exists s; eexists; split=> //; rewrite h2 k5 -eS; reflexivity.
Qed.

Notation cr := (@vac_crystal 9 es).
Definition pair_calls : seq op := [:: AddExtended "twist"%string IsLhs pair_layer; SetDevice [:: "twist"%string] (inl true)].
Lemma pair_created : created (crystal_of 9 es false 1 1) false 1 1.
Proof.
right; exists es, (LatticeVectors unit_lattice), 1%Re; split; first exact: pair_built.
have hp : e_pw es = (9%N, 1%N).
  move: hes; rewrite /add_expansion pair_pw; case h: (mk_expansion _ _) => [e'|//]; cbn [bind]; case: eqP => // _ [<-] /=.
  by move: h; rewrite /mk_expansion; case: (reciproc _ _) => // b; cbn [bind] => /= -[<-].
rewrite /from_expansion /mk_crystal hp; cbn [crystal_lattice bind].
have [e' h] : is_ok (mk_expansion (9, 1)%N unit_lattice) by rewrite /mk_expansion; have [b ->] := reciproc_unit; eexists.
have h' : e_size e' = 9%N.
  by move: h; rewrite /mk_expansion; case: (reciproc _ _) => // b; cbn [bind] => /= -[<-].
by rewrite h; cbn [bind]; rewrite h' eqxx.
Qed.
Lemma pair_slab (P : formulation -> R -> Prop) : P (UNIFORM 1) 3%Re -> all_calls (slab_call P es) pair_calls.
Proof.
move=> hP; split; first split=> //; first by exists e, (rotate 1%Re e); split=> //; exact: built_rotate.
by split=> // s; rewrite inE => /eqP ->.
Qed.
Lemma pair_history : history eig J1 (crystal_of 9 es false 1 1) pair_calls (cr (Ext pair_ext) None None None None None).
Proof.
eapply history_cons; first by apply: step_extended; rewrite /add_layer_extended pair_mk; reflexivity.
eapply history_cons; first by apply: step_device; rewrite /set_device /=; reflexivity.
exact: history_nil.
Qed.
Lemma pair_source q : step eig J1 (cr (Ext pair_ext) None None None None None) (SetSource (/ 10)%Re 1 0 0%Re 0%Re (Some (pair_kp q)))
  (cr (Ext pair_ext) None None None (Some (Source 1 0 0%Re 0%Re (/ 10)%Re, pair_kp q)) None).
Proof.
apply: step_source; rewrite /set_source /=; destruct (Req_EM_T (/ 10) 0) as [h|h]; first by have := pair_wl.
by [].
Qed.
Lemma pair_solve q : (q * q <= 1)%Re -> exists s V sol D,
  step eig J1 (cr (Ext pair_ext) None None None (Some (Source 1 0 0%Re 0%Re (/ 10)%Re, pair_kp q)) None) Solve
   (cr (Ext pair_ext) (Some s) (Some V) (Some V) (Some (Source 1 0 0%Re 0%Re (/ 10)%Re, pair_kp q)) (Some sol)) /\
  r_S sol = Smat 0 D D 0 /\ exists v l, sl_modes V = Some (1%:M, v, l).
Proof.
move=> hq; have [kx [ky [kz [h1 h2 h3 h4]]]] := pair_krows hq; have [s [D [h5 h6]]] := pair_extended hq.
have [V [sol [h7 h8]]] := vac_solve (o := Ext pair_ext) h1 h2 h3 h4 h5 h6.
by exists s, (vac_solved kx ky V), sol, D; split=> //; split=> //; do 2 eexists.
Qed.

Lemma pair_kzi q : (q * q <= 1)%Re -> exists2 z, (0 < z)%Re & source_kzi (2 * PI / / 10)%Re 1 (pair_kp q) = RtoC z.
Proof.
move=> hq; have hpi := PI_RGT_0.
set k0 := (2 * PI / / 10)%Re; pose r := (k0 * k0 - (2 * PI * q) * (2 * PI * q))%Re.
have k0E : (k0 = 20 * PI)%Re by rewrite /k0; field.
have hr : (0 < r)%Re by rewrite /r k0E; have := Rmult_lt_0_compat _ _ hpi hpi; nra.
exists (sqrt r); first exact: sqrt_lt_R0.
rewrite /source_kzi (_ : _ - _ = RtoC r); last by rewrite /r /= !expr2; apply: C_ext => /=; ring.
by rewrite csqrt_pos; [apply: C_ext => /=; ring|lra].
Qed.
Lemma pair_incident q : (q * q <= 1)%Re -> (q = 0%Re \/ (1 <= q)%Re) ->
  is_ok (incident 9 1 0 ((pair_kp q).1, (pair_kp q).2, source_kzi (2 * PI / / 10)%Re 1 (pair_kp q)) true).
Proof.
move=> hq h; have [z _ ->] := pair_kzi hq; apply: incident_def => //; last by case=> h1; have := R1_neq_R0.
case: h => [->|h]; first by left; split=> //; ring.
right; rewrite Rmult_0_r Rplus_0_r.
have hp := PI2_3_2; rewrite sqrt_square; last by nra.
by rewrite /tiny; nra.
Qed.
Lemma pair_fluxes q (v : 'cV[C]_(9 + 9)) : (q * q <= 1)%Re -> is_ok (poynting_fluxes es v (pair_kp q) (/ 10)%Re 1 1).
Proof.
move=> hq; have [kx [ky [kz [h1 h2 h3 h4]]]] := pair_krows hq; have [z hz ez] := pair_kzi hq.
rewrite /poynting_fluxes; destruct (Req_EM_T (/ 10) 0) as [h|h]; first by have := pair_wl.
rewrite h1; cbn [bind]; rewrite /flux_kzi -[Cconj _]/(source_kzi _ _ _) ez.
have hp0 := PI_neq0; have hk0 : (2 * PI / / 10 <> 0)%Re by apply: Rmult_integral_contrapositive_currified; lra.
destruct (Req_EM_T _ 0) as [h'|h'].
  exfalso; move: h'; rewrite invCE mulCE -RtoC_inv // -RtoC_mult /= => h'.
  by have : (z / (2 * PI / / 10) <> 0)%Re by apply: Rmult_integral_contrapositive_currified; [lra|exact: Rinv_neq_0_compat].
rewrite ifF; first by eexists.
apply/negbTE; rewrite negb_exists; apply/forallP => j.
have -> := @OuterFlux.krows_half 9 es (pair_kp q) (/ 10)%Re _ erefl erefl 1%Re kx ky kz; rewrite -?oneCE //; last lra.
rewrite !mxE mulr1; apply/eqP => /(congr1 Cconj); rewrite conjCK conjC0 => /eqP; rewrite csqrt_eq0; exact/negP.
Qed.

Notation solved_crystal s V q sol := (cr (Ext pair_ext) (Some s) (Some V) (Some V) (Some (Source 1 0 0%Re 0%Re (/ 10)%Re, pair_kp q)) (Some sol)).
Lemma pair_good s V q sol : (q = 0%Re \/ (1 <= q)%Re) -> good_source (solved_crystal s V q sol).
Proof.
move=> hq; split; first by exists (Source 1 0 0%Re 0%Re (/ 10)%Re); split=> //; rewrite /s_wl; lra.
split=> //; split=> //=; case: hq => [->|h]; first by left; split=> //; ring.
right; rewrite Rmult_0_r Rplus_0_r; have hp := PI2_3_2; rewrite sqrt_square; nra.
Qed.
Lemma pair_flux s V q sol v l : (q * q <= 1)%Re -> (q = 0%Re \/ (1 <= q)%Re) -> sl_modes V = Some (1%:M, v, l) ->
  is_ok (poynting_flux_end (solved_crystal s V q sol)).
Proof.
move=> h1 h2 hV; have [inc hi] := pair_incident h1 h2.
rewrite /poynting_flux_end /poynting_flux_orders; cbn [c_solution c_source c_kp c_kzi c_exp c_epsi c_epse vac_crystal get bind omap obind oapp fst snd s_te s_tm s_wl].
rewrite hi; cbn [bind].
rewrite /named_modes /=; rewrite hV; cbn [get bind]; rewrite /inv unitmx1; cbn [bind fst snd].
set u := _ *m _ *m _; have [T ->] := pair_fluxes u h1; cbn [bind]; set w := _ *m _ *m _; have [R' ->] := pair_fluxes w h1.
by eexists.
Qed.
End Pair.

Lemma twisted_pair_found : exists e es, [/\ mk_expansion (3, 1)%N unit_lattice = Ok e, built e,
  e_g e = [:: ((-2 * PI)%Re, 0%Re); (0%Re, 0%Re); ((2 * PI)%Re, 0%Re)] & add_expansion e (rotate 1%Re e) = Ok es].
Proof.
have [e [he hb hg]] := grating; exists e.
have [es hes] : is_ok (add_expansion e (rotate 1%Re e)).
  by case: (add_outcome (rotate 1%Re e) (built_wf hb)) => -[] //; rewrite /= size_map.
by exists es.
Qed.

Section Found.
Variables (eig : forall m, 'M[C]_m -> 'rV[C]_m * 'M[C]_m) (J1 : R -> R).
Lemma twisted_energy (P : formulation -> R -> Prop) : P (UNIFORM 1) 3%Re -> exists (c0 c c' : crystal 9) ops RT,
  [/\ created c0 false (RtoC 1%Re) (RtoC 1%Re), all_calls (slab_call P (c_exp c0)) ops /\
      (exists name who l, List.In (AddExtended name who l) ops), history eig J1 c0 ops c &
      [/\ step eig J1 c Solve c', good_source c' & poynting_flux_end c' = Ok RT]].
Proof.
move=> hP; have [e [es [he hb hg hes]]] := twisted_pair_found.
have hq : (1 * 1 <= 1)%Re by lra.
have hq2 : (1 = 0 \/ 1 <= 1)%Re by right; lra.
have [s [V [sol [D [h1 [h2 [v [l h3]]]]]]]] := pair_solve eig J1 he hb hg hes hq.
have [RT h4] := pair_flux he hb hg hes s sol hq hq2 h3.
exists (crystal_of 9 es false 1 1); do 2 eexists; exists (pair_calls e ++ [:: SetSource (/ 10)%Re 1 0 0%Re 0%Re (Some (pair_kp 1))]), RT; split.
- exact: (pair_created he hb hes).
- split; last by exists "twist"%string, IsLhs, (pair_layer e); left.
  have [a1 [a2 _]] := pair_slab hb hes hP; by split; [exact: a1|split; [exact: a2|split]].
- apply: history_cat (pair_history eig J1 hes) _; eapply history_cons; first exact: pair_source.
  exact: history_nil.
- by split; [exact: h1|exact: pair_good|exact: h4].
Qed.
Lemma twisted_reciprocity : exists (c0 c ca ca' cb cb' : crystal 9) ops sa sb mL mL' mR mR' kp kp',
  [/\ created c0 false 1 1, all_calls (slab_call (fun f _ => is_slab f) (c_exp c0)) ops /\
      (exists name who l, List.In (AddExtended name who l) ops) & history eig J1 c0 ops c] /\
  [/\ step eig J1 c (SetSource (/ 10)%Re 1 0 0%Re 0%Re kp) ca /\ step eig J1 ca Solve ca',
      step eig J1 c (SetSource (/ 10)%Re 1 0 0%Re 0%Re kp') cb /\ step eig J1 cb Solve cb',
      [/\ (c_kp ca).1 <> 0, (c_kp cb).1 = - (c_kp ca).1 & (c_kp cb).2 = - (c_kp ca).2],
      c_solution ca' = Some sa /\ c_solution cb' = Some sb &
      (named_modes ca' Sref = Ok mL /\ named_modes cb' Sref = Ok mL') /\
      (named_modes ca' Strans = Ok mR /\ named_modes cb' Strans = Ok mR')].
Proof.
have [e [es [he hb hg hes]]] := twisted_pair_found.
have hq : (1 * 1 <= 1)%Re by lra.
have hq2 : (-1 * -1 <= 1)%Re by lra.
have [s [V [sol [D [h1 [h2 [v [l h3]]]]]]]] := pair_solve eig J1 he hb hg hes hq.
have [s' [V' [sol' [D' [h1' [h2' [v' [l' h3']]]]]]]] := pair_solve eig J1 he hb hg hes hq2.
exists (crystal_of 9 es false 1 1); do 5 eexists; exists (pair_calls e); do 8 eexists; split; split.
- exact: (pair_created he hb hes).
- split; last by exists "twist"%string, IsLhs, (pair_layer e); left.
  exact: (pair_slab hb hes).
- exact: pair_history.
- split; [exact (@pair_source eig J1 e es 1%Re)|exact: h1].
- split; [exact (@pair_source eig J1 e es (-1)%Re)|exact: h1'].
- split=> /=; first by move=> /(congr1 fst) /=; have := PI_RGT_0; lra.
    by apply: C_ext => /=; ring.
  by apply: C_ext => /=; ring.
- by split; reflexivity.
- by rewrite /named_modes /= h3 h3'; split; split; reflexivity.
Qed.
End Found.
