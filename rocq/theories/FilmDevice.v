(** A thin film at normal incidence, through the whole pipeline of calls. *)
From Coq Require Import Reals ZArith Lra Lia String.
From mathcomp Require Import all_ssreflect all_algebra.
From Coquelicot Require Import Complex Rbar.
From Verif Require Import Base ZmodTac CField CFun Blk ModelRedheffer SpecScatter RedhefferProofs ModelLayer SpecLayer
  LayerProofs LayerApiProofs ScalarProofs NormalProofs SpecThinFilm ThinFilmProofs SpecMaxwell ModelExpansion SpecExpansion ExpansionProofs ModelFlux SpecFlux SpecEnergy EnergyAlg
  FluxProofs IncidentProofs OuterFlux ModelFourier ModelExtension ModelDevice SpecDevice StringEq DeviceProofs.
Set Implicit Arguments. Unset Strict Implicit. Unset Printing Implicit Defensive.
Import GRing.Theory.
Local Open Scope ring_scope.

Lemma RtoC_sqr (x : R) : RtoC (x * x)%Re = RtoC x * RtoC x.
Proof. exact: RtoC_mult. Qed.
Lemma RtoC_neq0 (x : R) : (x <> 0)%Re -> RtoC x != 0.
Proof. by move=> h; apply/eqP => /(congr1 fst). Qed.

(** The expansion of a Multilayer: the zero order only. *)
Lemma multilayer_exp epsi epse : exists e,
  [/\ multilayer 1 epsi epse = Ok (crystal_of 1 e false epsi epse), built e, e_pw e = (1%N, 1%N) & e_g e = [:: (0%Re, 0%Re)]].
Proof.
rewrite /multilayer /mk_crystal /=.
case he : (mk_expansion _ _) => [e|] /=; last first.
  move: he; rewrite /mk_expansion /reciproc /=; destruct (Req_EM_T _ 0) as [h|h] => //.
  by exfalso; lra.
have hb := built_init he.
have hpw : e_pw e = (1%N, 1%N).
  by move: he; rewrite /mk_expansion; case: (reciproc _ _) => //= b [<-].
exists e; rewrite /e_size hpw /=; split=> //.
have [s c _] := built_centred hb; rewrite hpw /= in s.
rewrite s /= /gth in c; move: s c; case: (e_g e) => [//|x [|]] //= _ ->; by [].
Qed.

Section Film.
Variables (eig : forall m, 'M[C]_m -> 'rV[C]_m * 'M[C]_m) (J1 : R -> R).
Variables (e : expansion).
Hypotheses (hpw : e_pw e = (1%N, 1%N)) (hg : e_g e = [:: (0%Re, 0%Re)]).

Lemma row0 (f : 'I_1 -> C) : (forall j, f j = 0) -> \row_j f j = 0.
Proof. by move=> h; apply/rowP => j; rewrite !mxE. Qed.

Lemma film_krows wl eps : (wl <> 0)%Re -> exists kz : 'rV[C]_1,
  krows 1 e (0, 0) wl eps = Ok (0, 0, kz) /\
  forall j, kz 0 j = Cconj (csqrt (RtoC (2 * PI / wl)%Re ^+ 2 * Cconj eps)) / RtoC (2 * PI / wl)%Re.
Proof.
move=> h; rewrite /krows /e_size hpw hg /=; destruct (Req_EM_T wl 0) as [h'|h'] => //.
eexists; split.
  congr (Ok (_, _, _)); by apply: row0 => j; rewrite ord1 /= addr0; apply: mul0r.
move=> j; rewrite mxE ord1 /= /kz_from_kplanar !addr0 !expr0n !subr0 //.
Qed.
Lemma csqrt_k0 (k n : R) : (0 < k)%Re -> (0 < n)%Re ->
  csqrt (RtoC k ^+ 2 * RtoC (n * n)%Re) = RtoC (k * n)%Re.
Proof.
move=> hk hn; have -> : RtoC k ^+ 2 * RtoC (n * n)%Re = RtoC (k * n)%Re * RtoC (k * n)%Re.
  by rewrite -!RtoC_sqr expr2 -RtoC_sqr -[RHS]/(RtoC _); apply: C_ext => /=; ring.
by apply: csqrt_unique => /=; nra.
Qed.
Lemma film_kz wl (n : R) : (0 < wl)%Re -> (0 < n)%Re ->
  krows 1 e (0, 0) wl (RtoC (n * n)%Re) = Ok (0, 0, \row_(j < 1) RtoC n).
Proof.
move=> hw hn; have hw0 : (wl <> 0)%Re by lra.
have [kz [-> h]] := film_krows (RtoC (n * n)%Re) hw0; congr (Ok (_, _, _)); apply/rowP => j.
rewrite h mxE conj_real csqrt_k0 ?conj_real //; last exact: k0_pos.
have k1 := k0_neq0 hw0; apply: (mulIf (RtoC_neq0 k1)); rewrite divfK ?RtoC_neq0 //.
by rewrite -[RHS]/(Cmult _ _) -RtoC_mult Rmult_comm.
Qed.
Lemma film_kzi (k n : R) : (0 < k)%Re -> (0 < n)%Re ->
  source_kzi k (RtoC (n * n)%Re) (0, 0) = RtoC (k * n)%Re /\ flux_kzi k (0, 0) (RtoC (n * n)%Re) = RtoC n.
Proof.
move=> hk hn; have hk0 : (k <> 0)%Re by lra.
rewrite /source_kzi /flux_kzi /= !expr0n !subr0 csqrt_k0 // conj_real; split=> //.
apply: (mulIf (RtoC_neq0 hk0)); rewrite divfK ?RtoC_neq0 //.
by rewrite -[RHS]/(Cmult _ _) -RtoC_mult Rmult_comm.
Qed.

(** The flux of a scalar amplitude times the incident wave. *)
Lemma film_flux wl te tm v (n1 n3 : R) (r : C) : (0 < wl)%Re -> (0 < n1)%Re -> (0 < n3)%Re ->
  incident 1 te tm (0, 0, RtoC (2 * PI / wl * n1)%Re) true = Ok v ->
  exists t, poynting_fluxes e (r *: v) (0, 0) wl (RtoC (n1 * n1)%Re) (RtoC (n3 * n3)%Re) = Ok t /\
    total t = (n3 / n1 * sqmod r)%Re.
Proof.
move=> hw h1 h3 hv; have hw0 : (wl <> 0)%Re by lra.
have kp := k0_pos hw.
have [j0 [sz [_ _ hd hn _]]] := @incident_transverse 1 te tm 0%Re 0%Re (2 * PI / wl * n1)%Re v (or_introl (conj erefl erefl)) hv.
rewrite /poynting_fluxes; destruct (Req_EM_T wl 0) as [h'|h''] => //.
have [_ ->] := film_kzi kp h1; rewrite film_kz // /bind; destruct (Req_EM_T _ 0) as [h'|h4]; first by move: h' => /=; lra.
case: ifP => [/existsP [j]|_]; first by rewrite mxE => /eqP /(congr1 fst) /=; lra.
eexists; split; first by []. rewrite /total big_ord1 !mxE /=.
have ej : j0 = ord0 by rewrite ord1.
have hsz : abs2 sz = 0%Re.
  move: hd; rewrite /dot3 /=; rewrite /vx /vy /vz /= !mul0r !add0r => /eqP; rewrite mulf_eq0 => /orP [/eqP /(congr1 fst) /=|/eqP ->].
    by move=> h; have := Rmult_lt_0_compat _ _ kp h1; rewrite h => /Rlt_irrefl.
  by rewrite /abs2 /=; ring.
rewrite !mul0r addr0 oppr0 mul0r !abs2M; rewrite hsz ej in hn.
have -> : abs2 0 = 0%Re by rewrite /abs2 /=; ring.
have -> : abs2 r = sqmod r by [].
by rewrite -[RHS]Rmult_1_r -hn /= (_ : (0 : 'I_1) = ord0) //; ring.
Qed.

Variables (n1 n3 d wl : R) (w te tm : C).
Hypotheses (h1 : (0 < n1)%Re) (h3 : (0 < n3)%Re) (hw : (0 < fst w)%Re) (hw' : (snd w <= 0)%Re)
  (hd : (0 <= d)%Re) (hl : (0 < wl)%Re) (hp : (te, tm) <> (0, 0)).
Notation k0 := (2 * PI / wl)%Re.
Notation phi := (cexp (- (ci * w * RtoC (d * k0)%Re))).
Notation S_film := (scS (1 + 1) (airy_r (RtoC n1) w (RtoC n3) phi) (airy_t (RtoC n3) w (RtoC n1) phi)
                  (airy_t (RtoC n1) w (RtoC n3) phi) (airy_r (RtoC n3) w (RtoC n1) phi)).

Lemma hl0 : (wl <> 0)%Re. Proof. lra. Qed.
Lemma hdk : (0 <= d * k0)%Re. Proof. have := k0_pos hl; nra. Qed.

Lemma film_layer b : layer_solve eig J1 1 (Layer e (UNIFORM (w * w)) d b) (0, 0) wl =
  Ok (if b then Solved (Some (film_sc (1 + 1) w phi)) (Some (1%:M, w *: V0n 1, twof (fun _ => ci * w))) (Some (inl (w * w)^-1)) None
      else Solved (Some (film_sc (1 + 1) w phi)) None None None).
Proof.
rewrite /layer_solve /=; have [kz [-> _]] := film_krows 1 hl0.
rewrite /bind free_normal uniform_normal //= (film_api _ hw hw' hdk) /=.
by rewrite /one_over mulf_eq0 orbb (negbTE (w_neq0 hw)).
Qed.
Lemma sq_unit (x : R) : (0 < x)%Re -> (RtoC (x * x)%Re == 0) = false.
Proof. by move=> h; apply/negbTE; apply: RtoC_neq0; nra. Qed.
Lemma inc_layer dd b : layer_solve eig J1 1 (Layer e (HALF_SPACE_INC (RtoC (n1 * n1)%Re)) dd b) (0, 0) wl =
  Ok (if b then Solved (Some (inc_sc (1 + 1) (RtoC n1))) (Some (1%:M, RtoC n1 *: V0n 1, twof (fun _ => ci * RtoC n1))) (Some (inl (RtoC (n1 * n1)%Re)^-1)) None
      else Solved (Some (inc_sc (1 + 1) (RtoC n1))) None None None).
Proof.
rewrite /layer_solve /=; have [kz [-> _]] := film_krows 1 hl0.
by rewrite /bind free_normal {1}RtoC_sqr inc_api //= /one_over sq_unit.
Qed.
Lemma trn_layer dd b : layer_solve eig J1 1 (Layer e (HALF_SPACE_TRN (RtoC (n3 * n3)%Re)) dd b) (0, 0) wl =
  Ok (if b then Solved (Some (trn_sc (1 + 1) (RtoC n3))) (Some (1%:M, RtoC n3 *: V0n 1, twof (fun _ => ci * RtoC n3))) (Some (inl (RtoC (n3 * n3)%Re)^-1)) None
      else Solved (Some (trn_sc (1 + 1) (RtoC n3))) None None None).
Proof.
rewrite /layer_solve /=; have [kz [-> _]] := film_krows 1 hl0.
by rewrite /bind free_normal {1}RtoC_sqr trn_api //= /one_over sq_unit.
Qed.

Notation film := "film"%string.
Definition film_calls := [:: AddUniform film (w * w) d; SetDevice [:: film] (inl true);
  SetSource wl te tm 0%Re 0%Re None].
Notation c0 := (crystal_of 1 e false (RtoC (n1 * n1)%Re) (RtoC (n3 * n3)%Re)).
Definition film_entry (s : option (solved 1)) : entry 1 := (Plain (Layer e (UNIFORM (w * w)) d true), s).
Definition inc_entry (s : option (solved 1)) : entry 1 :=
  (Plain (Layer e (HALF_SPACE_INC (RtoC (n1 * n1)%Re)) 0%Re true), s).
Definition trn_entry (s : option (solved 1)) : entry 1 :=
  (Plain (Layer e (HALF_SPACE_TRN (RtoC (n3 * n3)%Re)) 0%Re true), s).
Definition film_crystal a b c sol : crystal 1 :=
  Crystal false (RtoC (n1 * n1)%Re) (RtoC (n3 * n3)%Re) e
    [:: (film, film_entry a); (Sref, inc_entry b); (Strans, trn_entry c)]
    (Some ([:: film], [:: Sref; film; Strans], [:: true; true; true]))
    (Some (Source te tm 0 0 wl)) (0, 0) (RtoC (k0 * n1)%Re) sol.

Lemma film_kplanar eps th : compute_kplanar eps wl 0 th = Ok (0, 0).
Proof.
rewrite /compute_kplanar; destruct (Req_EM_T wl 0) as [h|h]; first by case: hl0.
have -> : sin (deg2rad 0) = 0%Re by rewrite (_ : deg2rad 0 = 0%Re) ?sin_0 // /deg2rad; field.
by rewrite !mulr0.
Qed.
Lemma film_source a b c sol src kp kzi :
  set_source (Crystal false (RtoC (n1 * n1)%Re) (RtoC (n3 * n3)%Re) e
    [:: (film, film_entry a); (Sref, inc_entry b); (Strans, trn_entry c)]
    (Some ([:: film], [:: Sref; film; Strans], [:: true; true; true])) src kp kzi sol) wl te tm 0 0 None
  = Ok (film_crystal a b c sol).
Proof.
rewrite /set_source /= film_kplanar /=; destruct (Req_EM_T wl 0) as [h|h]; first by case: hl0.
by have [-> _] := film_kzi (k0_pos hl) h1.
Qed.
Lemma film_setup : history eig J1 c0 film_calls (film_crystal None None None None).
Proof.
apply: (history_cons (step_uniform _ _ _ _ _ _)).
eapply history_cons; first by eapply step_device; rewrite /set_device /=; reflexivity.
eapply history_cons; last by constructor.
by apply: step_source; rewrite -(film_source None None None None None (0, 0) 0).
Qed.

Definition film_solved : solved 1 := Solved (Some (film_sc (1 + 1) w phi)) (Some (1%:M, w *: V0n 1, twof (fun _ => ci * w))) (Some (inl (w * w)^-1)) None.
Definition inc_solved : solved 1 := Solved (Some (inc_sc (1 + 1) (RtoC n1))) (Some (1%:M, RtoC n1 *: V0n 1, twof (fun _ => ci * RtoC n1))) (Some (inl (RtoC (n1 * n1)%Re)^-1)) None.
Definition trn_solved : solved 1 := Solved (Some (trn_sc (1 + 1) (RtoC n3))) (Some (1%:M, RtoC n3 *: V0n 1, twof (fun _ => ci * RtoC n3))) (Some (inl (RtoC (n3 * n3)%Re)^-1)) None.
Lemma film_solve a b c s0 : exists sol, step eig J1 (film_crystal a b c s0) Solve
    (film_crystal (Some film_solved) (Some inc_solved) (Some trn_solved) (Some sol)) /\ r_S sol = S_film.
Proof.
have [S1 [p1 p2]] := @whole_api 1 w d k0 hw hw' hdk n1 n3 h1 h3.
have [S2 p3] : is_ok (redheffer_product (film_sc (1 + 1) w phi) (trn_sc (1 + 1) (RtoC n3))).
  have [S2 [q1 q2]] := @whole_api 1 w d k0 hw hw' hdk 1%Re n3 Rlt_0_1 h3.
  have ei : inc_sc (1 + 1) (RtoC 1) = scattering_identity C_fieldType (1 + 1).
    have t0 := two_neq0.
    rewrite /inc_sc /scS /scattering_identity -[RtoC 1]/(1 : C) subrr !mul0r mulr1 divff //.
    by rewrite raddf0.
  by move: q1 q2; rewrite ei rh_idL => -[->] ->; eexists.
eexists; split.
  apply: (step_solve (order := [:: Sref; film; Strans])).
    by move=> dev [<-]; rewrite perm_refl.
  rewrite /crystal_solve /film_crystal /= inc_layer /= film_layer /= trn_layer /=.
  rewrite /stack_layers /= rh_idL /= p1 /= p2 /= rh_idR /= p3 /=; reflexivity.
by [].
Qed.

Lemma film_fluxes a b c r t u v sol : r_S sol = scS (1 + 1) r u t v ->
  b = Some inc_solved -> c = Some trn_solved ->
  poynting_flux_end (film_crystal a b c (Some sol)) = Ok (sqmod r, (n3 / n1 * sqmod t)%Re).
Proof.
move=> hS -> ->; rewrite /poynting_flux_end /poynting_flux_orders /=.
have [inc hinc] : is_ok (incident 1 te tm (0, 0, RtoC (k0 * n1)%Re) true).
  exact: (@incident_def 1 te tm 0%Re 0%Re (k0 * n1)%Re (or_introl (conj erefl erefl)) isT hp).
rewrite hinc /= /inv unitmx1 /= invmx1 !mul1mx hS /= !mul_scalar_mx.
have [fT [-> hT]] := @film_flux wl te tm inc n1 n3 t hl h1 h3 hinc.
have [fR [-> hR]] := @film_flux wl te tm inc n1 n1 r hl h1 h1 hinc.
by rewrite /= hT hR; congr (Ok (_, _)); rewrite /Rdiv Rinv_r ?Rmult_1_l //; lra.
Qed.
End Film.
