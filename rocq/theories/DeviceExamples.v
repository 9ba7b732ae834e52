(** Concrete devices: a film between two media, used as witnesses. *)
From Coq Require Import Reals ZArith Lra Lia String.
From mathcomp Require Import all_ssreflect all_algebra.
From Coquelicot Require Import Complex Rbar.
From Verif Require Import Base ZmodTac CField CFun Blk ModelRedheffer SpecScatter ModelLayer SpecLayer SpecEnergy
  RedhefferProofs ScalarProofs NormalProofs SpecThinFilm ThinFilmProofs ModelExpansion SpecExpansion ModelFlux FluxProofs
  ModelFourier SpecFourier FourierProofs ModelExtension ModelDevice SpecDevice StringEq DeviceProofs DeviceEnergy FilmDevice
  HistoryProofs LayerRoutes DepthProofs.
Set Implicit Arguments. Unset Strict Implicit. Unset Printing Implicit Defensive.
Import GRing.Theory.
Local Open Scope ring_scope.

(** * A glass plate drawn as a picture. *)
Definition flat_picture (v : C) : array2 := Array2 2 3 (fun _ _ => v).
Section Pictures.
Variables (J1 : R -> R) (e : expansion).
Hypotheses (hpw : e_pw e = (1, 1)%N) (hg : e_g e = [:: (0, 0)%Re]).
Lemma fft_layer (x d wl : R) b : (0 < x)%Re -> (0 <= d)%Re -> (0 < wl)%Re ->
  is_ok (layer_solve scalar_eig J1 1 (Layer e (FFT (flat_picture (RtoC x * RtoC x))) d b) (0, 0) wl) /\
  is_ok (layer_solve scalar_eig J1 1 (Layer e (UNIFORM (RtoC x * RtoC x)) d b) (0, 0) wl).
Proof.
move=> hx hd hw; have hw0 : (wl <> 0)%Re by lra.
have hx0 : (0 < fst (RtoC x))%Re by [].
split; last by rewrite (film_layer _ _ hpw hg) //=; [eexists|lra].
rewrite /layer_solve /=; have [kz [-> _]] := film_krows hpw hg 1 hw0.
rewrite /bind free_normal hpw.
have [M hM] := @conv_domain 1 (flat_picture (RtoC x * RtoC x)) (1, 1)%N erefl isT isT isT.
have eM : M = (RtoC x * RtoC x)%:M by apply: conv_constant hM _.
have u : ((RtoC x * RtoC x)%:M : 'M[C]_1) \in unitmx.
  by apply: scal_unit; rewrite mulf_neq0 // RtoC_neq0 //; lra.
rewrite hM eM /inv u structured_scalar //=.
have h1 : (snd (RtoC x) <= 0)%Re by rewrite /=; lra.
by rewrite (film_api _ hx0 h1 (hdk hd hw)) /=; eexists.
Qed.
End Pictures.

(** * The film device, set up and solved. *)
Section Device.
Variables (eig : forall m, 'M[C]_m -> 'rV[C]_m * 'M[C]_m) (J1 : R -> R).
Variables (n1 n3 d wl : R) (w te tm : C).
Hypotheses (h1 : (0 < n1)%Re) (h3 : (0 < n3)%Re) (hw : (0 < fst w)%Re) (hw' : (snd w <= 0)%Re)
  (hd : (0 <= d)%Re) (hl : (0 < wl)%Re) (hp : (te, tm) <> (0, 0)).
Notation phi := (cexp (- (ci * w * RtoC (d * (2 * PI / wl))%Re))).

Lemma film_device : exists (c0 c c' : crystal 1),
  [/\ multilayer 1 (RtoC (n1 * n1)%Re) (RtoC (n3 * n3)%Re) = Ok c0, history eig J1 c0 (film_calls d wl w te tm) c,
      step eig J1 c Solve c', good_source c' &
      poynting_flux_end c' = Ok (sqmod (airy_r (RtoC n1) w (RtoC n3) phi),
                                 (n3 / n1 * sqmod (airy_t (RtoC n1) w (RtoC n3) phi))%Re)].
Proof.
have [e [he _ hpw hg]] := multilayer_exp (RtoC (n1 * n1)%Re) (RtoC (n3 * n3)%Re).
have [sol [hs hS]] := @film_solve eig J1 e hpw hg n1 n3 d wl w te tm h1 h3 hw hw' hd hl None None None None.
exists (crystal_of 1 e false (RtoC (n1 * n1)%Re) (RtoC (n3 * n3)%Re)); do 2 eexists; split.
- exact: he.
- exact: film_setup.
- exact: hs.
- by split; [eexists; split; [reflexivity|] | do 2 split=> //; left].
- exact: (film_fluxes hpw hg d w h1 h3 hl hp _ hS erefl erefl).
Qed.
Lemma multilayer_created c0 e1 e2 : multilayer 1 e1 e2 = Ok c0 -> created c0 false e1 e2.
Proof. by move=> h; left; exists (1, 1)%N, (LatticeName "square"), 1%Re. Qed.
Lemma film_user : user_name "film".
Proof. by []. Qed.
Lemma film_stack : user_stack [:: "film"%string].
Proof. by move=> s; rewrite inE => /eqP ->. Qed.
Lemma film_calls_lossless : snd w = 0%Re -> all_calls lossless_call (film_calls d wl w te tm).
Proof.
move=> h; split; first by split=> //=; rewrite h; ring.
by split; [exact: film_stack | split].
Qed.
Lemma film_calls_passive : all_calls passive_call (film_calls d wl w te tm).
Proof.
split; first by split=> //=; split=> //; nra.
by split; [exact: film_stack | split].
Qed.
Lemma film_calls_outer : all_calls outer_call (film_calls d wl w te tm).
Proof.
split; first by [].
by split; [exact: film_stack | split].
Qed.
End Device.

Lemma history_cat eig J1 n (c c1 c2 : crystal n) o1 o2 : history eig J1 c o1 c1 -> history eig J1 c1 o2 c2 ->
  history eig J1 c (o1 ++ o2) c2.
Proof.
move=> h; elim: h c2 o2 => {c o1 c1} [//|c o ops c1 c2 hs _ IH] c3 o3 h; apply: history_cons hs _; exact: IH.
Qed.

(** * Stale fluxes: a glass plate of index 2 and thickness 1, half-wave at
    wavelength 4 and quarter-wave at wavelength 8. *)
Section Stale.
Variables (eig : forall m, 'M[C]_m -> 'rV[C]_m * 'M[C]_m) (J1 : R -> R).
Lemma phase2 wl a b : (0 < wl)%Re -> (8 * PI / wl = a)%Re -> cos a = b -> sin a = 0%Re ->
  cexp (- (ci * RtoC 2 * RtoC (1 * (2 * PI / wl))%Re)) ^+ 2 = RtoC b.
Proof.
move=> h ha hc hs; rewrite expr2 -cexpD.
have -> : - (ci * RtoC 2 * RtoC (1 * (2 * PI / wl))%Re) - ci * RtoC 2 * RtoC (1 * (2 * PI / wl))%Re = (0, - a)%Re.
  by rewrite -ha; apply: injective_projections => /=; field; lra.
by rewrite /cexp /= exp_0 cos_neg sin_neg hc hs; apply: injective_projections => /=; ring.
Qed.
Lemma half_wave phi : phi ^+ 2 = RtoC 1 -> airy_r (RtoC 1) (RtoC 2) (RtoC 1) phi = 0.
Proof.
move=> h; rewrite /airy_r h /fresnel_r.
have -> : (RtoC 1 - RtoC 2) / (RtoC 1 + RtoC 2) + (RtoC 2 - RtoC 1) / (RtoC 2 + RtoC 1) * RtoC 1 = 0.
  by apply: injective_projections => /=; field.
by rewrite mul0r.
Qed.
Lemma quarter_wave phi : phi ^+ 2 = RtoC (- (1)) -> sqmod (airy_r (RtoC 1) (RtoC 2) (RtoC 1) phi) = (9 / 25)%Re.
Proof.
move=> h; rewrite /airy_r h /fresnel_r.
have -> : ((RtoC 1 - RtoC 2) / (RtoC 1 + RtoC 2) + (RtoC 2 - RtoC 1) / (RtoC 2 + RtoC 1) * RtoC (- (1)))
  / (1 + (RtoC 1 - RtoC 2) / (RtoC 1 + RtoC 2) * ((RtoC 2 - RtoC 1) / (RtoC 2 + RtoC 1)) * RtoC (- (1))) = RtoC (- (3 / 5))%Re.
  by apply: injective_projections => /=; field.
by rewrite /sqmod /=; field.
Qed.

Lemma stale_flux : exists (c0 c c' : crystal 1) ops RT RT',
  [/\ created c0 false (RtoC (1 * 1)%Re) (RtoC (1 * 1)%Re), history eig J1 c0 (ops ++ [:: Solve; SetSource 8 1 0 0 0 None]) c,
      poynting_flux_end c = Ok RT, step eig J1 c Solve c' & poynting_flux_end c' = Ok RT' /\ RT'.1 = (9 / 25)%Re /\ RT.1 = 0%Re].
Proof.
have p1 : (0 < 1)%Re by lra.
have p2 : (0 < 2)%Re by lra.
have p4 : (0 < 4)%Re by lra.
have p8 : (0 < 8)%Re by lra.
have p0 : (0 <= 1)%Re by lra.
have p5 : (0 <= 0)%Re by lra.
have hp : (1 : C, 0 : C) <> (0, 0) by case=> h; move: h; lra.
have [e [he _ hpw hg]] := multilayer_exp (RtoC (1 * 1)%Re) (RtoC (1 * 1)%Re).
have [s1 [hs1 hS1]] := @film_solve eig J1 e hpw hg 1 1 1 4 (RtoC 2) 1 0 p1 p1 p2 p5 p0 p4 None None None None.
set a := Some (film_solved 1 4 (RtoC 2)) in hs1; set b := Some (inc_solved 1) in hs1; set t := Some (trn_solved 1) in hs1.
have [s2 [hs2 hS2]] := @film_solve eig J1 e hpw hg 1 1 1 8 (RtoC 2) 1 0 p1 p1 p2 p5 p0 p8 a b t (Some s1).
exists (crystal_of 1 e false (RtoC (1 * 1)%Re) (RtoC (1 * 1)%Re)).
exists (film_crystal e 1 1 1 8 (RtoC 2) 1 0 a b t (Some s1)).
eexists; exists (film_calls 1 4 (RtoC 2) 1 0); do 2 eexists; split.
- exact: multilayer_created he.
- apply: (history_cat (film_setup eig J1 e 1 1 (RtoC 2) 1 0 p1 p4)).
  eapply history_cons; first exact: hs1.
  eapply history_cons; last by constructor.
  by apply: step_source; rewrite (film_source e 1 1 (RtoC 2) 1 0 p1 p8 a b t (Some s1)).
- exact: (film_fluxes hpw hg 1 (RtoC 2) p1 p1 p8 hp _ hS1 erefl erefl).
- exact: hs2.
- split; first exact: (film_fluxes hpw hg 1 (RtoC 2) p1 p1 p8 hp _ hS2 erefl erefl).
  split.
    apply: quarter_wave; apply: (@phase2 8 PI (- (1))%Re) => //; [field|exact: cos_PI|exact: sin_PI].
  rewrite half_wave; first by rewrite /sqmod /=; ring.
  by apply: (@phase2 4 (2 * PI)%Re 1%Re) => //; [field|exact: cos_2PI|exact: sin_2PI].
Qed.
End Stale.
