(** Properties of whole devices, put together. *)
From Coq Require Import Reals ZArith Lra Lia String.
From mathcomp Require Import all_ssreflect all_algebra.
From Coquelicot Require Import Complex Rbar.
From Verif Require Import Base ZmodTac CField CFun Blk ModelRedheffer SpecScatter ModelLayer SpecLayer SpecEnergy
  RedhefferProofs ScalarProofs NormalProofs SpecThinFilm ThinFilmProofs ModelExpansion SpecExpansion ModelFlux FluxProofs
  ModelFourier SpecFourier FourierProofs ModelExtension ModelDevice SpecDevice StringEq DeviceProofs DeviceEnergy FilmDevice
  HistoryProofs LayerRoutes DepthProofs DeviceExamples.
Set Implicit Arguments. Unset Strict Implicit. Unset Printing Implicit Defensive.
Import GRing.Theory.
Local Open Scope ring_scope.

Section Theorems.
Variables (eig : forall m, 'M[C]_m -> 'rV[C]_m * 'M[C]_m) (J1 : R -> R) (n : nat).
Implicit Types (c : crystal n).

Lemma energy_conserved (ei ee : R) c0 ops c c' R T : eigen_equation eig ->
  created c0 false (RtoC ei) (RtoC ee) -> all_calls lossless_call ops -> history eig J1 c0 ops c ->
  step eig J1 c Solve c' -> good_source c' -> poynting_flux_end c' = Ok (R, T) -> (R + T = 1)%Re.
Proof.
move=> he hc ho hh hs hg hf.
exact: (device_energy he (history_good (strict := true) (created_good true hc) ho hh) hs hg hf).
Qed.
Lemma energy_passive (ei ee : R) c0 ops c c' R T : eigen_equation eig ->
  created c0 false (RtoC ei) (RtoC ee) -> all_calls passive_call ops -> history eig J1 c0 ops c ->
  step eig J1 c Solve c' -> good_source c' -> poynting_flux_end c' = Ok (R, T) -> (R + T <= 1)%Re.
Proof.
move=> he hc ho hh hs hg hf.
exact: (device_energy he (history_good (strict := false) (created_good false hc) ho hh) hs hg hf).
Qed.

Lemma pol_only c0 v e1 e2 ops c c1 c2 c3 src te tm th ph kp :
  created c0 v e1 e2 -> history eig J1 c0 ops c -> step eig J1 c Solve c1 -> c_source c1 = Some src ->
  step eig J1 c1 (SetSource (s_wl src) te tm th ph kp) c2 -> c_kp c2 = c_kp c1 ->
  step eig J1 c2 Solve c3 -> poynting_flux_orders c3 = poynting_flux_orders c2.
Proof.
move=> hc hh h1 hsrc hs hk h3.
have u := history_uniq (created_uniq hc) hh.
inversion hs as [| | | | | | |wl' te' tm' th' ph' kp' c' hset e|]; subst.
move: hset; rewrite /set_source; case: (match kp with Some _ => _ | None => _ end) => [k|//] /=.
destruct (Req_EM_T (s_wl src) 0) as [h0|h0] => // -[hc2].
have hw : forall s s', c_source c1 = Some s -> c_source c2 = Some s' -> s_wl s = s_wl s'.
  by rewrite -hc2 hsrc => s s' [<-] /= [<-].
have [el es] := solve_again u h1 (congr1 (@c_layers n) (esym hc2)) (congr1 (@c_device n) (esym hc2)) hk
  (congr1 (@c_void n) (esym hc2)) hw h3.
inversion h3 as [| | | | | | | |o3 cc3 p3 hs3 e3]; subst cc3.
move/solve_parts: hs3 => [src3 [dev3 [d3 [es3 [pos3 [Ss3 [st3 [[b1 b2 b3 b4] b5 b6 b7 e']]]]]]]].
rewrite /poynting_flux_orders /named_modes es el.
by rewrite e' -hc2 /=.
Qed.

End Theorems.

(** A device without outer media: two slices of vacuum of thickness 1. *)
Section Void.
Variables (eig : forall m, 'M[C]_m -> 'rV[C]_m * 'M[C]_m) (J1 : R -> R).
Lemma void_exp epsi epse : exists e,
  [/\ mk_crystal 1 (1, 1)%N (LatticeName "square") 1%Re true epsi epse = Ok (crystal_of 1 e true epsi epse),
      e_pw e = (1, 1)%N & e_g e = [:: (0, 0)%Re]].
Proof.
have [e [he _ hpw hg]] := multilayer_exp epsi epse; exists e; split=> //.
move: he; rewrite /multilayer /mk_crystal; case: (crystal_lattice _ _) => [lat|//] /=.
by case: (mk_expansion _ _) => [e'|//] /=; case: ifP => // _ [->].
Qed.
Definition void_calls : seq op :=
  [:: AddUniform "film" (RtoC 1 * RtoC 1) 1; SetDevice [:: "film"; "film"]%string (inl false);
   SetSource 1 1 0 0 0 None; Solve].
Lemma void_depth : exists (c0 c : crystal 1),
  [/\ created c0 true 1 1, all_calls outer_call void_calls, history eig J1 c0 void_calls c,
      crystal_depth c = Ok 2%Re & zmax c = Ok (Finite 1)].
Proof.
have p1 : (0 < 1)%Re by lra.
have p0 : (0 <= 1)%Re by lra.
have p5 : (0 <= 0)%Re by lra.
have [e [he hpw hg]] := void_exp 1 1.
exists (crystal_of 1 e true 1 1).
set phi := cexp (- (ci * RtoC 1 * RtoC (1 * (2 * PI / 1))%Re)).
have r0 : film_r (RtoC 1) phi = 0 by rewrite /film_r -[RtoC 1]/(1 : C) subrr !mul0r.
have [S2 hS2] : is_ok (redheffer_product (film_sc (1 + 1) (RtoC 1) phi) (film_sc (1 + 1) (RtoC 1) phi)).
  rewrite /film_sc rh_scal; first by eexists.
  by rewrite r0 mulr0 subr0 oner_neq0.
eexists; split.
- by left; exists (1, 1)%N, (LatticeName "square"), 1%Re.
- split=> //; split; last by split.
  by move=> s; rewrite !inE => /orP [] /eqP ->.
- apply: (history_cons (step_uniform _ _ _ _ _ _)).
  eapply history_cons; first by eapply step_device; rewrite /set_device /=; reflexivity.
  eapply history_cons.
    apply: step_source; rewrite /set_source [compute_kplanar _ _ _ _](film_kplanar p1) /=.
    by destruct (Req_EM_T 1 0) as [h|h]; [lra|reflexivity].
  eapply history_cons; last by constructor.
  apply: (step_solve (order := [:: "film"%string])); first by move=> dev [<-].
  rewrite /crystal_solve /= (@film_layer eig J1 e hpw hg 1%Re 1%Re (RtoC 1) p1 p5 p0 p1) /=.
  rewrite /stack_layers /= rh_idL /= -/phi hS2 /= rh_idR /=; reflexivity.
- by rewrite /crystal_depth /=; congr Ok; ring.
- by rewrite /zmax /=; congr (Ok (Finite _)); ring.
Qed.
End Void.

(** * Wrappers over histories *)
Section Wrap.
Variables (eig : forall m, 'M[C]_m -> 'rV[C]_m * 'M[C]_m) (J1 : R -> R) (n : nat).
Implicit Types (c : crystal n).
Lemma solve_any_order c0 v e1 e2 ops c o1 o2 c1 : created c0 v e1 e2 -> history eig J1 c0 ops c -> o1 =i o2 ->
  crystal_solve eig J1 o1 c = Ok c1 -> crystal_solve eig J1 o2 c = Ok c1.
Proof. by move=> hc hh; apply: solve_order; exact: history_uniq (created_uniq hc) hh. Qed.
Lemma solve_function c0 v e1 e2 ops c c1 c2 : created c0 v e1 e2 -> history eig J1 c0 ops c ->
  step eig J1 c Solve c1 -> step eig J1 c Solve c2 -> c1 = c2.
Proof. by move=> hc hh; apply: solve_unique; exact: history_uniq (created_uniq hc) hh. Qed.
Lemma depth_kept c0 e1 e2 ops c c' : created c0 false e1 e2 -> all_calls outer_call ops -> history eig J1 c0 ops c ->
  step eig J1 c Solve c' ->
  exists ds sol, [/\ device_depths c' ds, crystal_depth c' = Ok (depth_before ds (size ds)), c_solution c' = Some sol,
    r_positions sol = m_infty :: rcons (mkseq (fun k => Finite (depth_before ds k)) (size ds).+1) p_infty &
    zmax c' = Ok (Finite (depth_before ds (size ds)))].
Proof. by move=> hc ho hh; apply: solve_depths; exact: history_outer (created_outer hc) ho hh. Qed.
Lemma depth_sum c ds : device_depths c ds -> crystal_depth c = Ok (depth_before ds (size ds)).
Proof. exact: depths_depth. Qed.
End Wrap.

(** The film solved twice: once fresh, once after another wavelength. *)
Lemma two_histories eig J1 : exists (c0 c1 c2 c1' c2' : crystal 1) o1 o2,
  [/\ created c0 false (RtoC (1 * 1)%Re) (RtoC (1 * 1)%Re), history eig J1 c0 o1 c1, history eig J1 c0 o2 c2,
      o2 = o1 ++ [:: Solve; SetSource 8 1 0 0 0 None; Solve; SetSource 4 0 1 0 0 None] &
      [/\ same_problem c1 c2, step eig J1 c1 Solve c1' & step eig J1 c2 Solve c2']].
Proof.
have p1 : (0 < 1)%Re by lra.
have p2 : (0 < 2)%Re by lra.
have p4 : (0 < 4)%Re by lra.
have p8 : (0 < 8)%Re by lra.
have p0 : (0 <= 1)%Re by lra.
have p5 : (0 <= 0)%Re by lra.
have [e [he _ hpw hg]] := multilayer_exp (RtoC (1 * 1)%Re) (RtoC (1 * 1)%Re).
have [s1 [hs1 _]] := @film_solve eig J1 e hpw hg 1 1 1 4 (RtoC 2) 1 0 p1 p1 p2 p5 p0 p4 None None None None.
set a := Some (film_solved 1 4 (RtoC 2)) in hs1; set b := Some (inc_solved 1) in hs1; set t := Some (trn_solved 1) in hs1.
have [s2 [hs2 _]] := @film_solve eig J1 e hpw hg 1 1 1 8 (RtoC 2) 1 0 p1 p1 p2 p5 p0 p8 a b t (Some s1).
set a' := Some (film_solved 1 8 (RtoC 2)) in hs2.
have [s3 [hs3 _]] := @film_solve eig J1 e hpw hg 1 1 1 4 (RtoC 2) 0 1 p1 p1 p2 p5 p0 p4 a' b t (Some s2).
exists (crystal_of 1 e false (RtoC (1 * 1)%Re) (RtoC (1 * 1)%Re)).
exists (film_crystal e 1 1 1 4 (RtoC 2) 1 0 None None None None), (film_crystal e 1 1 1 4 (RtoC 2) 0 1 a' b t (Some s2)).
do 2 eexists; exists (film_calls 1 4 (RtoC 2) 1 0); eexists; split; last first.
- split; [|exact: hs1|exact: hs3].
  split=> //; first by move=> src src' [<-] [<-].
  move=> dev name [<-] /=; rewrite !inE => /or3P [] /eqP -> /= x x' [<-] [<-] /=; by split.
- reflexivity.
- apply: (history_cat (film_setup eig J1 e 1 1 (RtoC 2) 1 0 p1 p4)).
  eapply history_cons; first exact: hs1.
  eapply history_cons; first by apply: step_source; rewrite (film_source e 1 1 (RtoC 2) 1 0 p1 p8 a b t (Some s1)).
  eapply history_cons; first exact: hs2.
  eapply history_cons; last by constructor.
  by apply: step_source; rewrite (film_source e 1 1 (RtoC 2) 0 1 p1 p4 a' b t (Some s2)).
- exact: film_setup.
- exact: multilayer_created he.
Qed.
Lemma pol_change eig J1 : exists (c0 c c1 c2 c3 : crystal 1) ops src,
  [/\ created c0 false (RtoC (1 * 1)%Re) (RtoC (1 * 1)%Re), history eig J1 c0 ops c, step eig J1 c Solve c1,
      c_source c1 = Some src & [/\ step eig J1 c1 (SetSource (s_wl src) 0 1 0 0 None) c2, c_kp c2 = c_kp c1, c_source c2 <> c_source c1 & step eig J1 c2 Solve c3]].
Proof.
have p1 : (0 < 1)%Re by lra.
have p2 : (0 < 2)%Re by lra.
have p4 : (0 < 4)%Re by lra.
have p0 : (0 <= 1)%Re by lra.
have p5 : (0 <= 0)%Re by lra.
have [e [he _ hpw hg]] := multilayer_exp (RtoC (1 * 1)%Re) (RtoC (1 * 1)%Re).
have [s1 [hs1 _]] := @film_solve eig J1 e hpw hg 1 1 1 4 (RtoC 2) 1 0 p1 p1 p2 p5 p0 p4 None None None None.
set a := Some (film_solved 1 4 (RtoC 2)) in hs1; set b := Some (inc_solved 1) in hs1; set t := Some (trn_solved 1) in hs1.
have [s2 [hs2 _]] := @film_solve eig J1 e hpw hg 1 1 1 4 (RtoC 2) 0 1 p1 p1 p2 p5 p0 p4 a b t (Some s1).
exists (crystal_of 1 e false (RtoC (1 * 1)%Re) (RtoC (1 * 1)%Re)).
exists (film_crystal e 1 1 1 4 (RtoC 2) 1 0 None None None None).
eexists; exists (film_crystal e 1 1 1 4 (RtoC 2) 0 1 a b t (Some s1)); eexists; exists (film_calls 1 4 (RtoC 2) 1 0); eexists; split; [| | exact: hs1 | reflexivity |].
- exact: multilayer_created he.
- exact: film_setup.
- split; [|reflexivity| |exact: hs2].
    by apply: step_source; rewrite (film_source e 1 1 (RtoC 2) 0 1 p1 p4 a b t (Some s1)).
  by move=> [] h _; lra.
Qed.
