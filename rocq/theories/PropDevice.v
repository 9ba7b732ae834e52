(** Properties C16, C19, C38, C39, C41 and C66: whole devices and histories of
    calls on a Crystal. *)
From Coq Require Import Reals Lra String.
From mathcomp Require Import all_ssreflect all_algebra.
From Coquelicot Require Import Complex Rbar.
From Verif Require Import Base CField CFun SpecEnergy SpecThinFilm ModelExpansion ModelFlux ModelFourier ModelDevice
  SpecDevice StringEq FilmDevice LayerRoutes DeviceExamples DeviceTheorems.
Set Implicit Arguments. Unset Strict Implicit. Unset Printing Implicit Defensive.
Import GRing.Theory.
Local Open Scope ring_scope.

(** ** C16 Energy conservation: R + T = 1 *)
Theorem C16_energy_conservation eig J1 (n : nat) (ei ee : R) (c0 c c' : crystal n) (ops : seq op) (R T : R) :
  eigen_equation eig ->
  created c0 false (RtoC ei) (RtoC ee) -> all_calls lossless_call ops -> history eig J1 c0 ops c ->
  step eig J1 c Solve c' -> good_source c' -> poynting_flux_end c' = Ok (R, T) -> (R + T = 1)%Re.
Proof. exact (@energy_conserved eig J1 n ei ee c0 ops c c' R T). Qed.
Print Assumptions C16_energy_conservation.

(** A film of index 3 on glass of index 2, lit from vacuum. *)
Example C16_hypotheses_met (J1 : R -> R) : exists (c0 c c' : crystal 1) ops RT,
  [/\ eigen_equation scalar_eig, created c0 false (RtoC (1 * 1)%Re) (RtoC (2 * 2)%Re),
      all_calls lossless_call ops, history scalar_eig J1 c0 ops c &
      [/\ step scalar_eig J1 c Solve c', good_source c' & poynting_flux_end c' = Ok RT]].
Proof.
have hp : (1 : C, 0 : C) <> (0, 0) by case=> h; move: h; lra.
have [||||||c0 [c [c' [h1 h2 h3 h4 h5]]]] := @film_device scalar_eig J1 1 2 1 1 (RtoC 3) 1 0 _ _ _ _ _ _ hp => /=; try lra.
exists c0, c, c', (film_calls 1 1 (RtoC 3) 1 0); eexists; split; [exact: scalar_eig_ok | exact: multilayer_created | | exact: h2 | by split; [exact: h3 | exact: h4 | exact: h5]].
exact: film_calls_lossless.
Qed.

(** ** C66 Absorption is never negative *)
Theorem C66_passive_devices eig J1 (n : nat) (ei ee : R) (c0 c c' : crystal n) (ops : seq op) (R T : R) :
  eigen_equation eig ->
  created c0 false (RtoC ei) (RtoC ee) -> all_calls passive_call ops -> history eig J1 c0 ops c ->
  step eig J1 c Solve c' -> good_source c' -> poynting_flux_end c' = Ok (R, T) -> (R + T <= 1)%Re.
Proof. exact (@energy_passive eig J1 n ei ee c0 ops c c' R T). Qed.
Print Assumptions C66_passive_devices.

(** An absorbing film of index 3 - i. *)
Example C66_hypotheses_met (J1 : R -> R) : exists (c0 c c' : crystal 1) ops RT,
  [/\ eigen_equation scalar_eig, created c0 false (RtoC (1 * 1)%Re) (RtoC (2 * 2)%Re),
      all_calls passive_call ops, history scalar_eig J1 c0 ops c &
      [/\ step scalar_eig J1 c Solve c', good_source c' & poynting_flux_end c' = Ok RT]].
Proof.
have hp : (1 : C, 0 : C) <> (0, 0) by case=> h; move: h; lra.
have [||||||c0 [c [c' [h1 h2 h3 h4 h5]]]] := @film_device scalar_eig J1 1 2 1 1 (3, -(1))%Re 1 0 _ _ _ _ _ _ hp => /=; try lra.
exists c0, c, c', (film_calls 1 1 (3, -(1))%Re 1 0); eexists; split; [exact: scalar_eig_ok | exact: multilayer_created | | exact: h2 | by split; [exact: h3 | exact: h4 | exact: h5]].
by apply: film_calls_passive => /=; lra.
Qed.

(** ** C19 The Multilayer class reproduces the Airy formulas *)
Theorem C19_multilayer eig J1 (n1 n3 d wl : R) (w te tm : C) :
  (0 < n1)%Re -> (0 < n3)%Re -> (0 < fst w)%Re -> (snd w <= 0)%Re -> (0 <= d)%Re -> (0 < wl)%Re ->
  (te, tm) <> (0, 0) ->
  let phi := cexp (- (ci * w * RtoC (d * (2 * PI / wl))%Re)) in
  exists (c0 c c' : crystal 1),
  [/\ multilayer 1 (RtoC (n1 * n1)%Re) (RtoC (n3 * n3)%Re) = Ok c0,
      history eig J1 c0 [:: AddUniform "film" (w * w) d; SetDevice [:: "film"%string] (inl true);
                            SetSource wl te tm 0 0 None] c,
      step eig J1 c Solve c', good_source c' &
      poynting_flux_end c' = Ok (sqmod (airy_r (RtoC n1) w (RtoC n3) phi),
                                 (n3 / n1 * sqmod (airy_t (RtoC n1) w (RtoC n3) phi))%Re)].
Proof. exact (@film_device eig J1 n1 n3 d wl w te tm). Qed.
Print Assumptions C19_multilayer.

(** ** C38 A solve depends only on the current device and source *)

(** The order in which the set of required layers is visited does not matter,
    neither for the result nor for whether it raises. *)
Theorem C38_any_order eig J1 (n : nat) (c0 c c1 : crystal n) v e1 e2 ops (o1 o2 : seq string) :
  created c0 v e1 e2 -> history eig J1 c0 ops c -> o1 =i o2 ->
  crystal_solve eig J1 o1 c = Ok c1 -> crystal_solve eig J1 o2 c = Ok c1.
Proof. exact (@solve_any_order eig J1 n c0 v e1 e2 ops c o1 o2 c1). Qed.
Print Assumptions C38_any_order.

Theorem C38_solve_is_a_function eig J1 (n : nat) (c0 c c1 c2 : crystal n) v e1 e2 ops :
  created c0 v e1 e2 -> history eig J1 c0 ops c ->
  step eig J1 c Solve c1 -> step eig J1 c Solve c2 -> c1 = c2.
Proof. exact (@solve_function eig J1 n c0 v e1 e2 ops c c1 c2). Qed.
Print Assumptions C38_solve_is_a_function.

(** Whatever was done before, the same device and source give the same solution. *)
Theorem C38_no_memory eig J1 (n : nat) (c1 c2 c1' c2' : crystal n) :
  same_problem c1 c2 -> step eig J1 c1 Solve c1' -> step eig J1 c2 Solve c2' ->
  c_solution c1' = c_solution c2'.
Proof. exact (@HistoryProofs.solve_same eig J1 n c1 c2 c1' c2'). Qed.
Print Assumptions C38_no_memory.

Example C38_hypotheses_met eig J1 : exists (c0 c1 c2 c1' c2' : crystal 1) o1 o2,
  [/\ created c0 false (RtoC (1 * 1)%Re) (RtoC (1 * 1)%Re), history eig J1 c0 o1 c1, history eig J1 c0 o2 c2,
      o2 = o1 ++ [:: Solve; SetSource 8 1 0 0 0 None; Solve; SetSource 4 0 1 0 0 None] &
      [/\ same_problem c1 c2, step eig J1 c1 Solve c1' & step eig J1 c2 Solve c2']].
Proof. exact (two_histories eig J1). Qed.

(** ** C39 Fluxes always refer to the current source *)

(** They do not: after set_source without a new solve, the fluxes returned are
    neither an error nor those of the source set. *)
Theorem C39_current_source_refuted eig J1 : exists (c0 c c' : crystal 1) ops RT RT',
  [/\ created c0 false (RtoC (1 * 1)%Re) (RtoC (1 * 1)%Re),
      history eig J1 c0 (ops ++ [:: Solve; SetSource 8 1 0 0 0 None]) c,
      poynting_flux_end c = Ok RT, step eig J1 c Solve c' &
      poynting_flux_end c' = Ok RT' /\ RT'.1 = (9 / 25)%Re /\ RT.1 = 0%Re].
Proof. exact (stale_flux eig J1). Qed.
Print Assumptions C39_current_source_refuted.

(** The part that holds: when only the polarisation changes, solving again gives
    the same fluxes. *)
Theorem C39_polarisation_only eig J1 (n : nat) (c0 c c1 c2 c3 : crystal n) v e1 e2 ops src te tm th ph kp :
  created c0 v e1 e2 -> history eig J1 c0 ops c -> step eig J1 c Solve c1 -> c_source c1 = Some src ->
  step eig J1 c1 (SetSource (s_wl src) te tm th ph kp) c2 -> c_kp c2 = c_kp c1 ->
  step eig J1 c2 Solve c3 -> poynting_flux_orders c3 = poynting_flux_orders c2.
Proof. exact (@pol_only eig J1 n c0 v e1 e2 ops c c1 c2 c3 src te tm th ph kp). Qed.
Print Assumptions C39_polarisation_only.

Example C39_hypotheses_met eig J1 : exists (c0 c c1 c2 c3 : crystal 1) ops src,
  [/\ created c0 false (RtoC (1 * 1)%Re) (RtoC (1 * 1)%Re), history eig J1 c0 ops c, step eig J1 c Solve c1,
      c_source c1 = Some src &
      [/\ step eig J1 c1 (SetSource (s_wl src) 0 1 0 0 None) c2, c_kp c2 = c_kp c1,
          c_source c2 <> c_source c1 & step eig J1 c2 Solve c3]].
Proof. exact (pol_change eig J1). Qed.

(** ** C41 Depth bookkeeping *)
Theorem C41_depth_is_the_sum (n : nat) (c : crystal n) (ds : seq R) :
  device_depths c ds -> crystal_depth c = Ok (depth_before ds (size ds)).
Proof. exact (@depth_sum n c ds). Qed.
Print Assumptions C41_depth_is_the_sum.

(** With outer media: the positions are -inf, the partial sums, inf. *)
Theorem C41_positions eig J1 (n : nat) (c0 c c' : crystal n) e1 e2 ops :
  created c0 false e1 e2 -> all_calls outer_call ops -> history eig J1 c0 ops c -> step eig J1 c Solve c' ->
  exists ds sol, [/\ device_depths c' ds, crystal_depth c' = Ok (depth_before ds (size ds)), c_solution c' = Some sol,
    r_positions sol = m_infty :: rcons (mkseq (fun k => Finite (depth_before ds k)) (size ds).+1) p_infty &
    zmax c' = Ok (Finite (depth_before ds (size ds)))].
Proof. exact (@depth_kept eig J1 n c0 e1 e2 ops c c'). Qed.
Print Assumptions C41_positions.

(** Without outer media zmax is not the depth: two slices of depth 1. *)
Theorem C41_void_refuted eig J1 : exists (c0 c : crystal 1),
  [/\ created c0 true 1 1, all_calls outer_call void_calls, history eig J1 c0 void_calls c,
      crystal_depth c = Ok 2%Re & zmax c = Ok (Finite 1)].
Proof. exact (void_depth eig J1). Qed.
Print Assumptions C41_void_refuted.

Example C41_hypotheses_met (J1 : R -> R) : exists (c0 c c' : crystal 1) ops,
  [/\ created c0 false (RtoC (1 * 1)%Re) (RtoC (2 * 2)%Re), all_calls outer_call ops,
      history scalar_eig J1 c0 ops c & step scalar_eig J1 c Solve c'].
Proof.
have hp : (1 : C, 0 : C) <> (0, 0) by case=> h; move: h; lra.
have [||||||c0 [c [c' [h1 h2 h3 h4 h5]]]] := @film_device scalar_eig J1 1 2 1 1 (RtoC 3) 1 0 _ _ _ _ _ _ hp => /=; try lra.
exists c0, c, c', (film_calls 1 1 (RtoC 3) 1 0); split=> //.
- exact: multilayer_created.
- exact: film_calls_outer.
Qed.
