(** Property C107: absorbing layers and piles (T-matrix API). *)
From Coq Require Import Reals String.
From mathcomp Require Import all_ssreflect all_algebra.
From Coquelicot Require Import Complex.
From Verif Require Import Base CField CFun ModelRedheffer ModelExpansion ModelFourier ModelTmat SpecTmat TmatProofs ModelLattice SpecLattice
  SpecExp ExpProofs ModelEz SpecTransform SpecBloch SpecLoss TmatExamples LossPiles.
Set Implicit Arguments. Unset Strict Implicit. Unset Printing Implicit Defensive.
Import GRing.Theory.
Local Open Scope ring_scope.

(** The currents that leave a pile of absorbing layers are at most the current that
    comes in: rectangles in rectangular cells, any stacking, any angle, transparent
    media outside. *)
Theorem C107_currents J1 Lx Ly p ei ee L n (expm : 'M[C]_((n + n) + (n + n)) -> 'M[C]_((n + n) + (n + n))) wl kp r r' recipes
    stacking d name S pin j1p j1m j3p :
  (0 < Lx)%Re -> (0 < Ly)%Re -> mk_lattice p (Lx, 0%Re) (0%Re, Ly) ei ee = Ok L -> window_fits p -> is_expm expm -> (0 < wl)%Re ->
  num_val ei = RtoC r -> (0 < r)%Re -> num_val ee = RtoC r' ->
  (forall layer q, recipes layer = Some q -> absorbing_recipe Lx Ly q) ->
  closed_at J1 expm p L wl kp recipes stacking d name S ->
  from_left L wl kp pin -> clear_orders L ei wl kp -> clear_orders L ee wl kp ->
  compute_currents pin (S *m pin) L wl kp = Ok (j1p, j1m, j3p) ->
  [/\ snd (\sum_g j1p g) = 0%Re, snd (\sum_g j1m g) = 0%Re, snd (\sum_g j3p g) = 0%Re,
      (0 <= fst (\sum_g j1m g))%Re /\ (0 <= fst (\sum_g j3p g))%Re &
      (fst (\sum_g j1m g) + fst (\sum_g j3p g) <= fst (\sum_g j1p g))%Re].
Proof.
exact (fun h1 h2 hL hf hx hw hi r0 he ha hS hp ci ce =>
  @absorbed_currents J1 Lx Ly p ei ee L h1 h2 hL hf n expm hx wl kp hw r r' hi r0 he recipes ha stacking d name S hS pin hp ci ce j1p j1m j3p).
Qed.
Print Assumptions C107_currents.

(** At normal incidence, the reflectance and the transmittance add up to at most 1 and
    the absorption is between 0 and 1 (at other angles compute_fluxes uses the
    in-plane wavevector 0: see C52 and C81). *)
Theorem C107_fluxes J1 Lx Ly p ei ee L n (expm : 'M[C]_((n + n) + (n + n)) -> 'M[C]_((n + n) + (n + n))) wl kp kp' r r' recipes
    stacking d name S pin f :
  (0 < Lx)%Re -> (0 < Ly)%Re -> mk_lattice p (Lx, 0%Re) (0%Re, Ly) ei ee = Ok L -> window_fits p -> is_expm expm -> (0 < wl)%Re ->
  num_val ei = RtoC r -> (0 < r)%Re -> num_val ee = RtoC r' ->
  (forall layer q, recipes layer = Some q -> absorbing_recipe Lx Ly q) ->
  closed_at J1 expm p L wl kp recipes stacking d name S ->
  from_left L wl kp pin -> clear_orders L ei wl kp -> clear_orders L ee wl kp ->
  kp = (0%Re, 0%Re) -> compute_fluxes L wl pin (S *m pin) kp' = Ok f ->
  [/\ (0 <= f.1.1)%Re, (0 <= f.1.2)%Re, (f.1.1 + f.1.2 <= 1)%Re & (0 <= f.2 <= 1)%Re].
Proof.
exact (fun h1 h2 hL hf hx hw hi r0 he ha hS hp ci ce =>
  @absorbed_fluxes J1 Lx Ly p ei ee L h1 h2 hL hf n expm hx wl kp hw r r' hi r0 he recipes ha stacking d name S hS pin hp ci ce kp' f).
Qed.
Print Assumptions C107_fluxes.

(** In an absorbing cell the Bloch waves that carry power forwards do not grow, and
    those that carry it backwards do not decay. *)
Theorem C107_bloch J1 Lx Ly p ei ee L n (expm : 'M[C]_((n + n) + (n + n)) -> 'M[C]_((n + n) + (n + n))) wl kp recipes
    stacking d name S w v V :
  (0 < Lx)%Re -> (0 < Ly)%Re -> mk_lattice p (Lx, 0%Re) (0%Re, Ly) ei ee = Ok L -> window_fits p -> is_expm expm -> (0 < wl)%Re ->
  (forall layer q, recipes layer = Some q -> absorbing_recipe Lx Ly q) ->
  pile_at J1 expm p L wl kp recipes stacking d name S -> eigenpair (scattering_splitlr S) w v -> lattice_Vi n L wl kp = Ok V ->
  ((0 < power (V *m v))%Re -> (Cmod w <= 1)%Re) /\ ((power (V *m v) < 0)%Re -> (1 <= Cmod w)%Re).
Proof.
exact (fun h1 h2 hL hf hx hw ha => @loss_bloch J1 Lx Ly p ei ee L h1 h2 hL hf n expm hx wl kp hw recipes ha stacking d name S w v V).
Qed.
Print Assumptions C107_bloch.

(** No matrix is singular when all orders propagate in the incident medium: the matrix
    of an absorbing layer is always computed. *)
Theorem C107_layer_defined J1 Lx Ly p ei ee L n (expm : 'M[C]_((n + n) + (n + n)) -> 'M[C]_((n + n) + (n + n))) wl kp r
    islands host d pow :
  (0 < Lx)%Re -> (0 < Ly)%Re -> mk_lattice p (Lx, 0%Re) (0%Re, Ly) ei ee = Ok L -> window_fits p -> is_expm expm -> (0 < wl)%Re ->
  absorbing_recipe Lx Ly (islands, host, d, pow) -> (host != 0 /\ forall s e, List.In (s, e) islands -> e != 0) ->
  (0 < p.1)%N -> n = l_ng L -> all_propagate n L wl kp -> num_val (l_incid L) = RtoC r -> (0 < r)%Re ->
  is_ok (scattering_matrix_islands J1 expm p L islands host wl kp d pow).
Proof. exact (fun h1 h2 hL hf hx hw ha hz p0 hn al => @layer_ok J1 Lx Ly p ei ee L h1 h2 hL hf n expm hx wl kp hw islands host d pow ha hz p0 hn al r). Qed.
Print Assumptions C107_layer_defined.

(** Piles of absorbing layers can always be joined ... *)
Theorem C107_joined J1 Lx Ly p ei ee L n (expm : 'M[C]_((n + n) + (n + n)) -> 'M[C]_((n + n) + (n + n))) wl kp r recipes recipes'
    stacking stacking' d d' name name' S S' :
  (0 < Lx)%Re -> (0 < Ly)%Re -> mk_lattice p (Lx, 0%Re) (0%Re, Ly) ei ee = Ok L -> window_fits p -> is_expm expm -> (0 < wl)%Re ->
  num_val ei = RtoC r -> (0 < r)%Re -> all_propagate n L wl kp ->
  (forall layer q, recipes layer = Some q -> absorbing_recipe Lx Ly q) ->
  (forall layer q, recipes' layer = Some q -> absorbing_recipe Lx Ly q) ->
  pile_at J1 expm p L wl kp recipes stacking d name S -> pile_at J1 expm p L wl kp recipes' stacking' d' name' S' ->
  is_ok (multS S S').
Proof.
exact (fun h1 h2 hL hf hx hw hi r0 al ha ha' hS hS' =>
  @piles_join J1 Lx Ly p ei ee L h1 h2 hL hf n expm hx wl kp hw r hi r0 al recipes recipes' ha ha' stacking stacking' d d' name name' S S' hS hS').
Qed.
Print Assumptions C107_joined.

(** ... and closed by the interface to a transparent substrate. *)
Theorem C107_closed J1 Lx Ly p ei ee L n (expm : 'M[C]_((n + n) + (n + n)) -> 'M[C]_((n + n) + (n + n))) wl kp r r' recipes
    stacking d name S :
  (0 < Lx)%Re -> (0 < Ly)%Re -> mk_lattice p (Lx, 0%Re) (0%Re, Ly) ei ee = Ok L -> window_fits p -> is_expm expm -> (0 < wl)%Re ->
  num_val ei = RtoC r -> (0 < r)%Re -> num_val ee = RtoC r' -> (0 < r')%Re -> n = l_ng L -> all_propagate n L wl kp ->
  (forall layer q, recipes layer = Some q -> absorbing_recipe Lx Ly q) ->
  pile_at J1 expm p L wl kp recipes stacking d name S -> exists T, closed_at J1 expm p L wl kp recipes stacking d name T.
Proof.
exact (fun h1 h2 hL hf hx hw hi r0 he r0' hn al ha hS =>
  @pile_closes J1 Lx Ly p ei ee L h1 h2 hL hf n expm hx wl kp hw r r' hi r0 he hn al recipes ha stacking d name S hS r0').
Qed.
Print Assumptions C107_closed.

(** An absorbing rectangle in an absorbing host, between air and glass. *)
Example C107_hypotheses_met J1 kp' : (forall layer q, grey_layer layer = Some q -> absorbing_recipe 1 1 q) /\
  exists L S f, let expm := @mexp ((1 + 1) + (1 + 1)) in let kp := (0%Re, 0%Re) in let wl := 2%Re in
  [/\ mk_lattice (1, 1)%N (1%Re, 0%Re) (0%Re, 1%Re) (Float 1) (Float 4) = Ok L,
      closed_at J1 expm (1, 1)%N L wl kp grey_layer [::] 1 "grey" S, from_left L wl kp unit_wave,
      [/\ clear_orders L (Float 1) wl kp, clear_orders L (Float 4) wl kp & all_propagate 1 L wl kp] &
      compute_fluxes L wl unit_wave (S *m unit_wave) kp' = Ok f].
Proof. exact (conj grey_absorbs (grey_example J1 kp')). Qed.

(** A Bloch wave that carries power through an absorbing cell, and decays. *)
Example C107_bloch_hypotheses_met J1 : (forall layer q, ink_layer layer = Some q -> absorbing_recipe 1 1 q) /\
  exists L S V w v, let expm := @mexp ((1 + 1) + (1 + 1)) in let kp := (0%Re, 0%Re) in let wl := (2 * PI)%Re in
  [/\ mk_lattice (1, 1)%N (1%Re, 0%Re) (0%Re, 1%Re) ink ink = Ok L,
      pile_at J1 expm (1, 1)%N L wl kp ink_layer [::] 1 "ink" S, eigenpair (scattering_splitlr S) w v,
      lattice_Vi 1 L wl kp = Ok V & (0 < power (V *m v))%Re /\ (Cmod w < 1)%Re].
Proof. exact (conj ink_absorbs (ink_example J1)). Qed.
