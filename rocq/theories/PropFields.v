(** Properties C32 to C37, C40 and C69: partial stacks, internal amplitudes and
    field maps. *)
From Coq Require Import Reals Lra String.
From mathcomp Require Import all_ssreflect all_algebra.
From Coquelicot Require Import Complex Rbar.
From Verif Require Import Base CField CFun ModelRedheffer SpecScatter SpecStack ModelLayer SpecMaxwell SpecEig ModelExpansion ModelFlux
  ModelFourier ModelDevice SpecDevice StringEq ModelFields SpecFields ScalarProofs FilmDevice LayerRoutes DeviceExamples DeviceTheorems
  StackProofs LongProofs FieldsTheorems FieldsExamples ObliqueProofs FieldsFinal NormalProofs Blk.
Set Implicit Arguments. Unset Strict Implicit. Unset Printing Implicit Defensive.
Import GRing.Theory.
Local Open Scope ring_scope.

(** ** C32 Partial stacks around a layer reassemble the whole device *)
Theorem C32_partial_stacks (n : nat) (l : seq (smat C_fieldType (n + n))) (mask : seq bool) Sls Srs Stot :
  stack_layers l mask = Ok (Sls, Srs, Stot) -> (0 < size l)%N ->
  [/\ responds Stot l, size Sls = size l, size Srs = size l, (size l <= size mask)%N &
   forall i, (i < size l)%N -> exists Sl Sr,
     [/\ responds Sl (take i.+1 l), responds Sr (drop i.+1 l), redheffer_product Sl Sr = Ok Stot,
         nth None Sls i = (if nth false mask i then Some Sl else None) &
         nth None Srs i = (if (i == 0)%N || nth false mask (i + (size mask - size l)) then Some Sr else None)]].
Proof. exact (@stack_reassemble n l mask Sls Srs Stot). Qed.
Print Assumptions C32_partial_stacks.

Theorem C32_errors (n : nat) (l : seq (smat C_fieldType (n + n))) (mask : seq bool) e :
  stack_layers l mask = Err e -> e = LinAlgError \/ (e = IndexError /\ (size mask < size l)%N).
Proof. exact (@stack_err n l mask e). Qed.
Print Assumptions C32_errors.

Example C32_hypotheses_met : exists Sls Srs (Stot : smat C_fieldType (1 + 1)),
  stack_layers [:: scS (1 + 1) 0 2%:R 3%:R 0; scS (1 + 1) 1 1 1 1 : smat C_fieldType (1 + 1)] [:: true; false] = Ok (Sls, Srs, Stot).
Proof. exact stack_example. Qed.

(** ** C33 Internal amplitudes agree with the outside response *)
Theorem C33_unique_gap_waves (m : nat) (Sl Sr : smat C_fieldType m) (c1p c1m c2p cp cm : 'cV[C]_m) :
  translate_mode_amplitudes Sl Sr c1p c1m c2p = Ok (cp, cm) ->
  forall p q, gap_waves Sl Sr c1p 0 p q <-> p = cp /\ q = cm.
Proof. exact (@amplitudesP m Sl Sr c1p c1m c2p cp cm). Qed.
Print Assumptions C33_unique_gap_waves.

Theorem C33_outside_response (m : nat) (Sl Sr S : smat C_fieldType m) (c1p c1m c2p cp cm : 'cV[C]_m) :
  redheffer_product Sl Sr = Ok S -> translate_mode_amplitudes Sl Sr c1p c1m c2p = Ok (cp, cm) ->
  scatters Sl c1p cm (s11 S *m c1p) cp /\ scatters Sr cp 0 cm (s21 S *m c1p).
Proof. exact (@amplitudes_out m Sl Sr S c1p c1m c2p cp cm). Qed.
Print Assumptions C33_outside_response.

Theorem C33_defined (m : nat) (Sl Sr : smat C_fieldType m) (c1p c1m c2p : 'cV[C]_m) :
  is_ok (translate_mode_amplitudes Sl Sr c1p c1m c2p) <-> is_ok (redheffer_product Sl Sr).
Proof. exact (@amplitudes_def m Sl Sr c1p c1m c2p). Qed.
Print Assumptions C33_defined.

Example C33_hypotheses_met : exists cp cm : 'cV[C]_(1 + 1),
  translate_mode_amplitudes (scS (1 + 1) 0 2%:R 3%:R 0) (scS (1 + 1) 1 1 1 1) (const_mx 1) 0 0 = Ok (cp, cm) /\ cm <> 0.
Proof. exact amplitudes_example. Qed.

(** ** C34 Every depth belongs to the right layer *)
Theorem C34_located eig J1 (n : nat) (ei ee : C) (c0 c c' : crystal n) (ops : seq op) (ds : seq R) (z : R) :
  created c0 false ei ee -> all_calls outer_call ops -> history eig J1 c0 ops c ->
  step eig J1 c Solve c' -> device_depths c' ds -> nonneg ds -> located c' ds z (locate_layer c' z).
Proof. exact (@locate_history eig J1 n ei ee c0 ops c c' ds z). Qed.
Print Assumptions C34_located.

(** Without outer media the lookup is off: in the first of two slices of depth 1
    the offset found is infinite. *)
Theorem C34_void_refuted eig J1 : exists (c0 c : crystal 1) r,
  [/\ created c0 true 1 1, all_calls outer_call void_calls, history eig J1 c0 void_calls c,
      device_depths c [:: 1%Re; 1%Re] &
      locate_layer c (1 / 2)%Re = Ok r /\ r.2 <> Finite (1 / 2 - depth_before [:: 1%Re; 1%Re] 0)%Re].
Proof. exact (void_lookup eig J1). Qed.
Print Assumptions C34_void_refuted.

(** ** C35 Tangential fields are continuous through the whole device *)

(** At every interface but the last, and everywhere between. *)
Theorem C35_continuous_inside eig J1 (n : nat) (ei ee : C) (c0 c c' : crystal n) ops ds inc z0 :
  created c0 false ei ee -> all_calls own_call ops -> history eig J1 c0 ops c -> step eig J1 c Solve c' ->
  device_depths c' ds -> all_positive ds -> unclipped c' -> (forall z, is_ok (fourier_fields c' z inc)) ->
  (0 <= z0)%Re -> (z0 < depth_before ds (size ds))%Re -> fields_continuous c' inc z0.
Proof. exact (@continuous_inside eig J1 n ei ee c0 ops c c' ds inc z0). Qed.
Print Assumptions C35_continuous_inside.

(** At the emergence interface: exactly when vacuum and the emergence medium give
    the transmitted wave the same magnetic field. *)
Theorem C35_emergence_interface eig J1 (n : nat) (ei ee : C) (c0 c c' : crystal n) ops ds inc kk f mr mt amp sol src :
  created c0 false ei ee -> all_calls own_call ops -> history eig J1 c0 ops c -> step eig J1 c Solve c' ->
  device_depths c' ds -> all_positive ds -> unclipped c' -> (forall z, is_ok (fourier_fields c' z inc)) ->
  c_source c' = Some src ->
  krows n (c_exp c') (c_kp c') (s_wl src) 1 = Ok kk -> free_space_eigenmodes kk.1.1 kk.1.2 = Ok f ->
  named_modes c' Sref = Ok mr -> named_modes c' Strans = Ok mt ->
  solve (layer_eigenbasis_matrix mr.1.1 mr.1.2) inc = Ok amp -> c_solution c' = Some sol ->
  let c2p := s21 (r_S sol) *m usubmx amp in
  fields_continuous c' inc (depth_before ds (size ds)) <-> f.2 *m c2p = mt.1.2 *m c2p.
Proof. exact (@continuous_end eig J1 n ei ee c0 ops c c' ds inc kk f mr mt amp sol src). Qed.
Print Assumptions C35_emergence_interface.

Theorem C35_emergence_into_vacuum eig J1 (n : nat) (ei : C) (c0 c c' : crystal n) ops ds inc z0 :
  created c0 false ei 1 -> all_calls own_call ops -> history eig J1 c0 ops c -> step eig J1 c Solve c' ->
  device_depths c' ds -> all_positive ds -> unclipped c' -> (forall z, is_ok (fourier_fields c' z inc)) ->
  snd (c_kp c').1 = 0%Re -> snd (c_kp c').2 = 0%Re ->
  (0 <= z0)%Re -> (z0 <= depth_before ds (size ds))%Re -> fields_continuous c' inc z0.
Proof. exact (@continuous_vacuum eig J1 n ei c0 ops c c' ds inc z0). Qed.
Print Assumptions C35_emergence_into_vacuum.

(** A film of index 1 on glass of index 2: the fields jump at the glass. *)
Theorem C35_emergence_refuted eig J1 : exists (c0 c c' : crystal 1) ops ds inc,
  [/\ created c0 false (RtoC (1 * 1)%Re) (RtoC (2 * 2)%Re), all_calls own_call ops, history eig J1 c0 ops c, step eig J1 c Solve c' &
   [/\ device_depths c' ds, all_positive ds, unclipped c', (forall z, is_ok (fourier_fields c' z inc)) & source_fields c' = Ok inc]] /\
  ~ fields_continuous c' inc (depth_before ds (size ds)).
Proof. exact (jump_at_end eig J1). Qed.
Print Assumptions C35_emergence_refuted.

(** ** C36 Field maps use the declared unit-amplitude source *)

(** They use half of it, in every device. *)
Theorem C36_half_of_the_source eig J1 (n : nat) (ei ee : C) (c0 c c' : crystal n) ops inc a b :
  created c0 false ei ee -> all_calls own_call ops -> history eig J1 c0 ops c -> step eig J1 c Solve c' ->
  source_fields c' = Ok inc -> map_amplitude c' inc a -> flux_amplitude c' b -> a = 2%:R^-1 *: b.
Proof. exact (@half_amplitude eig J1 n ei ee c0 ops c c' inc a b). Qed.
Print Assumptions C36_half_of_the_source.

Theorem C36_same_source_refuted eig J1 : exists (c0 c c' : crystal 1) ops inc a b,
  [/\ created c0 false (RtoC (1 * 1)%Re) (RtoC (2 * 2)%Re), all_calls own_call ops, history eig J1 c0 ops c, step eig J1 c Solve c' &
   [/\ source_fields c' = Ok inc, map_amplitude c' inc a, flux_amplitude c' b & a <> b]].
Proof. exact (amplitude_mismatch eig J1). Qed.
Print Assumptions C36_same_source_refuted.

(** Giving the incident magnetic field as well makes the two agree. *)
Theorem C36_full_source eig J1 (n : nat) (ei ee : C) (c0 c c' : crystal n) ops src mr ef a b :
  created c0 false ei ee -> all_calls own_call ops -> history eig J1 c0 ops c -> step eig J1 c Solve c' ->
  c_source c' = Some src -> named_modes c' Sref = Ok mr ->
  incident n (s_te src) (s_tm src) ((c_kp c').1, (c_kp c').2, c_kzi c') true = Ok ef ->
  map_amplitude c' (col_mx ef (- (mr.1.2 *m ef))) a -> flux_amplitude c' b -> a = b.
Proof. exact (@full_amplitude eig J1 n ei ee c0 ops c c' src mr ef a b). Qed.
Print Assumptions C36_full_source.

(** ** C37 Longitudinal fields satisfy Gauss's law *)
Theorem C37_uniform (n : nat) (kx ky : 'rV[C]_n) (er : C) W V l (c : 'cV[C]_(n + n)) j :
  solve_uniform_layer kx ky er 1 = Ok (W, V, l) ->
  let kz := - ci * l 0 (lshift n j) in
  (let E := fieldE kx ky (inl er^-1) (W *m c) (- (V *m c)) j in
   let H := fieldH kx ky (inl er^-1) (W *m c) (- (V *m c)) j in
   let k := (kx 0 j, ky 0 j, kz) in
   [/\ maxwell er 1 k E H, dot3 k E = 0, dot3 k H = 0 & vz E = - (kx 0 j * vx E + ky 0 j * vy E) / kz]) /\
  (let E := fieldE kx ky (inl er^-1) (W *m c) (V *m c) j in
   let H := fieldH kx ky (inl er^-1) (W *m c) (V *m c) j in
   let k := (kx 0 j, ky 0 j, - kz) in
   [/\ maxwell er 1 k E H, dot3 k E = 0, dot3 k H = 0 & vz E = (kx 0 j * vx E + ky 0 j * vy E) / kz]).
Proof. exact (@long_uniform n kx ky er W V l c j). Qed.
Print Assumptions C37_uniform.

(** Structured layers: div D = 0 and div H = 0 for each mode, in Fourier space. *)
Theorem C37_structured (n : nat) (eig : 'M[C]_(n + n) -> 'rV[C]_(n + n) * 'M[C]_(n + n)) (kx ky : 'rV[C]_n) (Cm : 'M[C]_n) W V l i :
  let M := structured_P kx ky (invmx Cm) *m structured_Q kx ky Cm in
  diagonalises M (eig M) -> solve_structured_layer eig kx ky Cm = Ok (W, V, l) ->
  let kz := - ci * l 0 i in
  let s := col i W in let u := - col i V in
  let lf := longitudinal_fields (usubmx s) (dsubmx s) (usubmx u) (dsubmx u) kx ky (inr (invmx Cm)) in
  diag_mx kx *m (Cm *m usubmx s) + diag_mx ky *m (Cm *m dsubmx s) + kz *: (Cm *m lf.1) = 0 /\
  diag_mx kx *m usubmx u + diag_mx ky *m dsubmx u + kz *: lf.2 = 0.
Proof. exact (@long_structured n eig kx ky Cm W V l i). Qed.
Print Assumptions C37_structured.

Theorem C37_additive (n : nat) (kx ky : 'rV[C]_n) ic (sx sy ux uy sx' sy' ux' uy' : 'cV[C]_n) :
  longitudinal_fields (sx + sx') (sy + sy') (ux + ux') (uy + uy') kx ky ic =
  ((longitudinal_fields sx sy ux uy kx ky ic).1 + (longitudinal_fields sx' sy' ux' uy' kx ky ic).1,
   (longitudinal_fields sx sy ux uy kx ky ic).2 + (longitudinal_fields sx' sy' ux' uy' kx ky ic).2).
Proof. exact (@long_additive n kx ky ic sx sy ux uy sx' sy' ux' uy'). Qed.
Print Assumptions C37_additive.

(** The component the flux formula uses (khepri/alternative.py:241). *)
Theorem C37_flux_component (n : nat) e kp wl (er : R) (kx ky kz : 'rV[C]_n) V (c : 'cV[C]_(n + n)) j :
  (0 < wl)%Re -> er <> 0%Re ->
  snd kp.1 = 0%Re -> snd kp.2 = 0%Re -> krows n e kp wl (RtoC er) = Ok (kx, ky, kz) ->
  divcols (Qref kx ky (RtoC er) 1) (twice (ci *: half_kz kx ky (RtoC er) 1)) = Ok V ->
  vz (fieldE kx ky (inl (RtoC er)^-1) c (- (V *m c)) j) = - (kx 0 j * c (lshift n j) 0 + ky 0 j * c (rshift n j) 0) / kz 0 j.
Proof. exact (@long_flux n e kp wl er kx ky kz V c j). Qed.
Print Assumptions C37_flux_component.

(** An oblique wave: kx = 3/5 in vacuum. *)
Example C37_hypotheses_met : exists2 V : 'M[C]_(1 + 1), free_space_eigenmodes okx oky = Ok (1%:M, V) &
  divcols (Qref okx oky 1 1) (twice (ci *: half_kz okx oky 1 1)) = Ok V.
Proof. exact obl_modes. Qed.

(** ** C40 Field retention follows the user's mask *)
Theorem C40_mask_followed eig J1 (n : nat) (ei ee : C) (c0 c1 c2 c3 c4 : crystal n) ops stack mask wl te tm th ph kp ds inc z :
  created c0 false ei ee -> all_calls own_call ops -> history eig J1 c0 ops c1 -> user_stack stack ->
  step eig J1 c1 (SetDevice stack mask) c2 -> step eig J1 c2 (SetSource wl te tm th ph kp) c3 -> step eig J1 c3 Solve c4 ->
  (forall m, mask = inr m -> size m = size stack) ->
  device_depths c4 ds -> nonneg ds ->
  is_ok (fourier_fields c4 z inc) <->
  (z <= 0)%Re \/ (depth_before ds (size ds) < z)%Re \/
  (exists i, [/\ (i < size stack)%N, (depth_before ds i < z)%Re, (z <= depth_before ds i.+1)%Re &
     user_mask mask i]).
Proof. exact (@retained_history eig J1 n ei ee c0 ops c1 c2 c3 c4 stack mask wl te tm th ph kp ds inc z). Qed.
Print Assumptions C40_mask_followed.

(** Without outer media no field can be computed at all, whatever the mask; nor
    can the fluxes. *)
Theorem C40_void_no_fields eig J1 (n : nat) (c0 c : crystal n) e1 e2 ops z inc :
  created c0 true e1 e2 -> all_calls outer_call ops -> history eig J1 c0 ops c -> ~ is_ok (fourier_fields c z inc).
Proof. exact (@void_no_fields eig J1 n c0 e1 e2 ops c z inc). Qed.
Print Assumptions C40_void_no_fields.

Theorem C40_void_no_fluxes eig J1 (n : nat) (c0 c : crystal n) e1 e2 ops :
  created c0 true e1 e2 -> all_calls outer_call ops -> history eig J1 c0 ops c -> ~ is_ok (poynting_flux_end c).
Proof. exact (@void_no_fluxes eig J1 n c0 e1 e2 ops c). Qed.
Print Assumptions C40_void_no_fluxes.

Theorem C40_void_refuted eig J1 : exists (c0 c : crystal 1),
  [/\ created c0 true 1 1, all_calls outer_call void_calls, history eig J1 c0 void_calls c &
      forall z inc, ~ is_ok (fourier_fields c z inc)].
Proof.
have [c0 [c [r [h1 h2 h3 _ _]]]] := void_lookup eig J1.
by exists c0, c; split=> // z inc; exact: (void_no_fields h1 h2 h3).
Qed.
Print Assumptions C40_void_refuted.

(** A film of index 3 on glass of index 2: a device meeting the hypotheses of C34,
    C35, C36 and C40. *)
Example C35_hypotheses_met eig J1 : exists (c0 c c' : crystal 1) ops ds inc a b,
  [/\ created c0 false (RtoC (1 * 1)%Re) (RtoC (2 * 2)%Re), all_calls own_call ops, history eig J1 c0 ops c, step eig J1 c Solve c' &
   [/\ device_depths c' ds, all_positive ds, unclipped c', (forall z, is_ok (fourier_fields c' z inc)) &
    [/\ source_fields c' = Ok inc, map_amplitude c' inc a & flux_amplitude c' b]]].
Proof.
have hp : (1 : C, 0 : C) <> (0, 0) by case=> h; move: h; lra.
have p1 : (0 < 1)%Re by lra.
have p2 : (0 < 2)%Re by lra.
have p3 : (0 < 3)%Re by lra.
have [e [sol [[_ _ k1 k2 k3] [k4 _ k6 k7 k8]]]] := @film_fields eig J1 1 2 1 1 (RtoC 3) 1 0 p1 p2 p3 erefl p1 p1.
have [inc [a [b [a1 a2 a3 a4]]]] := @film_amplitudes 1 2 1 1 (RtoC 3) 1 0 p1 p1 hp e sol.
do 3 eexists; exists (film_calls 1 1 (RtoC 3) 1 0), [:: 1%Re], inc, a, b.
split; [exact: k1|exact: k2|exact: k3|exact: k4|split; [exact: k6| |exact: k7|exact: k8|by split]].
by case=> //= _; lra.
Qed.

(** ** C69 Field maps are divergence free in a uniform region *)

(** They are not: a plane wave in vacuum at kx = 3/5, TM polarised, default
    source. *)
Theorem C69_divergence_refuted eig J1 : exists (c0 c c' : crystal 1) ops d,
  [/\ created c0 false 1 1, all_calls own_call ops, history eig J1 c0 ops c, step eig J1 c Solve c' &
      has_divergence (fun x y z => fields_coords_xy c' x y z None) 0%Re 0%Re (-1)%Re d /\ d <> 0].
Proof. exact (oblique_divergence eig J1). Qed.
Print Assumptions C69_divergence_refuted.
