(** Properties C06 to C11, C13 and C19: layers, half spaces and their modes. *)
From Coq Require Import Reals Lra.
From mathcomp Require Import all_ssreflect all_algebra.
From Coquelicot Require Import Complex.
From Verif Require Import Base CField CFun ModelRedheffer SpecScatter RedhefferProofs
  ModelLayer SpecLayer SpecEig SpecMaxwell SpecThinFilm Blk LayerProofs LayerCProofs UniformProofs
  LayerApiProofs NormalProofs ScalarProofs ThinFilmProofs.
Set Implicit Arguments. Unset Strict Implicit. Unset Printing Implicit Defensive.
Import GRing.Theory.
Local Open Scope ring_scope.

(** ** C06 A layer's scattering matrix enforces tangential field continuity *)
Theorem C06_continuity_at_both_faces (m : nat) (W V W0 V0 : 'M[C]_m) (lam : 'rV[C]_m)
    (d k0 : R) (S : smat C_fieldType m) :
  build_scatmat W V W0 V0 lam d k0 = Ok S ->
  forall a1 a2 b1 b2 : 'cV[C]_m,
    layer_response W V W0 V0 lam d k0 a1 a2 b1 b2 <-> scatters S a1 a2 b1 b2.
Proof. exact (fun e a1 a2 b1 b2 => layer_responseP a1 a2 b1 b2 e). Qed.
Print Assumptions C06_continuity_at_both_faces.

(** When it raises although the mode matrices can be inverted, the layer emits
    waves without any incoming wave (a resonance). *)
Theorem C06_raises_on_resonance (m : nat) (W V W0 V0 : 'M[C]_m) (lam : 'rV[C]_m)
    (d k0 : R) (e : exn) :
  W \in unitmx -> V \in unitmx -> invmx W *m W0 + invmx V *m V0 \in unitmx ->
  build_scatmat W V W0 V0 lam d k0 = Err e ->
  e = LinAlgError /\
  exists b1 b2 : 'cV[C]_m, b1 <> 0 /\ layer_response W V W0 V0 lam d k0 0 0 b1 b2.
Proof. exact (@build_scatmat_err m W V W0 V0 lam d k0 e). Qed.
Print Assumptions C06_raises_on_resonance.

(** A glass plate (index 2, thickness 3) at normal incidence. *)
Notation zero_k := (0 : 'rV[C]_2).
Example C06_hypothesis_met : exists W V l W0 V0,
  [/\ solve_uniform_layer zero_k zero_k (RtoC 2 * RtoC 2) 1 = Ok (W, V, l),
      free_space_eigenmodes zero_k zero_k = Ok (W0, V0) &
      is_ok (build_scatmat W V W0 V0 l 3%Re 1%Re)].
Proof.
do 5 eexists; split; [apply: uniform_normal => /=; lra | exact: free_normal |].
by eexists; apply: film_api => /=; lra.
Qed.

(** ** C07 Zero-thickness and vacuum layers *)
Theorem C07_zero_thickness (m : nat) (W V W0 V0 : 'M[C]_m) (lam : 'rV[C]_m) (k0 : R)
    (S : smat C_fieldType m) :
  build_scatmat W V W0 V0 lam 0%Re k0 = Ok S -> S = scattering_identity C_fieldType m.
Proof. exact (@build_zero_thickness m W V W0 V0 lam k0 S). Qed.
Print Assumptions C07_zero_thickness.

Theorem C07_vacuum (n : nat) (kx ky : 'rV[C]_n) (W0 V0 W V : 'M[C]_(n + n)) (lam : 'rV[C]_(n + n))
    (d k0 : R) :
  free_space_eigenmodes kx ky = Ok (W0, V0) ->
  solve_uniform_layer kx ky 1 1 = Ok (W, V, lam) ->
  let X := diag_mx (map_mx (fun l => cexp (- (l * RtoC (d * k0)%Re))) lam) in
  build_scatmat W V W0 V0 lam d k0 = Ok (Smat 0 X X 0).
Proof. exact (@vacuum_layer n kx ky W0 V0 W V lam d k0). Qed.
Print Assumptions C07_vacuum.

Example C07_hypotheses_met : exists W V l W0 V0,
  free_space_eigenmodes zero_k zero_k = Ok (W0, V0) /\
  solve_uniform_layer zero_k zero_k 1 1 = Ok (W, V, l) /\
  (exists W' V' l', solve_uniform_layer zero_k zero_k (RtoC 2 * RtoC 2) 1 = Ok (W', V', l') /\
     is_ok (build_scatmat W' V' W0 V0 l' 0%Re 1%Re)).
Proof.
do 5 eexists; split; first exact: free_normal.
split; first by rewrite -{1}[1](mulr1 1); apply: uniform_normal => /=; lra.
do 3 eexists; split; first by apply: uniform_normal => /=; lra.
by eexists; apply: film_api => /=; lra.
Qed.

(** ** C08 Cutting a layer in two changes nothing *)
Theorem C08_cut_layer (n : nat) (kx ky : 'rV[C]_n) (W V W0 V0 : 'M[C]_(n + n))
    (lam : 'rV[C]_(n + n)) (d1 d2 k0 : R) (S1 S2 : smat C_fieldType (n + n)) :
  free_space_eigenmodes kx ky = Ok (W0, V0) ->
  build_scatmat W V W0 V0 lam d1 k0 = Ok S1 ->
  build_scatmat W V W0 V0 lam d2 k0 = Ok S2 ->
  redheffer_product S1 S2 = build_scatmat W V W0 V0 lam (d1 + d2)%Re k0.
Proof. exact (@cut_layer n kx ky W V W0 V0 lam d1 d2 k0 S1 S2). Qed.
Print Assumptions C08_cut_layer.

Example C08_hypotheses_met : exists W V l W0 V0,
  [/\ free_space_eigenmodes zero_k zero_k = Ok (W0, V0),
      is_ok (build_scatmat W V W0 V0 l 3%Re 1%Re) &
      is_ok (build_scatmat W V W0 V0 l (1/2)%Re 1%Re)].
Proof.
exists 1%:M, (RtoC 2 *: V0n 2), (twof (fun _ => ci * RtoC 2)); do 2 eexists.
split; first exact: free_normal; eexists; apply: film_api => /=; lra.
Qed.

(** ** C09 The result does not depend on the eigenvectors LAPACK returns *)

(** The same outcome, value or exception, for any two valid answers of
    numpy.linalg.eig. *)
Theorem C09_eigensolver_independent (n : nat)
    (eig eig' : 'M[C]_(n + n) -> 'rV[C]_(n + n) * 'M[C]_(n + n))
    (kx ky : 'rV[C]_n) (Cm : 'M[C]_n) (W0 V0 : 'M[C]_(n + n)) (d k0 : R) :
  let M := structured_P kx ky (invmx Cm) *m structured_Q kx ky Cm in
  diagonalises M (eig M) -> diagonalises M (eig' M) ->
  (do m <- solve_structured_layer eig kx ky Cm;
   build_scatmat m.1.1 m.1.2 W0 V0 m.2 d k0) =
  (do m <- solve_structured_layer eig' kx ky Cm;
   build_scatmat m.1.1 m.1.2 W0 V0 m.2 d k0).
Proof. exact (@structured_same n eig eig' kx ky Cm W0 V0 d k0). Qed.
Print Assumptions C09_eigensolver_independent.

(** Two different eigenbases of one layer, for which the code succeeds. *)
Example C09_hypotheses_met :
  let Cm : 'M[C]_2 := (RtoC 2 * RtoC 2)%:M in
  let l := const_mx (- (RtoC 2 * RtoC 2)) in
  let M := structured_P zero_k zero_k (invmx Cm) *m structured_Q zero_k zero_k Cm in
  let eig := fun _ : 'M[C]_(2 + 2) => (l, 1%:M) in
  [/\ diagonalises M (eig M), diagonalises M (l, block_mx 1%:M (RtoC 7)%:M 0 1%:M : 'M[C]_(2 + 2)) &
      exists W0 V0, free_space_eigenmodes zero_k zero_k = Ok (W0, V0) /\
      is_ok (do m <- solve_structured_layer eig zero_k zero_k Cm;
             build_scatmat m.1.1 m.1.2 W0 V0 m.2 3%Re 1%Re)].
Proof.
have h2 : (0 < 2)%Re by lra.
split; rewrite ?structured_M_normal.
- by apply: diagonalises_normal; rewrite unitmx1.
- by apply: diagonalises_normal; rewrite unitmxE det_ublock !det1 mulr1 unitr1.
- do 2 eexists; split; first exact: free_normal.
  by rewrite structured_normal //=; eexists; apply: film_api => /=; lra.
Qed.

(** The same for any two modal decompositions, in particular for any choice of
    the signs of the square roots. *)
Theorem C09_any_square_roots (m : nat) (P Q W V W' V' W0 V0 : 'M[C]_m) (lam lam' : 'rV[C]_m)
    (d k0 : R) (S S' : smat C_fieldType m) :
  modal_decomposition P Q W V lam -> modal_decomposition P Q W' V' lam' ->
  build_scatmat W V W0 V0 lam d k0 = Ok S -> build_scatmat W' V' W0 V0 lam' d k0 = Ok S' ->
  S = S'.
Proof. exact (@modal_independent m P Q W V W' V' W0 V0 lam lam' d k0 S S'). Qed.
Print Assumptions C09_any_square_roots.

(** ** C10 Half-space matrices enforce field continuity at the outer interfaces *)
Theorem C10_incidence (n : nat) (kx ky : 'rV[C]_n) (W0 V0 : 'M[C]_(n + n)) (er ur : C)
    (S : smat C_fieldType (n + n)) (W V : 'M[C]_(n + n)) (l : 'rV[C]_(n + n)) :
  scattering_reflection kx ky W0 V0 er ur = Ok (S, W, V, l) ->
  forall a1 a2 b1 b2 : 'cV[C]_(n + n),
    scatters S a1 a2 b1 b2 <-> interface_response W V W0 V0 a1 a2 b1 b2.
Proof. exact (@reflection_continuity n kx ky W0 V0 er ur S W V l). Qed.
Print Assumptions C10_incidence.

Theorem C10_emergence (n : nat) (kx ky : 'rV[C]_n) (W0 V0 : 'M[C]_(n + n)) (er ur : C)
    (S : smat C_fieldType (n + n)) (W V : 'M[C]_(n + n)) (l : 'rV[C]_(n + n)) :
  scattering_transmission kx ky W0 V0 er ur = Ok (S, W, V, l) ->
  forall a1 a2 b1 b2 : 'cV[C]_(n + n),
    scatters S a1 a2 b1 b2 <-> interface_response W0 V0 W V a1 a2 b1 b2.
Proof. exact (@transmission_continuity n kx ky W0 V0 er ur S W V l). Qed.
Print Assumptions C10_emergence.

Example C10_hypotheses_met : exists W0 V0,
  [/\ free_space_eigenmodes zero_k zero_k = Ok (W0, V0),
      is_ok (scattering_reflection zero_k zero_k W0 V0 (RtoC 3 * RtoC 3) 1) &
      is_ok (scattering_transmission zero_k zero_k W0 V0 (RtoC 3 * RtoC 3) 1)].
Proof.
do 2 eexists; split; [exact: free_normal | eexists; apply: inc_api; lra | eexists; apply: trn_api; lra].
Qed.

(** ** C11 Same medium on both sides and nothing between is transparent *)
Theorem C11_transparent (n : nat) (kx ky : 'rV[C]_n) (W0 V0 : 'M[C]_(n + n)) (er ur : C)
    (Sr St : smat C_fieldType (n + n)) (W V W' V' : 'M[C]_(n + n)) (l l' : 'rV[C]_(n + n)) :
  er != 0 ->
  scattering_reflection kx ky W0 V0 er ur = Ok (Sr, W, V, l) ->
  scattering_transmission kx ky W0 V0 er ur = Ok (St, W', V', l') ->
  redheffer_product Sr St = Ok (scattering_identity C_fieldType (n + n)).
Proof. exact (@same_medium_transparent n kx ky W0 V0 er ur Sr W V l St W' V' l'). Qed.
Print Assumptions C11_transparent.
(** Hypotheses met: see [C10_hypotheses_met]. *)

(** ** C13 Uniform-medium modes solve Maxwell's equations *)

(** Column by column: the superposition [c] of the forward (backward) modes is,
    in every diffraction order [j], a plane wave with wavevector
    (kx, ky, kz) ((kx, ky, -kz)) that solves Maxwell's equations; kz is read off
    the returned eigenvalue (lambda = i kz). *)
Theorem C13_modes_solve_maxwell (n : nat) (kx ky : 'rV[C]_n) (er mr : C)
    (W V : 'M[C]_(n + n)) (l : 'rV[C]_(n + n)) (c : 'cV[C]_(n + n)) (j : 'I_n) :
  solve_uniform_layer kx ky er mr = Ok (W, V, l) ->
  let x := lshift n j in let y := rshift n j in
  let kz := - ci * l 0 x in
  (exists sz uz, maxwell er mr (kx 0 j, ky 0 j, kz)
     ((W *m c) x 0, (W *m c) y 0, sz) (H_of_u ((- V *m c) x 0, (- V *m c) y 0, uz))) /\
  (exists sz uz, maxwell er mr (kx 0 j, ky 0 j, - kz)
     ((W *m c) x 0, (W *m c) y 0, sz) (H_of_u ((V *m c) x 0, (V *m c) y 0, uz))).
Proof. exact (@uniform_mode_maxwell n kx ky er mr W V l c j). Qed.
Print Assumptions C13_modes_solve_maxwell.

Theorem C13_wave_equation (n : nat) (kx ky : 'rV[C]_n) (er mr : C)
    (W V : 'M[C]_(n + n)) (l : 'rV[C]_(n + n)) :
  solve_uniform_layer kx ky er mr = Ok (W, V, l) ->
  uniform_P kx ky er mr *m uniform_Q kx ky er mr *m W
    = W *m diag_mx (map_mx (fun x => x ^+ 2) l) /\
  uniform_Q kx ky er mr *m W = V *m diag_mx l.
Proof. exact (@uniform_eigen n kx ky er mr W V l). Qed.
Print Assumptions C13_wave_equation.

(** Forward modes exp(-lambda k0 z) never grow in a passive medium and turn in
    the forward sense. *)
Theorem C13_passive_modes_do_not_grow (n : nat) (kx ky : 'rV[C]_n) (er : C)
    (W V : 'M[C]_(n + n)) (l : 'rV[C]_(n + n)) :
  solve_uniform_layer kx ky er 1 = Ok (W, V, l) ->
  (forall j, snd (kx 0%R j) = 0%Re) -> (forall j, snd (ky 0%R j) = 0%Re) ->
  (snd er <= 0)%Re -> forall j, (0 <= fst (l 0%R j))%Re /\ (0 <= snd (l 0%R j))%Re.
Proof. exact (@uniform_passive n kx ky er W V l). Qed.
Print Assumptions C13_passive_modes_do_not_grow.

Theorem C13_vacuum_is_free_space (n : nat) (kx ky : 'rV[C]_n) (W V : 'M[C]_(n + n)) :
  free_space_eigenmodes kx ky = Ok (W, V) <->
  exists l, solve_uniform_layer kx ky 1 1 = Ok (W, V, l).
Proof. exact (@uniform_is_free n kx ky W V). Qed.
Print Assumptions C13_vacuum_is_free_space.

(** An absorbing medium, er = (2 - i)^2 = 3 - 4i. *)
Example C13_hypotheses_met :
  is_ok (solve_uniform_layer zero_k zero_k (((2, -1)%Re : C) * ((2, -1)%Re : C)) 1) /\
  (snd (((2, -1)%Re : C) * ((2, -1)%Re : C))%R <= 0)%Re.
Proof. split; first (eexists; apply: uniform_normal => /=; lra); rewrite /=; lra. Qed.

(** ** C19 Fresnel and thin-film formulas (at the level of the solver functions;
    see PropDevice for the whole pipeline) *)
Theorem C19_fresnel (n1 n2 : R) :
  (0 < n1)%Re -> (0 < n2)%Re ->
  exists W0 V0 Sr Wr Vr lr St Wt Vt lt S,
    [/\ free_space_eigenmodes (0 : 'rV_1) 0 = Ok (W0, V0),
        scattering_reflection (0 : 'rV_1) 0 W0 V0 (RtoC n1 * RtoC n1) 1 = Ok (Sr, Wr, Vr, lr),
        scattering_transmission (0 : 'rV_1) 0 W0 V0 (RtoC n2 * RtoC n2) 1 = Ok (St, Wt, Vt, lt),
        redheffer_product Sr St = Ok S &
        [/\ s11 S = (fresnel_r (RtoC n1) (RtoC n2))%:M, s21 S = (fresnel_t (RtoC n1) (RtoC n2))%:M,
            s22 S = (fresnel_r (RtoC n2) (RtoC n1))%:M & s12 S = (fresnel_t (RtoC n2) (RtoC n1))%:M]].
Proof. exact (@fresnel_functions n1 n2). Qed.
Print Assumptions C19_fresnel.

Theorem C19_airy (n1 n3 d k0 : R) (n2 : C) :
  (0 < n1)%Re -> (0 < n3)%Re -> (0 < fst n2)%Re -> (snd n2 <= 0)%Re -> (0 <= d * k0)%Re ->
  exists W0 V0 Sr Wr Vr lr W V l L St Wt Vt lt S1 S,
    [/\ [/\ free_space_eigenmodes (0 : 'rV_1) 0 = Ok (W0, V0),
        scattering_reflection (0 : 'rV_1) 0 W0 V0 (RtoC n1 * RtoC n1) 1 = Ok (Sr, Wr, Vr, lr),
        solve_uniform_layer (0 : 'rV_1) 0 (n2 * n2) 1 = Ok (W, V, l) &
        build_scatmat W V W0 V0 l d k0 = Ok L],
        scattering_transmission (0 : 'rV_1) 0 W0 V0 (RtoC n3 * RtoC n3) 1 = Ok (St, Wt, Vt, lt),
        redheffer_product Sr L = Ok S1, redheffer_product S1 St = Ok S &
        let phi := cexp (- (ci * n2 * RtoC (d * k0)%Re)) in
        s11 S = (airy_r (RtoC n1) n2 (RtoC n3) phi)%:M /\
        s21 S = (airy_t (RtoC n1) n2 (RtoC n3) phi)%:M].
Proof. exact (@airy_functions n1 n3 d k0 n2). Qed.
Print Assumptions C19_airy.
