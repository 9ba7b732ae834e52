(** C06-C13 at the level of the functions a user calls. *)
From Coq Require Import Reals Lra.
From mathcomp Require Import all_ssreflect all_algebra.
From Coquelicot Require Import Complex.
From Verif Require Import Base CField CFun ModelRedheffer SpecScatter RedhefferProofs
  ModelLayer SpecLayer SpecEig LayerProofs Blk LayerCProofs SpecMaxwell UniformProofs.
Set Implicit Arguments. Unset Strict Implicit. Unset Printing Implicit Defensive.
Import GRing.Theory.
Local Open Scope ring_scope.

Lemma build_scatmat_unit m (W V W0 V0 : 'M[C]_m) lam d k0 S :
  build_scatmat W V W0 V0 lam d k0 = Ok S -> W \in unitmx /\ V \in unitmx.
Proof. by move=> /build_ok [? ?]. Qed.

Lemma build_zero_thickness m (W V W0 V0 : 'M[C]_m) lam k0 S :
  build_scatmat W V W0 V0 lam 0%Re k0 = Ok S -> S = scattering_identity C_fieldType m.
Proof.
rewrite /build_scatmat propagatorE fwd0; exact: build_zero two_neq0 _ _ _ _ _.
Qed.

Lemma build_vacuum_modes m (W0 V0 : 'M[C]_m) lam d k0 : W0 \in unitmx -> V0 \in unitmx ->
  build_scatmat W0 V0 W0 V0 lam d k0 =
  Ok (Smat 0 (diag_mx (map_mx (fun l => cexp (- (l * RtoC (d * k0)%Re))) lam))
             (diag_mx (map_mx (fun l => cexp (- (l * RtoC (d * k0)%Re))) lam)) 0).
Proof. by move=> h h'; rewrite /build_scatmat propagatorE build_vacuum ?two_neq0. Qed.

Lemma modal_independent m (P Q W V W' V' W0 V0 : 'M[C]_m) lam lam' d k0 S S' :
  modal_decomposition P Q W V lam -> modal_decomposition P Q W' V' lam' ->
  build_scatmat W V W0 V0 lam d k0 = Ok S -> build_scatmat W' V' W0 V0 lam' d k0 = Ok S' ->
  S = S'.
Proof.
move=> [u e q ln] [u' e' q' ln'] h h'; apply: scatters_inj => a1 a2 b1 b2.
move/(layer_responseP a1 a2 b1 b2 h) => hr; apply/(layer_responseP a1 a2 b1 b2 h').
exact: (response_transfer u u' e e' q q' ln ln' hr).
Qed.

Lemma structured_modal n eig (kx ky : 'rV[C]_n) Cm W V lam :
  solve_structured_layer eig kx ky Cm = Ok (W, V, lam) ->
  diagonalises (structured_P kx ky (invmx Cm) *m structured_Q kx ky Cm)
     (eig (structured_P kx ky (invmx Cm) *m structured_Q kx ky Cm)) ->
  modal_decomposition (structured_P kx ky (invmx Cm)) (structured_Q kx ky Cm) W V lam.
Proof.
rewrite /solve_structured_layer /inv; case: ifP => // uC; rewrite /bind.
set P := structured_P _ _ _; set Q := structured_Q _ _ _.
case: (eig (P *m Q)) => l2 W1; cbv zeta.
case hV : (divcols _ _) => [V1|//] [<- <- <-] [/= u e].
move/divcolsP: hV => [ln hV]; split=> //.
rewrite e; congr (_ *m diag_mx _); apply/rowP => j; rewrite !mxE.
by rewrite expr2 csqrt_sqr.
Qed.

Lemma structured_independent n eig eig' (kx ky : 'rV[C]_n) Cm W0 V0 W V lam W' V' lam' d k0 S S' :
  let M := structured_P kx ky (invmx Cm) *m structured_Q kx ky Cm in
  diagonalises M (eig M) -> diagonalises M (eig' M) ->
  solve_structured_layer eig kx ky Cm = Ok (W, V, lam) ->
  solve_structured_layer eig' kx ky Cm = Ok (W', V', lam') ->
  build_scatmat W V W0 V0 lam d k0 = Ok S ->
  build_scatmat W' V' W0 V0 lam' d k0 = Ok S' ->
  S = S'.
Proof.
move=> M d1 d2 h h'.
exact: modal_independent (structured_modal h d1) (structured_modal h' d2).
Qed.

Lemma reflection_inv n (kx ky : 'rV[C]_n) W0 V0 er ur S W V l :
  scattering_reflection kx ky W0 V0 er ur = Ok (S, W, V, l) ->
  [/\ ur != 0, W = 1%:M, l = twice (ci *: half_kz kx ky er ur),
      divcols (Qref kx ky er ur) l = Ok V & reflection_core W0 V0 W V = Ok S].
Proof.
rewrite /scattering_reflection; case: ifPn => // hu; cbv zeta.
case hV : (divcols _ _) => [V1|//]; rewrite /bind.
by case hS : (reflection_core _ _ _ _) => [S1|//] [<- <- <- <-]; split.
Qed.
Lemma transmission_inv n (kx ky : 'rV[C]_n) W0 V0 er ur S W V l :
  scattering_transmission kx ky W0 V0 er ur = Ok (S, W, V, l) ->
  [/\ ur != 0, W = 1%:M, l = twice (ci *: half_kz kx ky er ur),
      divcols (Qref kx ky er ur) l = Ok V & transmission_core W0 V0 W V = Ok S].
Proof.
rewrite /scattering_transmission; case: ifPn => // hu; cbv zeta.
case hV : (divcols _ _) => [V1|//]; rewrite /bind.
by case hS : (transmission_core _ _ _ _) => [S1|//] [<- <- <- <-]; split.
Qed.

Lemma reflection_continuity n (kx ky : 'rV[C]_n) W0 V0 er ur S W V l :
  scattering_reflection kx ky W0 V0 er ur = Ok (S, W, V, l) ->
  forall a1 a2 b1 b2 : 'cV[C]_(n + n),
    scatters S a1 a2 b1 b2 <-> interface_response W V W0 V0 a1 a2 b1 b2.
Proof. by move=> /reflection_inv [_ _ _ _ h]; case: (reflection_ok two_neq0 h). Qed.
Lemma transmission_continuity n (kx ky : 'rV[C]_n) W0 V0 er ur S W V l :
  scattering_transmission kx ky W0 V0 er ur = Ok (S, W, V, l) ->
  forall a1 a2 b1 b2 : 'cV[C]_(n + n),
    scatters S a1 a2 b1 b2 <-> interface_response W0 V0 W V a1 a2 b1 b2.
Proof. by move=> /transmission_inv [_ _ _ _ h]; case: (transmission_ok two_neq0 h). Qed.

Lemma same_medium_transparent n (kx ky : 'rV[C]_n) W0 V0 er ur Sr W V l St W' V' l' :
  er != 0 ->
  scattering_reflection kx ky W0 V0 er ur = Ok (Sr, W, V, l) ->
  scattering_transmission kx ky W0 V0 er ur = Ok (St, W', V', l') ->
  redheffer_product Sr St = Ok (scattering_identity C_fieldType (n + n)).
Proof.
move=> he /reflection_inv [hu eW el hV hS] /transmission_inv [_ eW' el' hV' hS'].
have eV : V = V' by move: hV hV'; rewrite el el' => -> [].
subst W W' V'; apply: same_medium hS hS'; rewrite ?two_neq0 ?unitmx1 //.
by apply: (@half_V_unit _ kx ky er ur) => //; rewrite -el.
Qed.

Lemma uniform_is_free n (kx ky : 'rV[C]_n) W V :
  free_space_eigenmodes kx ky = Ok (W, V) <->
  exists l, solve_uniform_layer kx ky 1 1 = Ok (W, V, l).
Proof.
have hz : \row_j kz_branch (1 * 1 - kx 0 j ^+ 2 - ky 0 j ^+ 2)
        = \row_j kz_branch (1 - kx 0 j ^+ 2 - ky 0 j ^+ 2).
  by apply/rowP => j; rewrite !mxE mul1r.
have -> : free_space_eigenmodes kx ky =
  do V <- divcols (uniform_Q kx ky 1 1)
     (twice (ci *: \row_j kz_branch (1 - kx 0 j ^+ 2 - ky 0 j ^+ 2))); Ok (1%:M, V).
  rewrite /free_space_eigenmodes /uniform_Q /uniform_P.
  by rewrite ?invr1 ?mul1r ?scale1r.
rewrite /solve_uniform_layer oner_eq0 /= hz.
case: (divcols _ _) => [V1|e] /=; split=> //.
- by move=> [<- <-]; eexists.
- by case=> l [<- <- _].
- by case.
Qed.

Lemma uniform_passive n (kx ky : 'rV[C]_n) er W V l :
  solve_uniform_layer kx ky er 1 = Ok (W, V, l) ->
  (forall j, snd (kx 0 j) = 0%Re) -> (forall j, snd (ky 0 j) = 0%Re) ->
  (snd er <= 0)%Re -> forall j, (0 <= fst (l 0%R j))%Re /\ (0 <= snd (l 0%R j))%Re.
Proof.
move=> /uniform_ok [_ _ _ -> _] hx hy he j.
have aux a : (0 <= fst (ci * kz_branch (1 * er - kx 0 a ^+ 2 - ky 0 a ^+ 2))%R)%Re /\
             (0 <= snd (ci * kz_branch (1 * er - kx 0 a ^+ 2 - ky 0 a ^+ 2))%R)%Re.
  have h : (snd (1 * er - kx 0 a ^+ 2 - ky 0 a ^+ 2)%R <= 0)%Re.
    rewrite !expr2 /=; have := hx a; have := hy a; move: (kx 0 a) (ky 0 a) => x y /= -> ->; lra.
  have [h1 h2] := kz_branch_passive h.
  move: (kz_branch _) h1 h2 => z h1 h2; rewrite /=; lra.
by rewrite mxE; case: (split j) => a; rewrite mxE; exact: aux.
Qed.

Lemma build_scatmat_err m (W V W0 V0 : 'M[C]_m) lam d k0 e :
  W \in unitmx -> V \in unitmx -> invmx W *m W0 + invmx V *m V0 \in unitmx ->
  build_scatmat W V W0 V0 lam d k0 = Err e ->
  e = LinAlgError /\
  exists b1 b2 : 'cV[C]_m, b1 <> 0 /\ layer_response W V W0 V0 lam d k0 0 0 b1 b2.
Proof.
move=> uW uV uA; rewrite /build_scatmat propagatorE.
exact: (build_err two_neq0 (fwd_bwd lam d k0) uW uV uA).
Qed.
Lemma vacuum_layer n (kx ky : 'rV[C]_n) W0 V0 W V lam d k0 :
  free_space_eigenmodes kx ky = Ok (W0, V0) ->
  solve_uniform_layer kx ky 1 1 = Ok (W, V, lam) ->
  let X := diag_mx (map_mx (fun l => cexp (- (l * RtoC (d * k0)%Re))) lam) in
  build_scatmat W V W0 V0 lam d k0 = Ok (Smat 0 X X 0).
Proof.
move=> hf hu.
have [l e] : exists l, solve_uniform_layer kx ky 1 1 = Ok (W0, V0, l) by apply/uniform_is_free.
move: e; rewrite hu => -[eW eV _]; subst W V.
have [-> uV _ _] := free_ok hf.
by apply: build_vacuum_modes; rewrite ?unitmx1.
Qed.
Lemma cut_layer n (kx ky : 'rV[C]_n) W V W0 V0 lam d1 d2 k0 S1 S2 :
  free_space_eigenmodes kx ky = Ok (W0, V0) ->
  build_scatmat W V W0 V0 lam d1 k0 = Ok S1 ->
  build_scatmat W V W0 V0 lam d2 k0 = Ok S2 ->
  redheffer_product S1 S2 = build_scatmat W V W0 V0 lam (d1 + d2)%Re k0.
Proof.
move=> hf; have [-> uV _ _] := free_ok hf.
by apply: layer_additive; rewrite ?unitmx1.
Qed.

(** The chain solve_structured_layer; build_scatmat gives the same outcome
    (value or exception) for all valid eigendecompositions. *)
Section Similar.
Variables (F : fieldType) (m : nat) (D : 'M[F]_m).
Hypothesis uD : D \in unitmx.
Lemma solve_simL (A B : 'M[F]_m) : solve (D *m A) (D *m B) = solve A B.
Proof.
rewrite /solve unitmx_mul uD /=; case: ifP => // uA.
by congr Ok; apply: (canRL (mulKmx uA)); apply: (can_inj (mulKmx uD));
  rewrite !mulmxA mulmxV ?unitmx_mul ?uD // mul1mx.
Qed.
Lemma solve_simR (A B : 'M[F]_m) :
  solve (A *m D) B = (do t <- solve A B; Ok (invmx D *m t)).
Proof.
rewrite /solve unitmx_mul uD andbT; case: ifP => //= uA; congr Ok.
apply: (canRL (mulKmx uD)); apply: (canRL (mulKmx uA)).
by rewrite !mulmxA mulmxV ?unitmx_mul ?uA // mul1mx.
Qed.
End Similar.
Lemma build_core_similar (F : fieldType) m (W V W0 V0 D : 'M[F]_m) x x' :
  D \in unitmx -> D *m diag_mx x' = diag_mx x *m D ->
  build_core (W *m D) (V *m D) W0 V0 x' = build_core W V W0 V0 x.
Proof.
move=> uD eX; have uE : invmx D \in unitmx by rewrite unitmx_inv.
have eX' : diag_mx x' = invmx D *m diag_mx x *m D by rewrite -mulmxA -eX mulKmx.
rewrite /build_core !solve_simR //.
case: (solve W W0) => [t1|//] /=; case: (solve V V0) => [t2|//] /=.
rewrite -mulmxDr -mulmxBr eX'; move: (t1 + t2) (t1 - t2) => A B.
rewrite -[invmx D *m diag_mx x *m D]mulmxA (solve_simL uE A (diag_mx x *m D)) (solve_simL uE A B).
have -> : solve A (diag_mx x *m D) = (do t <- solve A (diag_mx x); Ok (t *m D)).
  by rewrite /solve; case: ifP => // _ /=; rewrite mulmxA.
case: (solve A (diag_mx x)) => [ax|//] /=.
have -> : invmx D *m A - invmx D *m (diag_mx x *m D) *m (invmx D *m B) *m (ax *m D) *m (invmx D *m B)
        = invmx D *m (A - diag_mx x *m B *m ax *m B).
  by rewrite mulmxBr !mulmxA !mulmxK.
have -> : invmx D *m (diag_mx x *m D) *m (invmx D *m B) *m (ax *m D) *m (invmx D *m A) - invmx D *m B
        = invmx D *m (diag_mx x *m B *m ax *m A - B).
  by rewrite mulmxBr !mulmxA !mulmxK.
rewrite (solve_simL uE); case: (solve (_ - _) _) => [S11|//] /=.
case: (solve A B) => [ab|//] /=.
have -> : invmx D *m (diag_mx x *m D) *m (invmx D *m A - invmx D *m B *m ab)
        = invmx D *m (diag_mx x *m (A - B *m ab)).
  by rewrite -[invmx D *m B *m ab]mulmxA -mulmxBr !mulmxA mulmxK.
by rewrite (solve_simL uE).
Qed.

Section SameSpectrum.
Variables (n : nat) (M W W' : 'M[C]_n) (l l' : 'rV[C]_n).
Hypotheses (h : diagonalises M (l, W)) (h' : diagonalises M (l', W')).
Let D := invmx W *m W'.
Lemma specD_unit : D \in unitmx.
Proof. by case: h h' => /= u _ [u' _]; rewrite unitmx_mul unitmx_inv u. Qed.
Lemma specD_W : W' = W *m D.
Proof. by case: h => /= u _; rewrite mulKVmx. Qed.
Lemma specD_comm (f : C -> C) : D *m diag_mx (map_mx f l') = diag_mx (map_mx f l) *m D.
Proof.
have e : D *m diag_mx l' = diag_mx l *m D.
  case: h h' => /= u e1 [u' e2]; rewrite /D -mulmxA -e2 !mulmxA; congr (_ *m _).
  by apply: (can_inj (mulKmx u)); rewrite !mulmxA mulmxV // mul1mx -e1 mulmxK.
move: (D) e => E e; apply/matrixP => i j; move/matrixP/(_ i j): e.
rewrite !mul_mx_diag !mul_diag_mx !mxE => e.
case: (eqVneq (E i j) 0) => [->|nz]; first by rewrite mul0r mulr0.
by move: e; rewrite mulrC => /(mulIf nz) ->; rewrite mulrC.
Qed.
Lemma spec_nz (f : C -> C) : (forall j, map_mx f l 0 j != 0) -> forall j, map_mx f l' 0 j != 0.
Proof.
move=> nz j; apply/eqP => e0.
have : D *m diag_mx (map_mx f l') *m delta_mx j 0 = 0 :> 'cV_n.
  rewrite -mulmxA; have -> : diag_mx (map_mx f l') *m delta_mx j 0 = 0 :> 'cV_n.
    apply/matrixP => i k; rewrite mul_diag_mx !mxE; case: eqP => [->|_]; last by rewrite mulr0.
    by move: e0; rewrite mxE => ->; rewrite mul0r.
  by rewrite mulmx0.
rewrite specD_comm -mulmxA => e1.
have uf : diag_mx (map_mx f l) \in unitmx.
  by rewrite unitmxE unitfE det_diag; apply/prodf_neq0 => i _; exact: nz.
have /eqP : delta_mx j 0 = 0 :> 'cV[C]_n.
  by rewrite -(mulKmx specD_unit (delta_mx j 0)) -[D *m _](mulKmx uf) e1 !mulmx0.
by move/eqP/matrixP/(_ j 0); rewrite !mxE !eqxx => /eqP; rewrite oner_eq0.
Qed.
End SameSpectrum.

Lemma structured_same n eig eig' (kx ky : 'rV[C]_n) Cm W0 V0 d k0 :
  let M := structured_P kx ky (invmx Cm) *m structured_Q kx ky Cm in
  diagonalises M (eig M) -> diagonalises M (eig' M) ->
  (do m <- solve_structured_layer eig kx ky Cm;
   build_scatmat m.1.1 m.1.2 W0 V0 m.2 d k0) =
  (do m <- solve_structured_layer eig' kx ky Cm;
   build_scatmat m.1.1 m.1.2 W0 V0 m.2 d k0).
Proof.
move=> M; rewrite /solve_structured_layer /inv; case: ifP => //= uC.
rewrite -/M; case: (eig M) (eig' M) => [l W] [l' W'] hd hd'.
have uD := specD_unit hd hd'; have eW := specD_W W' hd.
have eD := specD_comm hd hd'; set D := invmx W *m W' in uD eW eD *; clearbody D.
have eb : [forall j, map_mx csqrt l 0 j != 0] = [forall j, map_mx csqrt l' 0 j != 0].
  by apply/forallP/forallP; [exact: (spec_nz hd hd') | exact: (spec_nz hd' hd)].
rewrite /divcols -eb; case: ifP => //= /forallP nz.
have nz' := spec_nz hd hd' nz.
have eV : \matrix_(i, j) ((structured_Q kx ky Cm *m W') i j / map_mx csqrt l' 0 j)
        = \matrix_(i, j) ((structured_Q kx ky Cm *m W) i j / map_mx csqrt l 0 j) *m D.
  have cols p (A : 'M[C]_(p, n + n)) (v : 'rV[C]_(n + n)) :
     \matrix_(i, j) (A i j / v 0 j) = A *m diag_mx (map_mx (fun x => x^-1) v).
    by apply/matrixP => i j; rewrite mul_mx_diag !mxE.
  by rewrite !cols -!map_mx_comp {1}eW -!mulmxA eD.
rewrite eV {1}eW /build_scatmat /propagator -!map_mx_comp; apply/esym.
by apply: build_core_similar => //; rewrite eD.
Qed.
