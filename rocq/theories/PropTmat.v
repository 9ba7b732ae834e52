(** Properties C45 to C53 and C70: the T-matrix API. *)
From Coq Require Import Reals ZArith Lra.
From mathcomp Require Import all_ssreflect all_algebra.
From Coquelicot Require Import Complex.
From Verif Require Import Base CField CFun ModelRedheffer SpecScatter ModelExpansion ModelFourier ModelTmat SpecTmat TmatProofs
  ModelLattice SpecLattice LatticeProofs LookupProofs CurrentProofs TmatExamples TmatTheorems SpecExp ExpProofs.
Set Implicit Arguments. Unset Strict Implicit. Unset Printing Implicit Defensive.
Import GRing.Theory.
Local Open Scope ring_scope.

(** ** C45 Stacking *)

(** The product describes two layers with waves between them, and these waves are
    unique. *)
Theorem C45_wave_matching (F : fieldType) k (S1 S2 S0 : 'M[F]_(k + k)) : multS S1 S2 = Ok S0 ->
  (forall lp rm : 'cV_k, exists! g : 'cV_k * 'cV_k, exists lm rp,
     tscatters S1 lp lm g.1 g.2 /\ tscatters S2 g.1 g.2 rp rm) /\
  (forall lp lm rp rm, two_layers S1 S2 lp lm rp rm <-> tscatters S0 lp lm rp rm).
Proof. exact (@multS_joined F k S1 S2 S0). Qed.
Print Assumptions C45_wave_matching.

(** It fails exactly when waves can be trapped between the layers. *)
Theorem C45_error (F : fieldType) k (S1 S2 : 'M[F]_(k + k)) e : multS S1 S2 = Err e ->
  e = LinAlgError /\ exists gp gm, (gp, gm) <> (0, 0) /\
    (exists lm, tscatters S1 0 lm gp gm) /\ (exists rp, tscatters S2 gp gm rp 0).
Proof. exact (@multS_err F k S1 S2 e). Qed.
Print Assumptions C45_error.

Theorem C45_associative (F : fieldType) k (S1 S2 S3 S12 S23 : 'M[F]_(k + k)) :
  multS S1 S2 = Ok S12 -> multS S2 S3 = Ok S23 -> multS S12 S3 = multS S1 S23.
Proof. exact (@multS_assoc F k S1 S2 S3 S12 S23). Qed.
Print Assumptions C45_associative.

Theorem C45_same_operation (F : fieldType) k (S1 S2 : 'M[F]_(k + k)) :
  redheffer_product (relayout S1) (relayout S2) = res_map (@relayout F k) (multS S1 S2).
Proof. exact (multS_redheffer S1 S2). Qed.
Print Assumptions C45_same_operation.

(** The neutral element is the identity matrix. *)
Theorem C45_neutral (F : fieldType) k (S : 'M[F]_(k + k)) : multS 1%:M S = Ok S /\ multS S 1%:M = Ok S.
Proof. exact (conj (multS_1l S) (multS_1r S)). Qed.
Print Assumptions C45_neutral.

(** The library's scattering_identity is not neutral, on either side. *)
Theorem C45_identity_refuted (F : fieldType) : exists S : 'M[F]_(1 + 1),
  layer_matmul (tmat_identity F 1) (LayerMatrix 2 S) <> Ok (LayerMatrix 2 S) /\
  layer_matmul S (Array (tmat_identity F 1)) <> Ok (Array S).
Proof. exact (antidiagonal_wrong F). Qed.
Print Assumptions C45_identity_refuted.

(** Three half-reflecting layers can be stacked; two perfect mirrors cannot. *)
Example C45_hypotheses_met : let s : 'M[rat]_(1 + 1) := sc 2%:R^-1 2%:R^-1 2%:R^-1 2%:R^-1 in
  exists S12 S123, [/\ multS s s = Ok S12, multS S12 s = Ok S123 & S12 <> s].
Proof.
move=> s; exists (sc 3%:R^-1 (2%:R / 3%:R) (2%:R / 3%:R) 3%:R^-1), (sc 4%:R^-1 (3%:R / 4%:R) (3%:R / 4%:R) 4%:R^-1).
split; [rewrite /s sc_multS; first by congr (Ok (sc _ _ _ _)); apply/eqP; vm_compute| |].
- by vm_compute.
- rewrite /s sc_multS; first by congr (Ok (sc _ _ _ _)); apply/eqP; vm_compute.
  by vm_compute.
by case/sc_inj => /eqP; vm_compute.
Qed.
Example C45_can_raise : let m : 'M[rat]_(1 + 1) := block_mx 0 1%:M 1%:M 0 in multS m m = Err LinAlgError.
Proof.
move=> m; rewrite /multS /m; have [-> -> -> ->] := blockE (0 : 'M[rat]_1) 1%:M 1%:M 0.
by rewrite mul1mx subrr /solve unitmxE det0 unitr0.
Qed.

(** ** C46 Transfer matrices *)

(** The scattering matrix describes the same waves as the transfer matrix. *)
Theorem C46_meaning (F : fieldType) k (T S : 'M[F]_(k + k)) lp lm rp rm :
  matrix_s T = Ok S -> tscatters S lp lm rp rm <-> transfers T lp lm rp rm.
Proof. exact (@matrix_s_meaning F k T S lp lm rp rm). Qed.
Print Assumptions C46_meaning.

Theorem C46_product (F : fieldType) k (T1 T2 S1 S2 : 'M[F]_(k + k)) :
  matrix_s T1 = Ok S1 -> matrix_s T2 = Ok S2 -> matrix_s (T1 *m T2) = multS S1 S2.
Proof. exact (@matrix_s_mul F k T1 T2 S1 S2). Qed.
Print Assumptions C46_product.

(** It is defined unless waves can leave on the right without any on the left. *)
Theorem C46_defined (F : fieldType) k (T : 'M[F]_(k + k)) :
  (is_ok (matrix_s T) <-> ulsubmx T \in unitmx) /\ (forall e, matrix_s T = Err e -> e = LinAlgError).
Proof. exact (conj (matrix_s_ok T) (fun e => @matrix_s_err F k T e)). Qed.
Print Assumptions C46_defined.

Theorem C46_neutral (F : fieldType) k : matrix_s (1%:M : 'M[F]_(k + k)) = Ok 1%:M.
Proof. exact (matrix_s1 F k). Qed.
Print Assumptions C46_neutral.

Example C46_hypotheses_met : is_ok (matrix_s (sc (2%:R : rat) 1 1 1)) /\ is_ok (matrix_s (sc (3%:R : rat) 1 2%:R 5%:R)).
Proof. by rewrite !sc_matrix_s; [split; eexists|vm_compute|vm_compute]. Qed.

(** ** C47 Polarisation basis changes *)

Theorem C47_inverse n L wl kp U V :
  lattice_U n L wl kp = Ok U -> lattice_Vi n L wl kp = Ok V -> U *m V = 1%:M /\ V *m U = 1%:M.
Proof. exact (fun h1 h2 => conj (lattice_UV h1 h2) (mulmx1C (lattice_UV h1 h2))). Qed.
Print Assumptions C47_inverse.

(** Both exist away from Rayleigh anomalies. *)
Theorem C47_defined n L wl kp : n = l_ng L -> wl <> 0%Re -> num_val (l_incid L) != 0 -> has_sqrt (l_incid L) ->
  no_anomaly L (l_incid L) wl kp -> is_ok (lattice_U n L wl kp) /\ is_ok (lattice_Vi n L wl kp).
Proof. exact (fun h1 h2 h3 h4 h5 => conj (lattice_U_def h1 h2 h3 h5) (lattice_V_def kp h1 h2 h3 h4)). Qed.
Print Assumptions C47_defined.

Theorem C47_equal_media n L wl kp : l_emerg L = l_incid L -> n = l_ng L -> wl <> 0%Re ->
  num_val (l_incid L) != 0 -> has_sqrt (l_incid L) -> no_anomaly L (l_incid L) wl kp ->
  scattering_interface n L wl kp = Ok 1%:M.
Proof. exact (@equal_media_def n L wl kp). Qed.
Print Assumptions C47_equal_media.

(** The interface between two lossless dielectrics never fails. *)
Theorem C47_interface_defined n L wl kp r r' : n = l_ng L -> (0 < wl)%Re ->
  num_val (l_incid L) = RtoC r -> (0 < r)%Re -> num_val (l_emerg L) = RtoC r' -> (0 < r')%Re ->
  no_anomaly L (l_incid L) wl kp -> is_ok (scattering_interface n L wl kp).
Proof. exact (@interface_def n L wl kp r r'). Qed.
Print Assumptions C47_interface_defined.

Example C47_hypotheses_met : exists L, [/\ mk_lattice (1, 1)%N (1%Re, 0%Re) (0%Re, 1%Re) (Float 2) (Float 2) = Ok L,
  l_emerg L = l_incid L, 1%N = l_ng L, num_val (l_incid L) = RtoC 2 & no_anomaly L (l_incid L) 1 (0%Re, 0%Re)].
Proof.
have [L hL] := @mk_lattice_ok (1, 1)%N (Float 2) (Float 2) erefl; exists L; have [mi me] := one_media hL.
split; rewrite ?mi ?me ?(one_ng hL) //; apply: (one_no_anomaly hL (r := 2%Re)) => //=.
by have := PI_RGT_0; nra.
Qed.

(** ** C48 Slices *)

(** Every number of slices gives the matrix of the undivided layer. *)
Theorem C48_slices (F : fieldType) k (expm : 'M[F]_(k + k) -> 'M[F]_(k + k)) (U A Vi : 'M[F]_(k + k)) d n S :
  U *m Vi = 1%:M -> (2%:R : F) != 0 -> translations (fun s => expm (s *: - A)) ->
  sliced_layer expm U A Vi d n = Ok S -> matrix_s (U *m expm (d *: - A) *m Vi) = Ok S.
Proof. exact (fun h1 h2 h3 => @sliced_value F k expm U A Vi h1 h2 h3 d n S). Qed.
Print Assumptions C48_slices.

(** A number of slices works if and only if every coarser slice has a matrix. *)
Theorem C48_defined (F : fieldType) k (expm : 'M[F]_(k + k) -> 'M[F]_(k + k)) (U A Vi : 'M[F]_(k + k)) d n :
  U *m Vi = 1%:M -> (2%:R : F) != 0 -> translations (fun s => expm (s *: - A)) ->
  is_ok (sliced_layer expm U A Vi d n) <->
  (forall j, (j <= n)%N -> is_ok (matrix_s (U *m expm ((d / 2%:R ^+ j) *: - A) *m Vi))).
Proof. exact (fun h1 h2 h3 => @sliced_defined F k expm U A Vi h1 h2 h3 d n). Qed.
Print Assumptions C48_defined.

(** The exponential given by its power series satisfies the hypothesis. *)
Theorem C48_exponential k (expm : 'M[C]_(k + k) -> 'M[C]_(k + k)) (U A Vi : 'M[C]_(k + k)) d n S :
  is_expm expm -> U *m Vi = 1%:M -> sliced_layer expm U A Vi d n = Ok S ->
  matrix_s (U *m expm (d *: - A) *m Vi) = Ok S.
Proof. exact (@sliced_exp k expm U A Vi d n S). Qed.
Print Assumptions C48_exponential.

(** One exists, and only one. *)
Example C48_exponential_met k : is_expm (@mexp k) /\ forall expm, is_expm expm -> forall X, expm X = @mexp k X.
Proof. exact (conj (@mexpP k) (fun _ h X => is_expmE X h)). Qed.

Example C48_hypotheses_met (a : 'rV[C]_(1 + 1)) :
  (1%:M : 'M[C]_(1 + 1)) *m 1%:M = 1%:M /\ (2%:R : C) != 0 /\
  translations (fun s : C => some_expm (s *: - diag_mx a)).
Proof. by split; [rewrite mul1mx|split; [apply/eqP => /(congr1 fst) /=; lra|exact (some_translations a)]]. Qed.

(** ** C49 Fast and reference operators *)

(** For the standard orders; [coords_from_index] always gives these, see
    [C51_indices]. *)
Theorem C49_same n w l eps epsinv wl kp : standard_orders (w_rows w) (w_cols w) l ->
  matrix_a n l w eps epsinv wl kp = matrix_a_old n l w eps epsinv wl kp.
Proof. exact (@matrix_a_same n w l eps epsinv wl kp). Qed.
Print Assumptions C49_same.

Example C49_hypothesis_met : exists l, standard_orders 3 3 l.
Proof. by have [l hl] := coords_ok 3 3; exists l; exact (coords_standard hl). Qed.

(** ** C50 Plane-wave window *)

(** Missing: numbers of orders that differ in the two directions, unless there is a
    single one along the second, see below. *)
Theorem C50_window_partial p a1 a2 ei ee L : mk_lattice p a1 a2 ei ee = Ok L -> window_fits p ->
  [/\ reciproc a1 a2 = Ok (l_b L), w_rows (window L) = p.1, w_cols (window L) = p.2,
      forall i j, w_at (window L) i j =
        order_vector (l_b L) (Z.sub (Z.of_nat i) (Z.of_nat (p.1 %/ 2))) (Z.sub (Z.of_nat j) (Z.of_nat (p.2 %/ 2))) &
      (0 < p.1)%N -> (p.1 %/ 2 + p.1 * (p.2 %/ 2) < l_ng L)%N /\ l_g L (p.1 %/ 2 + p.1 * (p.2 %/ 2)) = (0%Re, 0%Re)].
Proof. exact (@fitting_window p a1 a2 ei ee L). Qed.
Print Assumptions C50_window_partial.

(** The window is right for these numbers of orders and for no others. *)
Theorem C50_exactly p a1 a2 ei ee L : mk_lattice p a1 a2 ei ee = Ok L -> (0 < p.1)%N -> (0 < p.2)%N ->
  w_cols (window L) = p.2 <-> window_fits p.
Proof. exact (@window_cols_iff p a1 a2 ei ee L). Qed.
Print Assumptions C50_exactly.

(** With (3, 5) orders the window is 3 x 1. *)
Theorem C50_rectangular_refuted : exists L,
  mk_lattice (3, 5)%N (1%Re, 0%Re) (0%Re, 1%Re) (Float 1) (Float 1) = Ok L /\
  w_rows (window L) = 3%N /\ w_cols (window L) = 1%N.
Proof. exact rectangular_window. Qed.
Print Assumptions C50_rectangular_refuted.

Example C50_hypothesis_met p : window_fits (p, p) /\ is_ok (mk_lattice (p, p) (1%Re, 0%Re) (0%Re, 1%Re) (Float 1) (Float 1)).
Proof. exact (conj (or_introl erefl) (@mk_lattice_ok (p, p) (Float 1) (Float 1) erefl)). Qed.
Example C50_grating_met : window_fits (7, 1)%N /\ is_ok (mk_lattice (7, 1)%N (1%Re, 0%Re) (0%Re, 1%Re) (Float 1) (Float 1)).
Proof. exact (conj (or_intror erefl) (@mk_lattice_ok (7, 1)%N (Float 1) (Float 1) erefl)). Qed.

(** ** C51 Coefficient lookups *)

(** Missing: numbers of orders that differ in the two directions, unless there is a
    single one along the second, see below. *)
Theorem C51_difference_partial p a1 a2 ei ee L l T : mk_lattice p a1 a2 ei ee = Ok L -> window_fits p ->
  standard_orders p.1 p.2 l ->
  a_rows T = (l_q L).1 -> a_cols T = (l_q L).2 ->
  exists2 s, order_lookups l (w_rows (window L) %/ 2) (w_cols (window L) %/ 2) (l_ng L) T = Ok s &
  forall i j, (i < l_ng L)%N -> (j < l_ng L)%N -> exists a b,
    [/\ (a < a_rows T)%N, (b < a_cols T)%N, looked s i j = a_at T a b & w_at (l_G L) a b = minus2 (l_g L i) (l_g L j)].
Proof. exact (@lookups_difference p a1 a2 ei ee L l T). Qed.
Print Assumptions C51_difference_partial.

Theorem C51_indices r c l : mapM (coords_from_index (r, c) (r %/ 2, c %/ 2)%N) (iota 0 (r * c)) = Ok l ->
  standard_orders r c l.
Proof. exact (@coords_standard r c l). Qed.
Print Assumptions C51_indices.

(** The table: host at the centre, plus the contrast of each island times its
    table; the centre is the zero vector. *)
Theorem C51_centre q isl host inverse T : epsilon_g q isl host inverse = Ok T ->
  [/\ a_rows T = q.1, a_cols T = q.2 & forall i j,
    a_at T i j = (if (i == (q.1 %/ 2)%N) && (j == (q.2 %/ 2)%N) then if inverse then host^-1 else host else 0) +
      \sum_(s <- isl) (if inverse then s.2^-1 - host^-1 else s.2 - host) * a_at s.1 i j] /\
  forall pw a1 a2 ei ee L, mk_lattice pw a1 a2 ei ee = Ok L ->
    w_at (l_G L) ((l_q L).1 %/ 2) ((l_q L).2 %/ 2) = (0%Re, 0%Re).
Proof. exact (fun h => conj (epsilon_gE h) (@centre_zero)). Qed.
Print Assumptions C51_centre.

(** With (5, 3) orders every lookup fails. *)
Theorem C51_error_refuted : exists L l, mk_lattice (5, 3)%N (1%Re, 0%Re) (0%Re, 1%Re) (Float 1) (Float 1) = Ok L /\
  mapM (coords_from_index (5, 3)%N (w_rows (window L) %/ 2, w_cols (window L) %/ 2)%N) (iota 0 (5 * 3)) = Ok l /\
  forall T, a_rows T = (l_q L).1 -> a_cols T = (l_q L).2 ->
    order_lookups l (w_rows (window L) %/ 2) (w_cols (window L) %/ 2) (l_ng L) T = Err IndexError.
Proof. exact rectangular_lookup_error. Qed.
Print Assumptions C51_error_refuted.

(** With (3, 5) orders the lookups succeed and read other coefficients. *)
Theorem C51_wrong_refuted : exists L l, mk_lattice (3, 5)%N (1%Re, 0%Re) (0%Re, 1%Re) (Float 1) (Float 1) = Ok L /\
  mapM (coords_from_index (3, 5)%N (w_rows (window L) %/ 2, w_cols (window L) %/ 2)%N) (iota 0 (3 * 5)) = Ok l /\
  forall T, a_rows T = (l_q L).1 -> a_cols T = (l_q L).2 -> exists s,
    order_lookups l (w_rows (window L) %/ 2) (w_cols (window L) %/ 2) (l_ng L) T = Ok s /\
    looked s 0 0 = a_at T 2 0 /\ w_at (l_G L) 2 0 <> minus2 (l_g L 0) (l_g L 0).
Proof. exact rectangular_lookup_wrong. Qed.
Print Assumptions C51_wrong_refuted.

Example C51_hypotheses_met p : exists L l, mk_lattice (p, p) (1%Re, 0%Re) (0%Re, 1%Re) (Float 1) (Float 1) = Ok L /\
  mapM (coords_from_index (p, p) (p %/ 2, p %/ 2)%N) (iota 0 (p * p)) = Ok l.
Proof.
have [L hL] := @mk_lattice_ok (p, p) (Float 1) (Float 1) erefl; have [l hl] := coords_ok p p.
by exists L, l.
Qed.

(** ** C52 Fluxes *)

(** The currents of all orders balance, at any angle: incident = reflected +
    transmitted, at a lossless interface.  Missing: orders whose normal wavevector
    has an imaginary part below the float epsilon. *)
Theorem C52_currents_partial n L wl kp S r r' (pin : 'cV[C]_((n + n) + (n + n))) j1p j1m j3p :
  scattering_interface n L wl kp = Ok S -> (0 < wl)%Re -> num_val (l_incid L) = RtoC r -> (0 < r)%Re ->
  num_val (l_emerg L) = RtoC r' -> r' <> 0%Re -> from_left L wl kp pin ->
  clear_orders L (l_incid L) wl kp -> clear_orders L (l_emerg L) wl kp ->
  compute_currents pin (S *m pin) L wl kp = Ok (j1p, j1m, j3p) ->
  \sum_g j1p g = \sum_g j1m g + \sum_g j3p g.
Proof. exact (@currents_balance n L wl kp S r r' pin j1p j1m j3p). Qed.
Print Assumptions C52_currents_partial.

(** At normal incidence R + T = 1 and A = 0, whatever [kp] is given to
    compute_fluxes. *)
Theorem C52_normal_partial n L wl kp S r r' (pin : 'cV[C]_((n + n) + (n + n))) f :
  scattering_interface n L wl (0%Re, 0%Re) = Ok S -> (0 < wl)%Re -> num_val (l_incid L) = RtoC r -> (0 < r)%Re ->
  num_val (l_emerg L) = RtoC r' -> r' <> 0%Re -> from_left L wl (0%Re, 0%Re) pin ->
  clear_orders L (l_incid L) wl (0%Re, 0%Re) -> clear_orders L (l_emerg L) wl (0%Re, 0%Re) ->
  compute_fluxes L wl pin (S *m pin) kp = Ok f -> (f.1.1 + f.1.2 = 1)%Re /\ f.2 = 0%Re.
Proof. exact (@normal_fluxes n L wl kp S r r' pin f). Qed.
Print Assumptions C52_normal_partial.

(** At an angle a lossless glass interface absorbs. *)
Theorem C52_angle_refuted : exists L S (pin : 'cV[C]_((1 + 1) + (1 + 1))) f wl kp,
  [/\ mk_lattice (1, 1)%N (1%Re, 0%Re) (0%Re, 1%Re) (Float 1) (Float (16 / 9)) = Ok L,
      scattering_interface 1 L wl kp = Ok S, tmat_incident 1 (1, 1)%N 1 0 1 = Ok pin &
      compute_fluxes L wl pin (S *m pin) kp = Ok f] /\ f.2 <> 0%Re.
Proof. exact angle_ignored_absorbs. Qed.
Print Assumptions C52_angle_refuted.

(** A glass interface, at normal incidence and at an angle. *)
Example C52_hypotheses_met : exists L S, let wl := (2 * PI)%Re in let kp := (0%Re, 0%Re) in
  [/\ mk_lattice (1, 1)%N (1%Re, 0%Re) (0%Re, 1%Re) (Float 1) (Float (16 / 9)) = Ok L,
      scattering_interface 1 L wl kp = Ok S, from_left L wl kp unit_wave &
  [/\ clear_orders L (l_incid L) wl kp, clear_orders L (l_emerg L) wl kp,
      is_ok (compute_currents unit_wave (S *m unit_wave) L wl kp) &
      is_ok (compute_fluxes L wl unit_wave (S *m unit_wave) kp)]].
Proof. by apply: (@glass_interface _ 1%Re (4 / 3)%Re) => /=; lra. Qed.
Example C52_hypotheses_met_at_an_angle : exists L S, let wl := (2 * PI)%Re in let kp := ((4 / 5)%Re, 0%Re) in
  [/\ mk_lattice (1, 1)%N (1%Re, 0%Re) (0%Re, 1%Re) (Float 1) (Float (16 / 9)) = Ok L,
      scattering_interface 1 L wl kp = Ok S, from_left L wl kp unit_wave &
  [/\ clear_orders L (l_incid L) wl kp, clear_orders L (l_emerg L) wl kp,
      is_ok (compute_currents unit_wave (S *m unit_wave) L wl kp) &
      is_ok (compute_fluxes L wl unit_wave (S *m unit_wave) kp)]].
Proof. by apply: (@glass_interface _ (3 / 5)%Re (16 / 15)%Re) => /=; lra. Qed.

(** ** C53 Bloch modes *)

Theorem C53_bloch (F : fieldType) k (S : 'M[F]_(k + k)) w v :
  bloch_wave S w v <-> eigenpair (scattering_splitlr S) w v.
Proof. exact (blochE S w v). Qed.
Print Assumptions C53_bloch.

Theorem C53_det (F : fieldType) k (S : 'M[F]_(k + k)) :
  (forall d, scattering_det S = Ok d -> d = \det S) /\ (is_ok (scattering_det S) <-> drsubmx S \in unitmx).
Proof. exact (conj (fun d => @scattering_detE F k S d) (scattering_det_defined S)). Qed.
Print Assumptions C53_det.

(** A cell that multiplies what goes to the right by 2 and what goes to the left by
    3 has a Bloch wave with factor 2. *)
Example C53_hypotheses_met :
  bloch_wave (sc (2%:R : rat) 0 0 3%:R) 2%:R (col_mx 1%:M 0) /\ is_ok (scattering_det (sc (2%:R : rat) 0 0 3%:R)).
Proof.
split; last by apply/scattering_det_defined; rewrite /mm /sc block_mxKdr unitmxE det_scalar1.
split; first by apply/eqP => /(congr1 usubmx) /matrixP /(_ 0 0); rewrite col_mxKu !mxE.
rewrite /tscatters /sc col_mxKu col_mxKd scaler0 mul_block_col !mulmx0 !addr0 mulmx1 scale_scalar_mx mulr1.
by rewrite (raddf0 (scalar_mx_additive _ 1)) mul0mx.
Qed.

(** ** C70 A homogeneous layer *)

(** A layer of the incident medium, whatever its islands of the same medium and the
    number of slices: each order is multiplied by its own phase. *)
Theorem C70_homogeneous J1 p a1 a2 ei ee L n (expm : 'M[C]_((n + n) + (n + n)) -> 'M[C]_((n + n) + (n + n))) isl host wl kp d pow S :
  mk_lattice p a1 a2 ei ee = Ok L -> window_fits p -> exponential expm -> not_tiny L kp ->
  map snd isl = nseq (size isl) host -> host = num_val (l_incid L) ->
  scattering_matrix_islands J1 expm p L isl host wl kp d pow = Ok S ->
  S = each_order (fun g : 'I_n => cexp (ci * compute_kz (l_incid L) wl kp (l_g L g) * RtoC d)).
Proof. exact (@homogeneous_layer J1 p a1 a2 ei ee L n expm isl host wl kp d pow S). Qed.
Print Assumptions C70_homogeneous.

Theorem C70_defined J1 p a1 a2 ei ee L n (expm : 'M[C]_((n + n) + (n + n)) -> 'M[C]_((n + n) + (n + n))) wl kp d pow :
  mk_lattice p a1 a2 ei ee = Ok L -> window_fits p -> exponential expm -> not_tiny L kp -> (0 < p.1)%N -> n = l_ng L -> wl <> 0%Re ->
  num_val (l_incid L) != 0 -> has_sqrt (l_incid L) -> no_anomaly L (l_incid L) wl kp ->
  is_ok (scattering_matrix_islands J1 expm p L [::] (num_val (l_incid L)) wl kp d pow).
Proof. exact (@homogeneous_layer_ok J1 p a1 a2 ei ee L n expm wl kp d pow). Qed.
Print Assumptions C70_defined.

(** The exponential given by its power series satisfies the contract. *)
Theorem C70_exponential n (expm : 'M[C]_n -> 'M[C]_n) : is_expm expm -> exponential expm.
Proof. exact (@expm_exponential n expm). Qed.
Print Assumptions C70_exponential.

Example C70_hypotheses_met : exists L, [/\ mk_lattice (1, 1)%N (1%Re, 0%Re) (0%Re, 1%Re) (Float 2) (Float 2) = Ok L,
  exponential (@some_expm ((1 + 1) + (1 + 1))), not_tiny L (0%Re, 0%Re), 1%N = l_ng L &
  num_val (l_incid L) = RtoC 2 /\ no_anomaly L (l_incid L) 1 (0%Re, 0%Re)].
Proof.
have [L hL] := @mk_lattice_ok (1, 1)%N (Float 2) (Float 2) erefl; exists L; have [mi me] := one_media hL.
split; rewrite ?(one_ng hL) //; [exact: some_expm_exponential|exact: (one_not_tiny hL)|].
rewrite mi; split=> //; apply: (one_no_anomaly hL (r := 2%Re)) => //=.
by have := PI_RGT_0; nra.
Qed.
