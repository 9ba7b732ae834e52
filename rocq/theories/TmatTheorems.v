(** The statements of PropTmat.v, assembled. *)
From Coq Require Import Reals ZArith Lra.
From mathcomp Require Import all_ssreflect all_algebra.
From Coquelicot Require Import Complex.
From Verif Require Import Base CField CFun ModelRedheffer RedhefferProofs ModelExpansion ModelFourier Blk ModelTmat SpecTmat TmatProofs
  ModelLattice SpecLattice LatticeProofs LookupProofs CurrentProofs TmatExamples SpecExp ExpProofs.
Set Implicit Arguments. Unset Strict Implicit. Unset Printing Implicit Defensive.
Import GRing.Theory.
Local Open Scope ring_scope.

Lemma antidiagonal_wrong (F : fieldType) : exists S : 'M[F]_(1 + 1),
  layer_matmul (tmat_identity F 1) (LayerMatrix 2 S) <> Ok (LayerMatrix 2 S) /\
  layer_matmul S (Array (tmat_identity F 1)) <> Ok (Array S).
Proof.
exists 1%:M; rewrite /layer_matmul; split.
  have h : forall S', multS (tmat_identity F 1) (1%:M : 'M[F]_(1 + 1)) = Ok S' -> S' <> 1%:M.
    move=> S'; rewrite /multS (scalar_mx_block 1 1 1); have [-> -> -> ->] := blockE (1%:M : 'M[F]_1) 0 0 1%:M.
    rewrite /tmat_identity; have [-> -> -> ->] := blockE (0 : 'M[F]_1) 1%:M 1%:M 0.
    rewrite mulmx0 subr0 /solve unitmx1 invmx1 !mul1mx; cbn [bind].
    rewrite mulmx0 => -[<-] /eq_block_mx [e _ _ _]; move/matrixP: e => /(_ 0 0); rewrite !mxE /= => /esym /eqP; by rewrite oner_eq0.
  by case hm : (multS _ _) => [S'|//]; cbn [bind] => -[e]; exact: (h _ hm e).
rewrite mul1mx => -[]; rewrite /tmat_identity (scalar_mx_block 1 1 1) => /eq_block_mx [e _ _ _].
by move/matrixP: e => /(_ 0 0); rewrite !mxE /= => /esym /eqP; rewrite oner_eq0.
Qed.

Lemma currents_balance n L wl kp S r r' (pin : 'cV[C]_((n + n) + (n + n))) j1p j1m j3p :
  scattering_interface n L wl kp = Ok S -> (0 < wl)%Re -> num_val (l_incid L) = RtoC r -> (0 < r)%Re ->
  num_val (l_emerg L) = RtoC r' -> r' <> 0%Re -> from_left L wl kp pin ->
  clear_orders L (l_incid L) wl kp -> clear_orders L (l_emerg L) wl kp ->
  compute_currents pin (S *m pin) L wl kp = Ok (j1p, j1m, j3p) ->
  \sum_g j1p g = \sum_g j1m g + \sum_g j3p g.
Proof.
move=> hS w0 hi r0 he r0' [fl pr] ci1 ci2 hj.
have hn : n = l_ng L by move: hj; rewrite /compute_currents; case: eqP.
have [q [a [b [c [-> -> -> -> _]]]]] := currents_sum hS w0 hi he r0 fl pr r0'
  (fun g : 'I_n => ci1 g ltac:(rewrite -hn; exact: ltn_ord)) (fun g : 'I_n => ci2 g ltac:(rewrite -hn; exact: ltn_ord)) hj.
by apply: C_ext => /=; ring.
Qed.
Lemma normal_fluxes n L wl kp S r r' (pin : 'cV[C]_((n + n) + (n + n))) f :
  scattering_interface n L wl (0%Re, 0%Re) = Ok S -> (0 < wl)%Re -> num_val (l_incid L) = RtoC r -> (0 < r)%Re ->
  num_val (l_emerg L) = RtoC r' -> r' <> 0%Re -> from_left L wl (0%Re, 0%Re) pin ->
  clear_orders L (l_incid L) wl (0%Re, 0%Re) -> clear_orders L (l_emerg L) wl (0%Re, 0%Re) ->
  compute_fluxes L wl pin (S *m pin) kp = Ok f -> (f.1.1 + f.1.2 = 1)%Re /\ f.2 = 0%Re.
Proof.
move=> hS w0 hi r0 he r0' [fl pr] ci1 ci2 hf.
have hn : n = l_ng L by move: hf; rewrite /compute_fluxes /compute_currents; case: eqP.
exact (fluxes_sum hS w0 hi he r0 fl pr r0'
  (fun g : 'I_n => ci1 g ltac:(rewrite -hn; exact: ltn_ord)) (fun g : 'I_n => ci2 g ltac:(rewrite -hn; exact: ltn_ord)) erefl hf).
Qed.
Lemma angle_ignored_absorbs : exists L S (pin : 'cV[C]_((1 + 1) + (1 + 1))) f wl kp,
  [/\ mk_lattice (1, 1)%N (1%Re, 0%Re) (0%Re, 1%Re) (Float 1) (Float (16 / 9)) = Ok L,
      scattering_interface 1 L wl kp = Ok S, tmat_incident 1 (1, 1)%N 1 0 1 = Ok pin &
      compute_fluxes L wl pin (S *m pin) kp = Ok f] /\ f.2 <> 0%Re.
Proof.
have [L [S [pin [f [h e]]]]] := angle_ignored; exists L, S, pin, f, (2 * PI)%Re, ((4 / 5)%Re, 0%Re).
by split=> //; rewrite e; lra.
Qed.
Lemma glass_interface kp s s' : (1 - (kp.1 ^ 2 + kp.2 ^ 2) = s * s)%Re -> (0 < s)%Re ->
  (16 / 9 - (kp.1 ^ 2 + kp.2 ^ 2) = s' * s')%Re -> (0 < s')%Re -> exists L S, let wl := (2 * PI)%Re in
  [/\ mk_lattice (1, 1)%N (1%Re, 0%Re) (0%Re, 1%Re) (Float 1) (Float (16 / 9)) = Ok L,
      scattering_interface 1 L wl kp = Ok S, from_left L wl kp unit_wave &
  [/\ clear_orders L (l_incid L) wl kp, clear_orders L (l_emerg L) wl kp,
      is_ok (compute_currents unit_wave (S *m unit_wave) L wl kp) &
      is_ok (compute_fluxes L wl unit_wave (S *m unit_wave) kp)]].
Proof.
move=> e1 s0 e2 s0'; have [L hL] := @mk_lattice_ok (1, 1)%N (Float 1) (Float (16 / 9)) erefl; exists L.
have p0 := PI_RGT_0; set wl := (2 * PI)%Re; have w0 : (0 < wl)%Re by rewrite /wl; lra.
have k1 : (2 * PI / wl = 1)%Re by rewrite /wl; field; lra.
have [mi me] := one_media hL; have hi : num_val (l_incid L) = RtoC 1 by rewrite mi.
have he : num_val (l_emerg L) = RtoC (16 / 9) by rewrite me.
have e1' : (1 * (2 * PI / wl) ^ 2 - (kp.1 ^ 2 + kp.2 ^ 2) = s * s)%Re by rewrite k1 -e1 /=; ring.
have e2' : (16 / 9 * (2 * PI / wl) ^ 2 - (kp.1 ^ 2 + kp.2 ^ 2) = s' * s')%Re by rewrite k1 -e2 /=; field.
have [S hS] : is_ok (scattering_interface 1 L wl kp).
  apply: (interface_def (r := 1%Re) (r' := (16 / 9)%Re)) => //; try lra; first by rewrite (one_ng hL).
  by apply: (one_no_anomaly hL hi); nra.
exists S; split=> //; first by apply: (@one_from_left _ _ L 1%Re wl kp s hL); rewrite // -/(num_val (Float 1)); lra.
split.
- by apply: (one_clear hL hi _ e1'); lra.
- by apply: (one_clear hL he _ e2'); lra.
- rewrite /compute_currents (one_ng hL) eqxx; destruct (Req_EM_T wl 0) as [h|h]; [by exfalso; lra|by eexists].
- by apply: (@one_fluxes_ok _ _ L 1%Re wl _ _ hL) => //; lra.
Qed.

(** Scattering matrices with one wave on each side. *)
Section Scalar.
Variable F : fieldType.
Definition sc (a b c d : F) : 'M[F]_(1 + 1) := block_mx a%:M b%:M c%:M d%:M.
Lemma sc_inj a b c d a' b' c' d' : sc a b c d = sc a' b' c' d' -> [/\ a = a', b = b', c = c' & d = d'].
Proof.
have h (x y : F) : (x%:M : 'M_1) = y%:M -> x = y by move/matrixP => /(_ 0 0); rewrite !mxE eqxx !mulr1n.
by move=> /eq_block_mx [/h -> /h -> /h -> /h ->].
Qed.
Lemma sc_D (x y : F) : ((x + y)%:M : 'M_1) = x%:M + y%:M.
Proof. exact: raddfD. Qed.
Lemma sc_N (x : F) : ((- x)%:M : 'M_1) = - x%:M.
Proof. exact: raddfN. Qed.
Lemma sc_solve (x y : F) : x != 0 -> solve (x%:M : 'M_1) y%:M = Ok (x^-1 * y)%:M.
Proof. by move=> h; rewrite /solve unitmxE det_scalar1 unitfE h invmx_scalar scalar_mxM. Qed.
Lemma sc_multS a b c d a' b' c' d' : 1 - b * c' != 0 -> let i := (1 - b * c')^-1 in
  multS (sc a b c d) (sc a' b' c' d') =
  Ok (sc (a' * (i * a)) (b' + a' * (i * b) * d') (c + d * c' * (i * a)) (d * (1 + c' * (i * b)) * d')).
Proof.
move=> h i; rewrite /multS /sc; have [-> -> -> ->] := blockE (a%:M : 'M[F]_1) b%:M c%:M d%:M.
have [-> -> -> ->] := blockE (a'%:M : 'M[F]_1) b'%:M c'%:M d'%:M.
rewrite -!scalar_mxM -raddfB /= !sc_solve //; cbn [bind].
by rewrite !(sc_D, scalar_mxM).
Qed.
Lemma sc_matrix_s a b c d : a != 0 -> matrix_s (sc a b c d) = Ok (sc a^-1 (- a^-1 * b) (c * a^-1) (d + c * (- a^-1 * b))).
Proof.
move=> h; rewrite /matrix_s /sc /inv; have [-> -> -> ->] := blockE (a%:M : 'M[F]_1) b%:M c%:M d%:M.
rewrite unitmxE det_scalar1 unitfE h invmx_scalar; cbn [bind].
by rewrite !(sc_D, scalar_mxM, sc_N).
Qed.
End Scalar.

Lemma some_translations k (a : 'rV[C]_(k + k)) : translations (fun s : C => some_expm (s *: - diag_mx a)).
Proof.
have e (s : C) : some_expm (s *: - diag_mx a) = diag_mx (map_mx cexp (s *: - a)).
  rewrite -(proj2 (@some_expm_exponential (k + k))); apply: (congr1 (@some_expm _)); apply/matrixP => i j.
  by rewrite !mxE; case: (i == j); rewrite ?mulr1n ?mulr0n ?oppr0 ?mulr0.
move=> s t; rewrite !e mulmx_diag; congr diag_mx; apply/rowP => i; rewrite !mxE -cexpD; congr cexp.
by rewrite mulrDl.
Qed.

(** The true exponential. *)
Lemma expm_translations n (expm : 'M[C]_(n + n) -> 'M[C]_(n + n)) A : is_expm expm -> translations (fun s : C => expm (s *: - A)).
Proof. by move=> h s t; rewrite !(is_expmE _ h) exp_translations. Qed.
Lemma expm_exponential n (expm : 'M[C]_n -> 'M[C]_n) : is_expm expm -> exponential expm.
Proof. by move=> h; split=> [P Q M hPQ|d]; rewrite !(is_expmE _ h); [exact: exp_conjugate|exact: exp_diag]. Qed.
Lemma C_two : (2%:R : C) != 0.
Proof. by rewrite -[2%:R]/(1 + 1 : C); apply/eqP => /(congr1 fst) /=; lra. Qed.
Lemma sliced_exp k (expm : 'M[C]_(k + k) -> 'M[C]_(k + k)) (U A Vi : 'M[C]_(k + k)) d n S :
  is_expm expm -> U *m Vi = 1%:M -> sliced_layer expm U A Vi d n = Ok S ->
  matrix_s (U *m expm (d *: - A) *m Vi) = Ok S.
Proof. by move=> h hU; exact: (sliced_value hU C_two (expm_translations A h)). Qed.
