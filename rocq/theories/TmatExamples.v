(** Concrete lattices and witnesses for the T-matrix API. *)
From Coq Require Import Reals ZArith Lra Lia ClassicalEpsilon.
From mathcomp Require Import all_ssreflect all_algebra.
From Coquelicot Require Import Complex.
From Verif Require Import Base CField CFun ModelRedheffer RedhefferProofs ModelExpansion ModelFourier Blk ModelTmat SpecTmat TmatProofs
  ModelLattice SpecLattice LatticeProofs LookupProofs CurrentProofs.
Set Implicit Arguments. Unset Strict Implicit. Unset Printing Implicit Defensive.
Import GRing.Theory.
Local Open Scope ring_scope.

(** The contract of the matrix exponential can be met. *)
Section Exponential.
Variable n : nat.
Definition diagonal_form (M : 'M[C]_n) (f : 'M[C]_n * 'M[C]_n * 'rV[C]_n) : Prop :=
  f.1.1 *m f.1.2 = 1%:M /\ M = f.1.1 *m diag_mx f.2 *m f.1.2.
Definition some_expm (M : 'M[C]_n) : 'M[C]_n :=
  match excluded_middle_informative (exists f, diagonal_form M f) with
  | left h => let f := proj1_sig (constructive_indefinite_description _ h) in f.1.1 *m diag_mx (map_mx cexp f.2) *m f.1.2
  | right _ => 0
  end.
Lemma diag_commute (d d' : 'rV[C]_n) (X : 'M[C]_n) : diag_mx d *m X = X *m diag_mx d' ->
  diag_mx (map_mx cexp d) *m X = X *m diag_mx (map_mx cexp d').
Proof.
move=> eX; apply/matrixP => i j; have := congr1 (fun M : 'M[C]_n => M i j) eX.
rewrite !mul_diag_mx !mul_mx_diag !mxE => h.
have [->|x0] := eqVneq (X i j) 0; first by rewrite mulr0 mul0r.
have -> : d 0 i = d' 0 j by apply: (mulIf x0); rewrite h mulrC.
by rewrite mulrC.
Qed.
Lemma diagonal_form_unique M f f' : diagonal_form M f -> diagonal_form M f' ->
  f.1.1 *m diag_mx (map_mx cexp f.2) *m f.1.2 = f'.1.1 *m diag_mx (map_mx cexp f'.2) *m f'.1.2.
Proof.
case: f f' => [[P Q] d] [[P' Q'] d'] [/= u e] [/= u' e'].
have v := mulmx1C u; have v' := mulmx1C u'; pose X := Q *m P'.
have eX : diag_mx d *m X = X *m diag_mx d'.
  have : Q *m M *m P' = Q *m M *m P' by [].
  by rewrite {1}e e' !mulmxA v mul1mx /X -!mulmxA v' mulmx1.
have eE := diag_commute eX.
rewrite -[LHS]mulmx1 -u' !mulmxA -[_ *m Q *m P']mulmxA -/X -[P *m _ *m X]mulmxA eE /X !mulmxA u mul1mx //.
Qed.
Lemma some_expm_form M f : diagonal_form M f -> some_expm M = f.1.1 *m diag_mx (map_mx cexp f.2) *m f.1.2.
Proof.
move=> h; rewrite /some_expm; destruct (excluded_middle_informative (exists f, diagonal_form M f)) as [h1|h1]; last by case: h1; exists f.
exact: (diagonal_form_unique (proj2_sig (constructive_indefinite_description _ h1)) h).
Qed.
Lemma some_expm_exponential : exponential some_expm.
Proof.
split=> [P Q M u|d]; last first.
  rewrite (@some_expm_form _ (1%:M, 1%:M, d)) /=; first by rewrite mul1mx mulmx1.
  by split; rewrite /= !mul1mx ?mulmx1.
have v := mulmx1C u.
case: (excluded_middle_informative (exists f, diagonal_form M f)) => [[f hf]|h1].
  rewrite (some_expm_form hf); case: f hf => [[R T] d] [/= e1 e2].
  rewrite (@some_expm_form _ (P *m R, T *m Q, d)) /=; first by rewrite !mulmxA.
  split=> /=; first by rewrite -mulmxA [R *m _]mulmxA e1 mul1mx.
  by rewrite e2 !mulmxA.
have -> : some_expm M = 0 by rewrite /some_expm; destruct (excluded_middle_informative (exists f, diagonal_form M f)).
rewrite mulmx0 mul0mx /some_expm; destruct (excluded_middle_informative (exists f, diagonal_form (P *m M *m Q) f)) as [h2|h2] => //.
case: h2 => -[[R T] d] [/= e1 e2]; exfalso; apply: h1; exists (Q *m R, T *m P, d); split=> /=.
  by rewrite -mulmxA [R *m _]mulmxA e1 mul1mx.
by rewrite !mulmxA -[Q *m R *m _]mulmxA -[Q *m _ *m T]mulmxA -e2 !mulmxA v mul1mx -mulmxA v mulmx1.
Qed.
End Exponential.

(** Square lattices of pitch 1. *)
Lemma mk_lattice_ok pw ei ee : odd pw.1 = odd pw.2 ->
  is_ok (mk_lattice pw (1%Re, 0%Re) (0%Re, 1%Re) ei ee).
Proof.
move=> h; rewrite /mk_lattice /reciproc; destruct (Req_EM_T ((1%Re, 0%Re).1 * (0%Re, 1%Re).2 - (1%Re, 0%Re).2 * (0%Re, 1%Re).1)%Re 0) as [h2|h2].
  by exfalso; move: h2 => /=; lra.
cbn [bind]; rewrite grid_size_def //; cbn [bind]; rewrite /gvectors /grid_center /= !odd4 h eqxx /=.
by case: ifP => _; cbn [bind]; eexists.
Qed.
Lemma zero_lattice pw ei ee L : mk_lattice pw (1%Re, 0%Re) (0%Re, 1%Re) ei ee = Ok L ->
  l_b L = ((twopi, 0%Re), (0%Re, twopi)).
Proof.
case/mk_latticeE => _ _ _ + _; rewrite /reciproc.
destruct (Req_EM_T ((1%Re, 0%Re).1 * (0%Re, 1%Re).2 - (1%Re, 0%Re).2 * (0%Re, 1%Re).1)%Re 0) as [h2|h2] => //; cbn [is_left].
by case=> <- /=; congr ((_, _), (_, _)); field.
Qed.

(** Rectangular windows. *)
Lemma rectangular_window : exists L, mk_lattice (3, 5)%N (1%Re, 0%Re) (0%Re, 1%Re) (Float 1) (Float 1) = Ok L /\
  w_rows (window L) = 3%N /\ w_cols (window L) = 1%N.
Proof.
have [L hL] := @mk_lattice_ok (3, 5)%N (Float 1) (Float 1) erefl; exists L; split=> //.
by have [_ _ hq _ _] := mk_latticeE hL; rewrite /window hq.
Qed.
Lemma rectangular_lookup_error : exists L l, mk_lattice (5, 3)%N (1%Re, 0%Re) (0%Re, 1%Re) (Float 1) (Float 1) = Ok L /\
  mapM (coords_from_index (5, 3)%N (w_rows (window L) %/ 2, w_cols (window L) %/ 2)%N) (iota 0 (5 * 3)) = Ok l /\
  forall T, a_rows T = (l_q L).1 -> a_cols T = (l_q L).2 ->
    order_lookups l (w_rows (window L) %/ 2) (w_cols (window L) %/ 2) (l_ng L) T = Err IndexError.
Proof.
have [L hL] := @mk_lattice_ok (5, 3)%N (Float 1) (Float 1) erefl; exists L.
have [_ _ hq _ _] := mk_latticeE hL.
have hr : w_rows (window L) = 5%N by rewrite /window hq.
have hc : w_cols (window L) = 4%N by rewrite /window hq.
rewrite /l_ng /w_ng hr hc hq; eexists; do 2! split=> //.
by move=> [r c f] /= -> ->; vm_compute.
Qed.
Lemma rectangular_lookup_wrong : exists L l, mk_lattice (3, 5)%N (1%Re, 0%Re) (0%Re, 1%Re) (Float 1) (Float 1) = Ok L /\
  mapM (coords_from_index (3, 5)%N (w_rows (window L) %/ 2, w_cols (window L) %/ 2)%N) (iota 0 (3 * 5)) = Ok l /\
  forall T, a_rows T = (l_q L).1 -> a_cols T = (l_q L).2 -> exists s,
    order_lookups l (w_rows (window L) %/ 2) (w_cols (window L) %/ 2) (l_ng L) T = Ok s /\
    looked s 0 0 = a_at T 2 0 /\ w_at (l_G L) 2 0 <> minus2 (l_g L 0) (l_g L 0).
Proof.
have [L hL] := @mk_lattice_ok (3, 5)%N (Float 1) (Float 1) erefl; exists L.
have [_ _ hq _ [_ _ _ _ hG]] := mk_latticeE hL.
have hr : w_rows (window L) = 3%N by rewrite /window hq.
have hc : w_cols (window L) = 1%N by rewrite /window hq.
rewrite /l_ng /w_ng hr hc hq; eexists; do 2! split=> //.
move=> [r c f] /= -> ->; eexists; split; first by vm_compute.
split=> //; rewrite hG (zero_lattice hL) /minus2 => /(congr1 snd) /=.
by rewrite !Rminus_diag_eq //; have := PI_RGT_0; rewrite /twopi; lra.
Qed.

(** One order. *)
Section OneWave.
Variables (ei ee : num) (L : lattice).
Hypothesis hL : mk_lattice (1, 1)%N (1%Re, 0%Re) (0%Re, 1%Re) ei ee = Ok L.
Lemma one_ng : l_ng L = 1%N.
Proof. by rewrite (window_ng hL) //; left. Qed.
Lemma one_g : l_g L 0 = (0%Re, 0%Re).
Proof. exact: (window_zero hL). Qed.
Lemma one_media : l_incid L = ei /\ l_emerg L = ee.
Proof. by have [_ _ _ _ []] := mk_latticeE hL. Qed.
Lemma one_not_tiny : not_tiny L (0%Re, 0%Re).
Proof. by move=> g; rewrite one_ng; case: g => // _ /=; left; rewrite one_g /=; ring. Qed.
Lemma one_no_anomaly eps r wl kp : num_val eps = RtoC r -> (r * (2 * PI / wl) ^ 2 <> kp.1 ^ 2 + kp.2 ^ 2)%Re -> no_anomaly L eps wl kp.
Proof.
move=> he h g; rewrite one_ng; case: g => // _; rewrite he one_g => /(congr1 fst); rewrite /=; move: h; rewrite /=.
by move=> h e; apply: h; lra.
Qed.
End OneWave.

Lemma kz_value eps x wl kp g s : num_val eps = RtoC x -> (0 <= s)%Re ->
  (x * (2 * PI / wl) ^ 2 - ((kp.1 + g.1) ^ 2 + (kp.2 + g.2) ^ 2) = s * s)%Re -> compute_kz eps wl kp g = RtoC s.
Proof.
move=> hx s0 e; rewrite (kz_lossless _ _ _ hx) e; destruct (Rle_dec 0 (s * s)) as [h|h]; cbn [is_left]; last by exfalso; nra.
by rewrite sqrt_square.
Qed.

(** A glass interface at an angle. *)
Lemma angle_ignored : exists L S (pin : 'cV[C]_((1 + 1) + (1 + 1))) f,
  let wl := (2 * PI)%Re in let kp := ((4 / 5)%Re, 0%Re) in
  [/\ mk_lattice (1, 1)%N (1%Re, 0%Re) (0%Re, 1%Re) (Float 1) (Float (16 / 9)) = Ok L,
      scattering_interface 1 L wl kp = Ok S, tmat_incident 1 (1, 1)%N 1 0 1 = Ok pin &
      compute_fluxes L wl pin (S *m pin) kp = Ok f] /\ f.2 = (144 / 625)%Re.
Proof.
have [L hL] := @mk_lattice_ok (1, 1)%N (Float 1) (Float (16 / 9)) erefl; exists L.
have p0 := PI_RGT_0; set wl := (2 * PI)%Re; set kp := (_, _).
have k1 : (2 * PI / wl = 1)%Re by rewrite /wl; field; lra.
have [mi me] := one_media hL; have hi : num_val (l_incid L) = RtoC 1 by rewrite mi.
have he : num_val (l_emerg L) = RtoC (16 / 9) by rewrite me.
have w0 : (0 < wl)%Re by rewrite /wl; lra.
have [S hS] : is_ok (scattering_interface 1 L wl kp).
  apply: (interface_def (r := 1%Re) (r' := (16 / 9)%Re)) => //; try lra; first by rewrite (one_ng hL).
  by apply: (one_no_anomaly hL hi); rewrite k1 /=; lra.
exists S.
pose pin : 'cV[C]_((1 + 1) + (1 + 1)) := col_mx (col_mx (\col_g 1) (\col_g 0)) (col_mx 0 0).
have hp : tmat_incident 1 (1, 1)%N 1 0 1 = Ok pin.
  rewrite /tmat_incident /=; congr (Ok (col_mx (col_mx _ _) _)); apply/colP => g; rewrite !mxE (ord1 g) /= ?mulr1 ?mul1r ?mulr0 ?mul0r //.
set pout := S *m pin.
pose P := col_mx (usubmx pin) (dsubmx pout); pose Q := col_mx (usubmx pout) (dsubmx pin).
have hPQ : tscatters S (usubmx P) (dsubmx P) (usubmx Q) (dsubmx Q).
  by rewrite /tscatters /P /Q !(col_mxKu, col_mxKd) !vsubmxK.
have gE : l_g L (0 : 'I_1) = (0%Re, 0%Re) by exact: one_g hL.
have [] := (interface_fields hS w0 hi ltac:(lra) P Q).1 hPQ 0.
rewrite gE (@kz_value _ _ _ _ _ (3 / 5) hi); [|lra|rewrite k1 /=; field].
rewrite (@kz_value _ _ _ _ _ (16 / 15) he); [|lra|rewrite k1 /=; field].
have -> : quarter_of P 0 0 0 = 1 by rewrite /quarter_of /P !(col_mxKu, col_mxKd) mxE.
have -> : quarter_of P 1 0 0 = 0 by rewrite /quarter_of /P !(col_mxKu, col_mxKd) mxE.
have -> : quarter_of Q 2 0 0 = 0 by rewrite /quarter_of /Q !(col_mxKu, col_mxKd) mxE.
have -> : quarter_of Q 3 0 0 = 0 by rewrite /quarter_of /Q !(col_mxKu, col_mxKd) mxE.
have -> : quarter_of P 2 0 0 = quarter_of pout 2 0 0 by rewrite /quarter_of /P !(col_mxKu, col_mxKd).
have -> : quarter_of P 3 0 0 = quarter_of pout 3 0 0 by rewrite /quarter_of /P !(col_mxKu, col_mxKd).
have -> : quarter_of Q 0 0 0 = quarter_of pout 0 0 0 by rewrite /quarter_of /Q !(col_mxKu, col_mxKd).
have -> : quarter_of Q 1 0 0 = quarter_of pout 1 0 0 by rewrite /quarter_of /Q !(col_mxKu, col_mxKd).
rewrite !(addr0, subr0, add0r, sub0r) => s1 s2 p1 p2.
have b : quarter_of pout 2 0 0 = RtoC (- 7 / 25).
  have e := s2; rewrite -s1 in e; have e1 := congr1 fst e; have e2 := congr1 snd e; rewrite /= in e1 e2.
  by apply: C_ext => /=; lra.
have c : quarter_of pout 0 0 0 = RtoC (18 / 25) by rewrite -s1 b; apply: C_ext => /=; field.
have [y z] : quarter_of pout 3 0 0 = 0 /\ quarter_of pout 1 0 0 = 0.
  have n1 : cmath_sqrt (l_incid L) = RtoC 1 by rewrite /cmath_sqrt hi csqrt_nonneg ?sqrt_1 //; lra.
  have n2 : cmath_sqrt (l_emerg L) = RtoC (4 / 3).
    by rewrite /cmath_sqrt he csqrt_nonneg; [congr RtoC; rewrite (_ : (16 / 9) = (4 / 3) * (4 / 3))%Re; [apply: sqrt_square; lra|field]|lra].
  rewrite n1 n2 in p1 p2.
  have v1 : RtoC (3 / 5) / RtoC 1 = RtoC (3 / 5) by toC; apply: C_ext => /=; field.
  have v2 : RtoC (16 / 15) / RtoC (4 / 3) = RtoC (4 / 5) by toC; apply: C_ext => /=; field.
  rewrite v1 v2 in p2.
  have e1 := congr1 fst p1; have e2 := congr1 snd p1; have e3 := congr1 fst p2; have e4 := congr1 snd p2; rewrite /= in e1 e2 e3 e4.
  by split; apply: C_ext => /=; lra.
have ml (x : R) : (if Rle_dec (Rabs (snd (RtoC x))) float_eps then true else false) = true.
  have f0 := feps; rewrite /= Rabs_R0; destruct (Rle_dec 0 float_eps) as [h|h] => //; exfalso; lra.
have mt (x : R) : (if Rlt_dec (Rabs (snd (RtoC x))) float_eps then true else false) = true.
  have f0 := feps; rewrite /= Rabs_R0; destruct (Rlt_dec 0 float_eps) as [h|h] => //.
have mt' (x : R) : (if Rlt_dec (Rabs (snd (RtoC x))) float_eps then false else true) = false.
  have f0 := feps; rewrite /= Rabs_R0; destruct (Rlt_dec 0 float_eps) as [h|h] => //.
have ha : l_area L = 1%Re.
  by have [_ _ _ _ [_ _ -> _ _]] := mk_latticeE hL; rewrite /unitcellarea /= Rabs_pos_eq; lra.
exists pin; pose q := (1 / (2 * mu0c * twopi / wl))%Re.
have q0 : q <> 0%Re.
  rewrite /q /wl /twopi; have m := mu0c_neq0 => h; have : (1 / (2 * mu0c * (2 * PI) / (2 * PI)) * (2 * mu0c) = 0)%Re by rewrite h; ring.
  by rewrite (_ : _ * _ = 1)%Re; [lra|field; split=> //; lra].
have sq x : sqmod (RtoC x) = (x * x)%Re by rewrite sqmodE /=; ring.
have gz : l_g L (ord0 : 'I_1) = (0%Re, 0%Re) := gE.
have kzi : compute_kz (l_incid L) wl (0%Re, 0%Re) (l_g L (ord0 : 'I_1)) = RtoC 1.
  by rewrite gz; apply: (kz_value hi); [lra|rewrite k1 /=; ring].
have kze : compute_kz (l_emerg L) wl (0%Re, 0%Re) (l_g L (ord0 : 'I_1)) = RtoC (4 / 3).
  by rewrite gz; apply: (kz_value he); [lra|rewrite k1 /=; field].
have cm (x : R) : (0 <= x)%Re -> Cmod (RtoC q * RtoC 1 * RtoC x / (RtoC q * RtoC 1 * RtoC 1)) = x.
  move=> x0; have -> : RtoC q * RtoC 1 * RtoC x / (RtoC q * RtoC 1 * RtoC 1) = RtoC x by toC; apply: C_ext => /=; field; nra.
  by rewrite Cmod_R Rabs_pos_eq.
exists (49 / 625, 4 / 3 * (324 / 625), 1 - 49 / 625 - 4 / 3 * (324 / 625))%Re; split; last by rewrite /=; field.
split=> //; rewrite /compute_fluxes /compute_currents (one_ng hL) eqxx; destruct (Req_EM_T wl 0) as [h|h]; first by exfalso; lra.
cbn [is_left bind negb]; rewrite !big_ord1 kzi kze ml mt he mt'.
have -> : quarter_of pin 0 ord0 0 = RtoC 1 by rewrite /quarter_of /pin !(col_mxKu, col_mxKd) mxE.
have -> : quarter_of pin 1 ord0 0 = RtoC 0 by rewrite /quarter_of /pin !(col_mxKu, col_mxKd) mxE.
rewrite -[quarter_of pout 2 ord0 0]/(quarter_of pout 2 0 0) -[quarter_of pout 3 ord0 0]/(quarter_of pout 3 0 0).
rewrite -[quarter_of pout 0 ord0 0]/(quarter_of pout 0 0 0) -[quarter_of pout 1 ord0 0]/(quarter_of pout 1 0 0).
rewrite b c y z -[0]/(RtoC 0) !sq ha -/q.
have -> : (1 * 1 + 0 * 0 = 1)%Re by ring.
have -> : (-7 / 25 * (-7 / 25) + 0 * 0 = 49 / 625)%Re by field.
have -> : (18 / 25 * (18 / 25) + 0 * 0 = 324 / 625)%Re by field.
have -> : RtoC q * RtoC (4 / 3) * RtoC (324 / 625) = RtoC q * RtoC 1 * RtoC (4 / 3 * (324 / 625)) by apply: C_ext => /=; field.
case: eqP => [e|_]; first by exfalso; apply: q0; have := congr1 fst e; rewrite /=; lra.
by rewrite !cm; [|lra|lra].
Qed.

(** The incident wave of the examples. *)
Definition unit_wave : 'cV[C]_((1 + 1) + (1 + 1)) := col_mx (col_mx (\col_g 1) (\col_g 0)) (col_mx 0 0).
Lemma unit_wave_incident : tmat_incident 1 (1, 1)%N 1 0 1 = Ok unit_wave.
Proof.
rewrite /tmat_incident /=; congr (Ok (col_mx (col_mx _ _) _)); apply/colP => g; rewrite !mxE (ord1 g) /= ?mulr1 ?mul1r ?mulr0 ?mul0r //.
Qed.
Lemma one_clear ei ee L eps x wl kp s : mk_lattice (1, 1)%N (1%Re, 0%Re) (0%Re, 1%Re) ei ee = Ok L -> num_val eps = RtoC x ->
  (0 <= s)%Re -> (x * (2 * PI / wl) ^ 2 - (kp.1 ^ 2 + kp.2 ^ 2) = s * s)%Re -> clear_orders L eps wl kp.
Proof.
move=> hL hx s0 e g; rewrite (one_ng hL); case: g => // _ /=; left; rewrite (one_g hL) (@kz_value _ _ _ _ _ s hx) //=.
by rewrite !Rplus_0_r.
Qed.
Lemma one_from_left ei ee L x wl kp s : mk_lattice (1, 1)%N (1%Re, 0%Re) (0%Re, 1%Re) ei ee = Ok L -> num_val ei = RtoC x ->
  (0 <= s)%Re -> (x * (2 * PI / wl) ^ 2 - (kp.1 ^ 2 + kp.2 ^ 2) = s * s)%Re -> from_left L wl kp unit_wave.
Proof.
move=> hL hx s0 e; split; first by rewrite /unit_wave col_mxKd col_mx0.
move=> g; left; rewrite (ord1 g) (one_g hL) (one_media hL).1 (@kz_value _ _ _ _ _ s hx) //=.
by rewrite !Rplus_0_r.
Qed.
Lemma one_fluxes_ok (ei ee : num) L x wl pout kp : mk_lattice (1, 1)%N (1%Re, 0%Re) (0%Re, 1%Re) ei ee = Ok L -> num_val ei = RtoC x ->
  (0 < x)%Re -> (0 < wl)%Re -> is_ok (compute_fluxes L wl unit_wave pout kp).
Proof.
move=> hL hx x0 w0; have p0 := PI_RGT_0; have f0 := feps.
have k0 : (0 < x * (2 * PI / wl) ^ 2)%Re.
  by apply: Rmult_lt_0_compat => //; apply: pow_lt; apply: Rdiv_lt_0_compat => //; lra.
pose s := sqrt (x * (2 * PI / wl) ^ 2); have s0 : (0 < s)%Re by apply: sqrt_lt_R0.
have kzi : compute_kz (l_incid L) wl (0%Re, 0%Re) (l_g L (ord0 : 'I_1)) = RtoC s.
  rewrite (one_g hL) (one_media hL).1; apply: (kz_value hx); first lra.
  by rewrite /s sqrt_sqrt /=; [ring|rewrite /= in k0; lra].
rewrite /compute_fluxes /compute_currents (one_ng hL) eqxx; destruct (Req_EM_T wl 0) as [h|h]; first by exfalso; lra.
cbn [is_left bind negb]; rewrite !big_ord1 kzi.
have -> : (if Rle_dec (Rabs (snd (RtoC s))) float_eps then true else false) = true.
  rewrite /= Rabs_R0; destruct (Rle_dec 0 float_eps) as [h1|h1] => //; exfalso; lra.
have -> : quarter_of unit_wave 0 ord0 0 = RtoC 1 by rewrite /quarter_of /unit_wave !(col_mxKu, col_mxKd) mxE.
have -> : quarter_of unit_wave 1 ord0 0 = RtoC 0 by rewrite /quarter_of /unit_wave !(col_mxKu, col_mxKd) mxE.
rewrite !sqmodE; have -> : l_area L = 1%Re.
  by have [_ _ _ _ [_ _ -> _ _]] := mk_latticeE hL; rewrite /unitcellarea /= Rabs_pos_eq; lra.
case: eqP => [e|_]; last by eexists.
exfalso; have := congr1 fst e; rewrite /=; have m0 := mu0c_neq0.
set q := (1 / _)%Re => eq.
have q0 : (q * s = 0)%Re by lra.
have {}q0 : q = 0%Re by case: (Rmult_integral _ _ q0) => // e2; lra.
have : (q * (2 * mu0c * twopi) = wl)%Re by rewrite /q /twopi; field; repeat split => //; lra.
by rewrite q0; lra.
Qed.
