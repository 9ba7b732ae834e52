(** Lemmas for C111. *)
From Coq Require Import Reals Lra.
From mathcomp Require Import all_ssreflect all_algebra.
From Coquelicot Require Import Complex.
From Verif Require Import Base CField CFun ModelExpansion Blk ModelLattice SpecLattice LatticeProofs LookupProofs CurrentProofs SpecBloch TmatExamples SpecWave.
Set Implicit Arguments. Unset Strict Implicit. Unset Printing Implicit Defensive.
Import GRing.Theory.
Local Open Scope ring_scope.

Lemma direction_udir kp : direction kp (udir kp (0%Re, 0%Re)).
Proof.
have e : (unorm kp (0%Re, 0%Re) ^ 2 = kp.1 ^ 2 + kp.2 ^ 2)%Re.
  rewrite /unorm /uvec pow2_sqrt; cbn [fst snd]; rewrite ?Rplus_0_r //; nra.
rewrite /direction /udir /float_eps e; split=> h; destruct (Rlt_dec (kp.1 ^ 2 + kp.2 ^ 2) (/ 2 ^ 52)) as [h'|h'] => //; cbn [is_left].
- by exfalso; lra.
have pos : (0 < / 2 ^ 52)%Re by apply: Rinv_0_lt_compat; apply: pow_lt; lra.
exists (unorm kp (0%Re, 0%Re)); split.
  by apply: sqrt_lt_R0; move: h pos; rewrite /uvec /=; lra.
split=> //; have n0 : (unorm kp (0%Re, 0%Re) <> 0)%Re by move=> z; move: e; rewrite z /=; lra.
rewrite [LHS]surjective_pairing; congr (_, _); rewrite /uvec /=; field; exact: n0.
Qed.
Section Wave.
Variables (p : nat * nat) (a1 a2 : vec2) (ei ee : num) (L : lattice) (n : nat) (wl : R) (kp : vec2).
Hypotheses (hL : mk_lattice p a1 a2 ei ee = Ok L).
Variables (V : 'M[C]_((n + n) + (n + n))) (E0 pp sp : C) (pin : 'cV[C]_((n + n) + (n + n))).
Hypotheses (hV : lattice_Vi n L wl kp = Ok V) (hi : tmat_incident n p E0 pp sp = Ok pin).
Let kz := compute_kz ei wl kp (0%Re, 0%Re).
Let cs := kz / (csqrt (num_val ei) * RtoC (2 * PI / wl)).
Let Y := csqrt (num_val ei) / RtoC mu0c.
Let u := udir kp (0%Re, 0%Re).
Lemma wave_fields : plane_wave (p.1 %/ 2 + p.1 * (p.2 %/ 2)) u cs Y (sp * E0) (pp * E0) (V *m pin).
Proof.
have [_ _ _ _ [mi _ _ _ _]] := mk_latticeE hL; have [_ w0 e0] := lattice_VE hV; rewrite mi /matrix_v.
case hs : (np_sqrt ei) => [s|//]; cbn [bind] => -[<-]; rewrite (np_sqrtE hs).
move: hi; rewrite /tmat_incident; case: eqP => // hn; case: ltnP => // lt [<-] g.
have p0 : (0 < p.1)%N by move: lt; rewrite hn; case: p.1.
set q := col_mx _ _.
have q0 : quarter_of q 0 g 0 = if (g : nat) == (p.1 %/ 2 + p.1 * (p.2 %/ 2))%N then sp * E0 else 0 by rewrite /quarter_of /q !(col_mxKu, col_mxKd) mxE.
have q1 : quarter_of q 1 g 0 = if (g : nat) == (p.1 %/ 2 + p.1 * (p.2 %/ 2))%N then pp * E0 else 0 by rewrite /quarter_of /q !(col_mxKu, col_mxKd) mxE.
have q2 : quarter_of q 2 g 0 = 0 by rewrite /quarter_of /q !(col_mxKu, col_mxKd) mxE.
have q3 : quarter_of q 3 g 0 = 0 by rewrite /quarter_of /q !(col_mxKu, col_mxKd) mxE.
rewrite !quad_quarters // q0 q1 q2 q3 !mulr0 !addr0.
case: eqP => [eg|_]; last by rewrite !mulr0 !addr0.
have zg : l_g L g = (0%Re, 0%Re) by rewrite eg; exact: (window_zero hL p0).
have ec : compute_kz ei wl kp (l_g L g) / (cmath_sqrt ei * RtoC twopi / RtoC wl) = cs.
  rewrite zg /cs /kz; congr (_ / _); rewrite -mulrA; congr (_ * _); rewrite /twopi RtoC_div //.
rewrite /etaf /muf ec /compute_eta zg -/u /cmath_sqrt -/Y /=.
have -> : RtoC (- u.1) = - RtoC u.1 by apply: C_ext => /=; ring.
split; cring.
Qed.
Lemma wave_dir : direction kp u. Proof. exact: direction_udir. Qed.
Lemma wave_unit : (u.1 ^ 2 + u.2 ^ 2 = 1)%Re.
Proof. by have := udir_unit kp (0%Re, 0%Re); rewrite -/u => <-; ring. Qed.
End Wave.
Lemma wave_power n (g0 : nat) u (c y : R) s t (F : 'cV[C]_((n + n) + (n + n))) : (g0 < n)%N -> (u.1 ^ 2 + u.2 ^ 2 = 1)%Re ->
  plane_wave g0 u (RtoC c) (RtoC y) s t F -> power F = (y * c * (Cmod s ^ 2 + Cmod t ^ 2))%Re.
Proof.
move=> lt hu hF; rewrite /power; pose o := Ordinal lt.
have -> : \sum_g (usubmx (usubmx F) g 0 * Cconj (dsubmx (dsubmx F) g 0) - dsubmx (usubmx F) g 0 * Cconj (usubmx (dsubmx F) g 0)) =
   quarter_of F 0 o 0 * Cconj (quarter_of F 3 o 0) - quarter_of F 1 o 0 * Cconj (quarter_of F 2 o 0).
  rewrite (bigD1 o) //= big1 ?addr0 // => g ng; have [] := hF g.
  have -> : (g == g0 :> nat) = false by apply/negbTE; move: ng; rewrite -val_eqE.
  by rewrite /quarter_of => -> -> _ _; rewrite !mul0r subr0.
have [-> -> -> ->] := hF o; have -> : (o == g0 :> nat) = true by exact: eqxx.
cbv beta iota zeta.
case: s t hF => [s1 s2] [t1 t2] _; have sq z : (Cmod z ^ 2 = z.1 ^ 2 + z.2 ^ 2)%Re.
  by rewrite /Cmod pow2_sqrt //; nra.
rewrite !sq /=.
transitivity (y * c * ((s1 ^ 2 + s2 ^ 2) + (t1 ^ 2 + t2 ^ 2)) * (u.1 ^ 2 + u.2 ^ 2))%Re; last by rewrite hu Rmult_1_r.
by match goal with |- @eq _ ?a ?b => change (@eq R a b) end; simpl; ring.
Qed.

Lemma incident_power p a1 a2 ei ee L n wl kp V E0 pp sp pin r : mk_lattice p a1 a2 ei ee = Ok L ->
  @lattice_Vi n L wl kp = Ok V -> tmat_incident n p E0 pp sp = Ok pin -> num_val ei = RtoC r -> (0 < r)%Re -> (0 < wl)%Re ->
  (kp.1 ^ 2 + kp.2 ^ 2 <= r * (2 * PI / wl) ^ 2)%Re ->
  power (V *m pin) = (sqrt r / mu0c * sqrt (1 - (kp.1 ^ 2 + kp.2 ^ 2) / (r * (2 * PI / wl) ^ 2)) * (Cmod E0 ^ 2 * (Cmod sp ^ 2 + Cmod pp ^ 2)))%Re.
Proof.
move=> hL hV hi er r0 w0 hk; have p0 := PI_RGT_0; have k0 : (0 < 2 * PI / wl)%Re by apply: Rdiv_lt_0_compat; lra.
have q0 : (0 < r * (2 * PI / wl) ^ 2)%Re by apply: Rmult_lt_0_compat => //; apply: pow_lt.
have sr : (0 < sqrt r)%Re by exact: sqrt_lt_R0.
have := wave_fields hL hV hi.
have lt : (p.1 %/ 2 + p.1 * (p.2 %/ 2) < n)%N by move: hi; rewrite /tmat_incident; case: eqP => // _; case: ltnP.
have m0 : mu0c <> 0%Re by exact: mu0c_neq0.
set c := sqrt (1 - _); set x := (kp.1 ^ 2 + kp.2 ^ 2)%Re in hk c *.
have le1 : (0 <= 1 - x / (r * (2 * PI / wl) ^ 2))%Re.
  have : (x / (r * (2 * PI / wl) ^ 2) <= 1)%Re by apply: (Rmult_le_reg_r _ _ _ q0); rewrite Rmult_1_l /Rdiv Rmult_assoc Rinv_l; lra.
  lra.
have cc : (c * c = 1 - x / (r * (2 * PI / wl) ^ 2))%Re by exact: sqrt_sqrt.
have ekz : compute_kz ei wl kp (0%Re, 0%Re) = RtoC (sqrt r * (2 * PI / wl) * c)%Re.
  apply: (@kz_value ei r wl kp (0%Re, 0%Re) _ er).
    by apply: Rmult_le_pos; [apply: Rmult_le_pos; lra|exact: sqrt_pos].
  cbn [fst snd]; rewrite !Rplus_0_r -/x.
  have -> : (sqrt r * (2 * PI / wl) * c * (sqrt r * (2 * PI / wl) * c) = sqrt r * sqrt r * (2 * PI / wl) ^ 2 * (c * c))%Re by ring.
  by rewrite cc sqrt_sqrt; [field; split; lra|lra].
have es : csqrt (num_val ei) = RtoC (sqrt r) by rewrite er csqrt_nonneg //; lra.
rewrite ekz es.
have -> : RtoC (sqrt r * (2 * PI / wl) * c) / (RtoC (sqrt r) * RtoC (2 * PI / wl)) = RtoC c.
  have -> : RtoC (sqrt r) * RtoC (2 * PI / wl) = RtoC (sqrt r * (2 * PI / wl))%Re by rewrite RtoC_mult.
  have nz : (sqrt r * (2 * PI / wl) <> 0)%Re by apply: Rgt_not_eq; exact: Rmult_lt_0_compat.
  rewrite -[_ / _]/(Cdiv _ _) -RtoC_div //; congr RtoC; move: nz; move: (sqrt r * (2 * PI / wl))%Re => y nz; by field.
have -> : RtoC (sqrt r) / RtoC mu0c = RtoC (sqrt r / mu0c)%Re by rewrite RtoC_div.
move/(wave_power lt (wave_unit kp)) => ->.
have mz (z w : C) : (Cmod (z * w)%R ^ 2 = Cmod z ^ 2 * Cmod w ^ 2)%Re by rewrite -[(z * w)%R]/(Cmult z w) Cmod_mult; ring.
by rewrite !mz; ring.
Qed.

Lemma oblique_example : exists L V, let kp := (1%Re, 0%Re) in let wl := PI in
  [/\ mk_lattice (1, 1)%N (1%Re, 0%Re) (0%Re, 1%Re) (Float 4) (Float 1) = Ok L, lattice_Vi 1 L wl kp = Ok V,
      is_ok (tmat_incident 1 (1, 1)%N 1 (RtoC (3 / 5)) (RtoC (4 / 5))), (0 < wl)%Re & (kp.1 ^ 2 + kp.2 ^ 2 <= 4 * (2 * PI / wl) ^ 2)%Re].
Proof.
have [L hL] := @mk_lattice_ok (1, 1)%N (Float 4) (Float 1) erefl; have p0 := PI_RGT_0.
have [_ _ _ _ [mi _ _ _ _]] := mk_latticeE hL.
have [V hV] : is_ok (lattice_Vi 1 L PI (1%Re, 0%Re)).
  apply: lattice_V_def; rewrite ?mi /=; [by rewrite (one_ng hL)|lra|by apply/eqP => /(congr1 fst) /=; lra|lra].
exists L, V; split=> //; first by rewrite /tmat_incident /=; eexists.
have -> : (2 * PI / PI = 2)%Re by field; lra.
by cbn [fst snd]; lra.
Qed.
