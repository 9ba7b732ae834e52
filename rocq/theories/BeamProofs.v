(** Lemmas about paraxial beams. *)
From Coq Require Import Reals ZArith Lra Lia.
From mathcomp Require Import all_ssreflect all_algebra.
From Coquelicot Require Import Complex Hierarchy Derive AutoDerive.
From Verif Require Import Base CField CFun RField ModelExpansion FourierProofs SumProofs FieldsProofs ModelDraw DrawProofs ModelBeams SpecBeams.
Set Implicit Arguments. Unset Strict Implicit. Unset Printing Implicit Defensive.
Import GRing.Theory.
Local Open Scope ring_scope.

Lemma cexp_i t : cexp (ci * RtoC t) = (cos t, sin t).
Proof.
have e : ci * RtoC t = (0%Re, t) by apply: C_ext => /=; ring.
by rewrite e /cexp /= exp_0 !Rmult_1_l.
Qed.
Lemma Cmod_phase t : Cmod (cexp (ci * RtoC t)) = 1%Re.
Proof. by rewrite Cmod_cexp /= (_ : (0 * t - 1 * 0 = 0)%Re) ?exp_0 //; ring. Qed.
Lemma rayleigh_neq0 w0 er wl : wl <> 0%Re -> w0 <> 0%Re -> (0 < er)%Re -> rayleigh w0 er wl <> 0%Re.
Proof.
move=> h1 h2 h3; rewrite /rayleigh; have := PI_neq0; have : sqrt er <> 0%Re by have := sqrt_lt_R0 _ h3; lra.
move=> h4 h5; apply: Rmult_integral_contrapositive_currified; last exact: Rinv_neq_0_compat.
by do ! apply: Rmult_integral_contrapositive_currified => //.
Qed.
Lemma guardP w0 er wl (A : Type) (k b : A) :
  beam_guard w0 er wl k = Ok b <-> [/\ wl <> 0%Re, (0 < er)%Re, w0 <> 0%Re & b = k].
Proof.
rewrite /beam_guard.
destruct (Req_EM_T wl 0) as [h1|h1]; first by split => // -[].
destruct (Rlt_dec 0 er) as [h2|h2]; last by split => // -[].
destruct (Req_EM_T w0 0) as [h3|h3]; first by split => // -[].
by split => [[<-]|[_ _ _ ->]].
Qed.

Section Beam.
Variables (wl w0 er : R).
Hypotheses (wl0 : wl <> 0%Re) (w00 : w0 <> 0%Re) (er0 : (0 < er)%Re).
Let zr := rayleigh w0 er wl.
Lemma zr0 : zr <> 0%Re. Proof. exact: rayleigh_neq0. Qed.
Definition spread (z : R) : R := sqrt (1 + z / zr * (z / zr)).
Lemma spread_ge1 z : (1 <= spread z)%Re.
Proof. by rewrite -{1}sqrt_1; apply: sqrt_le_1_alt; have := Rle_0_sqr (z / zr); rewrite /Rsqr; lra. Qed.
Lemma spread_sq z : (spread z * spread z = 1 + z / zr * (z / zr))%Re.
Proof. by apply: sqrt_sqrt; have := Rle_0_sqr (z / zr); rewrite /Rsqr; lra. Qed.
Lemma radius_sq x y : (sqrt (x * x + y * y) * sqrt (x * x + y * y) = x * x + y * y)%Re.
Proof. by apply: sqrt_sqrt; nra. Qed.
Lemma gaussian_mod x y z :
  Cmod (gaussian_ex x y z wl w0 er) =
  (/ spread z * exp (- ((x * x + y * y) / (w0 * w0 * (1 + z / zr * (z / zr))))))%Re.
Proof.
rewrite /gaussian_ex !Cmod_mult Cmod_phase Rmult_1_r !Cmod_R radius_sq -/zr -/(spread z).
have s1 := spread_ge1 z; congr Rmult.
  by rewrite (_ : w0 / (w0 * spread z) = / spread z)%Re ?Rabs_right //; [apply: Rle_ge; apply: Rlt_le; apply: Rinv_0_lt_compat; lra|field; lra].
rewrite Rabs_right; last by apply: Rle_ge; apply: Rlt_le; apply: exp_pos.
congr exp; rewrite -spread_sq; field; lra.
Qed.
Lemma gaussian_le1 x y z : (Cmod (gaussian_ex x y z wl w0 er) <= 1)%Re /\
  (Cmod (gaussian_ex x y z wl w0 er) = 1%Re <-> [/\ x = 0%Re, y = 0%Re & z = 0%Re]).
Proof.
rewrite gaussian_mod; have s1 := spread_ge1 z; have s2 := spread_sq z.
have is1 : (0 < / spread z <= 1)%Re.
  by split; [apply: Rinv_0_lt_compat; lra|rewrite -Rinv_1; apply: Rinv_le_contravar; lra].
set q := (_ / _)%Re; have ww : (0 < w0 * w0)%Re by nra.
have zz : (0 <= z / zr * (z / zr))%Re by have := Rle_0_sqr (z / zr); rewrite /Rsqr.
have d0 : (0 < w0 * w0 * (1 + z / zr * (z / zr)))%Re by apply: Rmult_lt_0_compat; lra.
have q0 : (0 <= q)%Re by apply: Rmult_le_pos; [nra|apply: Rlt_le; apply: Rinv_0_lt_compat].
have e1 : (exp (- q) <= 1)%Re.
  by rewrite -exp_0; case: (Rle_lt_or_eq_dec _ _ q0) => [h|<-]; [apply: Rlt_le; apply: exp_increasing; lra|rewrite Ropp_0; lra].
have e0 := exp_pos (- q).
split; first nra.
split=> [h|[hx hy hz]]; last first.
  rewrite /q hx hy /spread hz.
  have -> : (0 / zr * (0 / zr) = 0)%Re by field; apply: zr0.
  have -> : (- ((0 * 0 + 0 * 0) / (w0 * w0 * (1 + 0))) = 0)%Re by field.
  by rewrite exp_0 Rplus_0_r sqrt_1; field.
have i1 : (/ spread z = 1)%Re by nra.
have e2 : (exp (- q) = 1)%Re by rewrite i1 in h; lra.
have q1 : (q = 0)%Re by move: e2; rewrite -exp_0 => /exp_inv; lra.
have sp : (spread z = 1)%Re by rewrite -[spread z]Rinv_inv i1 Rinv_1.
have z0 : (z / zr = 0)%Re by rewrite sp in s2; apply: Rsqr_0_uniq; rewrite /Rsqr; lra.
have xy : (x * x + y * y = 0)%Re.
  have : (q * (w0 * w0 * (1 + z / zr * (z / zr))) = x * x + y * y)%Re by rewrite /q; move: d0; set D := (w0 * w0 * _)%Re => d0; field; lra.
  by rewrite q1; lra.
split; [nra|nra|].
have e : (z = z / zr * zr)%Re by field; exact: zr0.
by rewrite e z0; ring.
Qed.
End Beam.

Lemma laguerre00 genlaguerre x y z wl w0 er : (forall u, genlaguerre 0%N 0%N u = 1%Re) ->
  laguerre_ex genlaguerre x y z wl w0 er 0%N Z0 = gaussian_ex x y z wl w0 er.
Proof.
move=> hg; rewrite /laguerre_ex /gaussian_ex /= hg.
have -> : (0 + 2 * 0 + 1 = 1)%Re by ring.
rewrite !Rmult_1_l Rmult_0_l -/(0%R : C) mulr0 cexp0 !mulr1.
by [].
Qed.

(** Turning the beam about its axis. *)
Lemma phase_pow (A B : R) (l : Z) : cexp (ci * RtoC A) = cexp (ci * RtoC B) ->
  cexp (ci * RtoC (IZR l * A)%Re) = cexp (ci * RtoC (IZR l * B)%Re).
Proof.
move=> h.
have pos (k : nat) : cexp (ci * RtoC (INR k * A)%Re) = cexp (ci * RtoC (INR k * B)%Re).
  have e t : ci * RtoC (INR k * t)%Re = ci * RtoC t * k%:R by rewrite natRtoC; apply: C_ext => /=; ring.
  by rewrite !e -!cexpX h.
case: l => [|p|p].
- by rewrite !Rmult_0_l.
- have e : IZR (Zpos p) = INR (Pos.to_nat p) by rewrite INR_IPR.
  by rewrite e; exact: pos.
have e t : ci * RtoC (IZR (Zneg p) * t)%Re = - (ci * RtoC (INR (Pos.to_nat p) * t)%Re).
  by rewrite INR_IPR; apply: C_ext => /=; rewrite /IZR; ring.
by rewrite !e !cexpN pos.
Qed.

Lemma phase_polar (x y : R) : let r := sqrt (x * x + y * y) in
  RtoC r * cexp (ci * RtoC (- atan2 x y)%Re) = (y, (- x)%Re).
Proof.
move=> r; have [] := atan2P x y; rewrite (_ : y * y + x * x = x * x + y * y)%Re; last by ring.
rewrite -/r => h1 h2; rewrite cexp_i cos_neg sin_neg; apply: C_ext => /=; lra.
Qed.
Lemma phase_turn (x y a : R) : (x * x + y * y <> 0)%Re ->
  cexp (ci * RtoC (- atan2 (cos a * x - sin a * y) (sin a * x + cos a * y))%Re) = cexp (ci * RtoC (a - atan2 x y)%Re).
Proof.
move=> h; set x' := (cos a * x - sin a * y)%Re; set y' := (sin a * x + cos a * y)%Re.
have hc : (cos a * cos a = 1 - sin a * sin a)%Re by have := sin2_cos2 a; rewrite /Rsqr; lra.
have e : (x' * x' + y' * y' = x * x + y * y)%Re by rewrite /x' /y'; ring [hc].
have r0 : RtoC (sqrt (x * x + y * y)) != 0.
  by apply/eqP => /RtoC_inj; apply: Rgt_not_eq; apply: sqrt_lt_R0; nra.
apply: (mulfI r0); have := phase_polar x' y'; rewrite e => ->.
have -> : cexp (ci * RtoC (a - atan2 x y)%Re) = cexp (ci * RtoC a) * cexp (ci * RtoC (- atan2 x y)%Re).
  by rewrite -cexpD; congr cexp; apply: C_ext => /=; ring.
by rewrite mulrCA phase_polar cexp_i; apply: C_ext; rewrite /= ?/x' ?/y'; ring.
Qed.
Lemma laguerre_turn genlaguerre (x y z wl w0 er a : R) (p : nat) (l : Z) :
  laguerre_ex genlaguerre (cos a * x - sin a * y)%Re (sin a * x + cos a * y)%Re z wl w0 er p l =
  cexp (ci * RtoC (IZR l * a)%Re) * laguerre_ex genlaguerre x y z wl w0 er p l.
Proof.
have hc : (cos a * cos a = 1 - sin a * sin a)%Re by have := sin2_cos2 a; rewrite /Rsqr; lra.
rewrite /laguerre_ex.
set x' := (cos a * x - sin a * y)%Re; set y' := (sin a * x + cos a * y)%Re.
have e : (x' * x' + y' * y' = x * x + y * y)%Re by rewrite /x' /y'; ring [hc].
rewrite e; case: (Req_dec (x * x + y * y) 0) => h.
  rewrite h sqrt_0 !Rmult_0_l (_ : 0 / _ = 0)%Re; last by rewrite /Rdiv Rmult_0_l.
  case: (Z.eq_dec l Z0) => [->|hl]; first by rewrite !Rmult_0_l !mulr0 cexp0 mul1r.
  by rewrite pow_i; [rewrite !(mul0r, mulr0)|lia].
have step v : - ci * RtoC (IZR l * v)%Re = ci * RtoC (IZR l * - v)%Re by apply: C_ext => /=; ring.
rewrite !step (phase_pow l (phase_turn a h)).
have -> : cexp (ci * RtoC (IZR l * (a - atan2 x y))%Re) = cexp (ci * RtoC (IZR l * a)%Re) * cexp (ci * RtoC (IZR l * - atan2 x y)%Re).
  by rewrite -cexpD; congr cexp; apply: C_ext => /=; ring.
move: (cexp _) (cexp _) (cexp _) (RtoC _) (RtoC _) (RtoC _) (RtoC _) => *; cring.
Qed.
