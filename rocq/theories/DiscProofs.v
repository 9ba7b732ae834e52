(** Proofs about the transform of a disc. *)
From Coq Require Import Reals ZArith Lra Psatz List.
From mathcomp Require Import all_ssreflect all_algebra.
From Coquelicot Require Import Coquelicot.
From Verif Require Import Base CField RField CFun ModelExpansion ModelFourier SpecDisc DiscIntegral.
Set Implicit Arguments. Unset Strict Implicit. Unset Printing Implicit Defensive.
Import GRing.Theory.
Local Open Scope ring_scope.

Lemma disc_value c0 c1 r gx gy sigma : sigma <> 0%Re -> (gx <> 0 \/ gy <> 0)%Re ->
  let g := sqrt (gx * gx + gy * gy) in let a := (gx * c0 + gy * c1)%Re in let v := (r * int1 (g * r) / g)%Re in
  disc_coefficient c0 c1 r gx gy sigma = ((cos a * v / sigma)%Re, (- (sin a * v / sigma))%Re).
Proof.
move=> s0 nz g a v; have g0 : g <> 0%Re by apply/not_eq_sym/Rlt_not_eq/sqrt_lt_R0; case: nz; nra.
rewrite /disc_coefficient /v -!radial //; congr (_, _).
- by congr Rdiv; apply: RInt_ext => s _; have [-> _] := circle gx gy c0 c1 s.
- by congr Ropp; congr Rdiv; apply: RInt_ext => s _; have [_ ->] := circle gx gy c0 c1 s.
Qed.
Lemma disc_value0 c0 c1 r sigma : disc_coefficient c0 c1 r 0 0 sigma = ((PI * (r * r) / sigma)%Re, 0%Re).
Proof.
rewrite /disc_coefficient; have e0 : sqrt (0 * 0 + 0 * 0) = 0%Re by rewrite Rmult_0_l Rplus_0_l sqrt_0.
have h s := circle 0 0 c0 c1 s; congr (_, _).
- congr Rdiv; rewrite -[RHS]Rmult_1_l -(radial0 1 r); apply: RInt_ext => s _; have [-> _] := h s.
  by rewrite e0 !Rmult_0_l Rplus_0_l cos_0.
- rewrite -[X in _ = X]Ropp_0; congr Ropp; rewrite -[RHS](Rmult_0_l (PI * (r * r) / sigma)%Re) /Rdiv -Rmult_assoc; congr Rmult.
  rewrite -(radial0 0 r); apply: RInt_ext => s _; have [_ ->] := h s.
  by rewrite e0 !Rmult_0_l Rplus_0_l sin_0 !Rmult_0_l.
Qed.
Lemma disc_exact J1 c0 c1 r gx gy sigma : (forall x, J1 x = bessel_one x) -> r <> 0%Re -> sigma <> 0%Re -> not_small gx gy ->
  transform_disc J1 c0 c1 r gx gy sigma = disc_coefficient c0 c1 r gx gy sigma.
Proof.
move=> hJ r0 s0 [[-> ->]|big]; rewrite /transform_disc /isclose0.
  rewrite Rabs_R0; destruct (Rle_dec 0 (1 / 100000000)) as [h|h]; last by exfalso; lra.
  by rewrite /= disc_value0.
have nz : (gx <> 0 \/ gy <> 0)%Re by case: big => h; [left|right] => z; rewrite z Rabs_R0 in h; lra.
have -> : forall A (x y : A), (if (if Rle_dec (Rabs gx) (1 / 100000000) then true else false) && (if Rle_dec (Rabs gy) (1 / 100000000) then true else false) then x else y) = y.
  move=> A x y; destruct (Rle_dec (Rabs gx) (1 / 100000000)) as [h|h]; destruct (Rle_dec (Rabs gy) (1 / 100000000)) as [h'|h'] => //=; exfalso; case: big; lra.
rewrite (disc_value c0 c1 r s0 nz) hJ /bessel_one int1_bessel; set g := sqrt _.
have g0 : g <> 0%Re by apply/not_eq_sym/Rlt_not_eq/sqrt_lt_R0; case: nz; nra.
have p0 := PI_RGT_0; move: (int1 _) => v.
have e : (c0 * gx + c1 * gy = gx * c0 + gy * c1)%Re by ring.
rewrite e; move: (gx * c0 + gy * c1)%Re => a.
have -> : cexp (- ci * RtoC a) = (cos a, (- sin a)%Re).
  rewrite /cexp; have -> : - ci * RtoC a = (0%Re, (- a)%Re) by apply: C_ext => /=; ring.
  by rewrite /= exp_0 cos_neg sin_neg !Rmult_1_l.
by apply: C_ext => /=; field; repeat split => //; lra.
Qed.
Lemma disc_layer J1 c0 c1 r (G : seq vec2) sigma : (forall x, J1 x = bessel_one x) -> r <> 0%Re -> sigma <> 0%Re ->
  (forall g, List.In g G -> not_small g.1 g.2) ->
  transform J1 (Disc c0 c1 r) G sigma = Ok [seq disc_coefficient c0 c1 r g.1 g.2 sigma | g <- G].
Proof.
move=> hJ r0 s0 hG; rewrite /transform; destruct (Req_EM_T sigma 0) as [h|h] => //; cbn [is_left].
destruct (Req_EM_T r 0) as [h'|h'] => //; cbn [is_left]; congr Ok.
elim: G hG => [//|g G ih] hG /=; rewrite ih; last by move=> g' h2; apply: hG; right.
by rewrite disc_exact //; apply: hG; left.
Qed.
(** A tiny wavevector is taken for zero. *)
Lemma int1_ge0 x : (0 <= x <= 1)%Re -> (0 <= int1 x)%Re.
Proof.
move=> [x0 x1]; have p0 := PI_RGT_0; rewrite /int1; apply: RInt_ge_0; first lra.
  by apply: cont_any; cont.
move=> t _; have b := SIN_bound t; have pi2 : (1 < PI)%Re by have := PI2_1; lra.
case: (Rle_dec 0 (sin t)) => h.
  by apply: Rmult_le_pos => //; apply: sin_ge_0; nra.
have -> : (x * sin t = - (x * - sin t))%Re by ring.
rewrite sin_neg; have : (0 <= sin (x * - sin t))%Re by apply: sin_ge_0; nra.
by move: h b => /Rnot_le_lt h b q; nra.
Qed.
Lemma tiny_disc J1 : exists c0 c1 r gx gy sigma, [/\ r <> 0%Re, sigma <> 0%Re &
  transform_disc J1 c0 c1 r gx gy sigma <> disc_coefficient c0 c1 r gx gy sigma].
Proof.
have p0 := PI_RGT_0; pose gx := (/ 10 ^ 9)%Re; exists (PI * 10 ^ 9)%Re, 0%Re, 1%Re, gx, 0%Re, 1%Re.
have g0 : (0 < gx)%Re by apply: Rinv_0_lt_compat; apply: pow_lt; lra.
have g1 : (gx <= 1 / 100000000)%Re by rewrite /gx /=; lra.
have ea : (gx * (PI * 10 ^ 9) + 0 * 0 = PI)%Re by rewrite /gx; field.
split; [lra|lra|]; rewrite disc_value; [|lra|left; lra].
rewrite ea; move: (PI * 10 ^ 9)%Re => c0 {ea}.
rewrite /transform_disc /isclose0 Rabs_R0 (Rabs_pos_eq gx); last lra.
destruct (Rle_dec gx (1 / 100000000)) as [h|h] => //; destruct (Rle_dec 0 (1 / 100000000)) as [h'|h'] => /=; last by exfalso; lra.
move/(congr1 fst) => /=.
rewrite cos_PI; have -> : sqrt (gx * gx + 0 * 0) = gx by rewrite Rmult_0_l Rplus_0_r sqrt_square //; lra.
have v0 : (0 <= 1 * int1 (gx * 1) / gx)%Re.
  by apply: Rmult_le_pos; [have := @int1_ge0 (gx * 1) ltac:(split; lra); lra|apply/Rlt_le/Rinv_0_lt_compat].
by move: (1 * int1 (gx * 1) / gx)%Re v0 => v v0 e; lra.
Qed.
Lemma disc_example : exists J1, (forall x, J1 x = bessel_one x) /\
  forall g, List.In g [:: (0%Re, 0%Re); ((2 * PI)%Re, (- 4 * PI)%Re)] -> not_small g.1 g.2.
Proof.
exists bessel_one; split=> // g /= [<-|[<-|//]]; [by left|right; left => /=].
have p1 := PI2_1; rewrite Rabs_pos_eq; lra.
Qed.
