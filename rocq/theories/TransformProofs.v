(** Lemmas about the Fourier transforms of islands. *)
From Coq Require Import Reals ZArith Lra Lia.
From mathcomp Require Import all_ssreflect all_algebra.
From Coquelicot Require Import Complex RInt RInt_analysis Hierarchy Derive Continuity AutoDerive Rbar.
From Verif Require Import Base CField CFun ModelExpansion ModelFourier SpecTransform FourierProofs.
Set Implicit Arguments. Unset Strict Implicit. Unset Printing Implicit Defensive.
Import GRing.Theory.
Local Open Scope ring_scope.

Definition sincint (t : R) : C :=
  if Req_EM_T t 0%Re then (1%Re, 0%Re) else ((sin t / t)%Re, ((cos t - 1) / t)%Re).

Lemma arg_it (t : R) : - ci * RtoC t = (0%Re, (- t)%Re) :> C.
Proof. by apply: C_ext => /=; ring. Qed.
Lemma cexp_it (t : R) : cexp (- ci * RtoC t) = (cos t, (- sin t)%Re).
Proof. by rewrite mulNr cexp_cis. Qed.
Lemma Cmod_it (t : R) : Cmod (- ci * RtoC t) = Rabs t.
Proof.
rewrite arg_it /Cmod /=.
have -> : (0 * (0 * 1) + - t * (- t * 1) = Rsqr t)%Re by rewrite /Rsqr; ring.
exact: sqrt_Rsqr_abs.
Qed.

Lemma fexpz_clear t : (1 / 100 < Rabs t)%Re -> fexpz (- ci * RtoC t) = sincint t.
Proof.
move=> h; rewrite /fexpz Cmod_it; destruct (Rlt_dec (1 / 100)%Re (Rabs t)) as [h'|h'] => //.
rewrite /sincint; destruct (Req_EM_T t 0) as [e|ne].
  by exfalso; move: h; rewrite e Rabs_R0; lra.
rewrite cexp_it.
have ne' : (- ci * RtoC t : C) != 0.
  apply/eqP => e; have := congr1 snd e; rewrite arg_it /= => e'; apply: ne; lra.
apply: (mulIf ne'); rewrite divfK // arg_it.
by apply: C_ext => /=; field.
Qed.
Lemma nat2 (n : nat) : (n%:R : C) = (INR n, 0%Re).
Proof.
elim: n => [|n IH]; first by [].
by rewrite -[n.+1]addn1 natrD IH addn1 S_INR; apply: C_ext => /=; ring.
Qed.
Lemma div_nat (z : C) (n : nat) : (0 < n)%N -> z / n%:R = ((fst z / INR n)%Re, (snd z / INR n)%Re).
Proof.
move=> n0; have i0 : INR n <> 0%Re by apply: not_0_INR; case: n n0.
have nn : (n%:R : C) != 0 by apply/eqP; rewrite nat2 => e; apply: i0; exact: (congr1 fst e).
apply: (mulIf nn); rewrite divfK // nat2; case: z => x y.
by apply: C_ext => /=; field.
Qed.
Lemma fexpz_taylor t : (Rabs t <= 1 / 100)%Re -> fexpz (- ci * RtoC t) =
  ((1 - t ^ 2 / 6 + t ^ 4 / 120 - t ^ 6 / 5040)%Re, (- t / 2 + t ^ 3 / 24 - t ^ 5 / 720)%Re).
Proof.
move=> h; rewrite /fexpz Cmod_it; destruct (Rlt_dec (1 / 100)%Re (Rabs t)) as [h'|h']; first by exfalso; lra.
rewrite arg_it; set z : C := (_, _).
rewrite !div_nat //.
by apply: C_ext => /=; field.
Qed.
Lemma fexpz0 : fexpz (- ci * RtoC 0) = sincint 0.
Proof.
rewrite fexpz_taylor; last by rewrite Rabs_R0; lra.
rewrite /sincint; destruct (Req_EM_T 0 0) as [e|e] => //; by apply: C_ext => /=; field.
Qed.
Lemma fexpz_off t : off_small_branch t -> fexpz (- ci * RtoC t) = sincint t.
Proof. by case=> [->|h]; [exact: fexpz0|exact: fexpz_clear]. Qed.

(** Taylor bounds. *)
Lemma factS n r : INR (fact n) = r -> INR (fact n.+1) = (INR n.+1 * r)%Re.
Proof. by move=> <-; rewrite -mult_INR. Qed.
Lemma fact2 : INR (fact 2) = 2%Re.
Proof. by rewrite (factS (factS (erefl (INR (fact 0))))) /=; ring. Qed.
Lemma fact3 : INR (fact 3) = 6%Re. Proof. by rewrite (factS fact2) /=; ring. Qed.
Lemma fact4 : INR (fact 4) = 24%Re. Proof. by rewrite (factS fact3) /=; ring. Qed.
Lemma fact5 : INR (fact 5) = 120%Re. Proof. by rewrite (factS fact4) /=; ring. Qed.
Lemma fact6 : INR (fact 6) = 720%Re. Proof. by rewrite (factS fact5) /=; ring. Qed.
Lemma fact7 : INR (fact 7) = 5040%Re. Proof. by rewrite (factS fact6) /=; ring. Qed.
Lemma fact8 : INR (fact 8) = 40320%Re. Proof. by rewrite (factS fact7) /=; ring. Qed.
Lemma fact9 : INR (fact 9) = 362880%Re. Proof. by rewrite (factS fact8) /=; ring. Qed.
Lemma cos_taylor t : (0 <= t <= 1)%Re ->
  (1 - t ^ 2 / 2 + t ^ 4 / 24 - t ^ 6 / 720 <= cos t <= 1 - t ^ 2 / 2 + t ^ 4 / 24 - t ^ 6 / 720 + t ^ 8 / 40320)%Re.
Proof.
move=> h; have p := PI2_3_2.
have T k m r : (2 * k)%coq_nat = m -> INR (fact m) = r -> cos_term t k = ((-1) ^ k * (t ^ m / r))%Re.
  by move=> <- <-.
have T0 := T 0%N 0%N 1%Re erefl erefl; have T1 := T 1%N 2%N _ erefl fact2.
have T2 := T 2%N 4%N _ erefl fact4; have T3 := T 3%N 6%N _ erefl fact6; have T4 := T 4%N 8%N _ erefl fact8.
have l1 : (- PI / 2 <= t)%Re by lra.
have l2 : (t <= PI / 2)%Re by lra.
have [h1 h2] := @cos_bound t 1 l1 l2.
move: h1 h2; rewrite /cos_approx -[((2 * 1) + 1)%coq_nat]/3%N -[(2 * (1 + 1))%coq_nat]/4%N.
have -> : sum_f_R0 (cos_term t) 4 = (sum_f_R0 (cos_term t) 3 + cos_term t 4)%Re by [].
have -> : sum_f_R0 (cos_term t) 3 = (cos_term t 0 + cos_term t 1 + cos_term t 2 + cos_term t 3)%Re by [].
by rewrite T0 T1 T2 T3 T4; lra.
Qed.
Lemma sin_taylor t : (0 <= t <= 1)%Re ->
  (t - t ^ 3 / 6 + t ^ 5 / 120 - t ^ 7 / 5040 <= sin t <= t - t ^ 3 / 6 + t ^ 5 / 120 - t ^ 7 / 5040 + t ^ 9 / 362880)%Re.
Proof.
move=> h; have p := PI2_3_2.
have T k m r : (2 * k + 1)%coq_nat = m -> INR (fact m) = r -> sin_term t k = ((-1) ^ k * (t ^ m / r))%Re.
  by move=> <- <-.
have T0 := T 0%N 1%N 1%Re erefl erefl; have T1 := T 1%N 3%N _ erefl fact3.
have T2 := T 2%N 5%N _ erefl fact5; have T3 := T 3%N 7%N _ erefl fact7; have T4 := T 4%N 9%N _ erefl fact9.
have l1 : (0 <= t)%Re by lra.
have l2 : (t <= PI)%Re by lra.
have [h1 h2] := @sin_bound t 1 l1 l2.
move: h1 h2; rewrite /sin_approx -[((2 * 1) + 1)%coq_nat]/3%N -[(2 * (1 + 1))%coq_nat]/4%N.
have -> : sum_f_R0 (sin_term t) 4 = (sum_f_R0 (sin_term t) 3 + sin_term t 4)%Re by [].
have -> : sum_f_R0 (sin_term t) 3 = (sin_term t 0 + sin_term t 1 + sin_term t 2 + sin_term t 3)%Re by [].
by rewrite T0 T1 T2 T3 T4; lra.
Qed.

Definition tiny : R := (/ 4 * / 10 ^ 18)%Re.
Lemma pow_small t n : (0 <= t <= 1 / 100)%Re -> (0 <= t ^ n <= (1 / 100) ^ n)%Re.
Proof. by move=> h; split; [apply: pow_le; lra|apply: pow_incr; lra]. Qed.
Lemma small_pos t : (0 < t <= 1 / 100)%Re ->
  (0 <= sin t / t - (1 - t ^ 2 / 6 + t ^ 4 / 120 - t ^ 6 / 5040) <= / 10 ^ 16 / 362880)%Re /\
  (0 <= (cos t - 1) / t - (- t / 2 + t ^ 3 / 24 - t ^ 5 / 720) <= / 10 ^ 14 / 40320)%Re.
Proof.
move=> [t0 t1]; have it : (0 < / t)%Re by apply: Rinv_0_lt_compat.
have h : (0 <= t <= 1)%Re by lra.
have h' : (0 <= t <= 1 / 100)%Re by lra.
have [c1 c2] := cos_taylor h; have [s1 s2] := sin_taylor h.
have [p8 q8] := pow_small 8 h'; have [p7 q7] := pow_small 7 h'.
have -> : (sin t / t - (1 - t ^ 2 / 6 + t ^ 4 / 120 - t ^ 6 / 5040) =
  (sin t - (t - t ^ 3 / 6 + t ^ 5 / 120 - t ^ 7 / 5040)) * / t)%Re by field; lra.
have -> : ((cos t - 1) / t - (- t / 2 + t ^ 3 / 24 - t ^ 5 / 720) =
  (cos t - (1 - t ^ 2 / 2 + t ^ 4 / 24 - t ^ 6 / 720)) * / t)%Re by field; lra.
have mono x b n : (0 <= x <= t ^ n.+1 / b)%Re -> (0 <= x * / t <= t ^ n / b)%Re.
  move=> [x0 x1]; split; first by apply: Rmult_le_pos; lra.
  have -> : (t ^ n / b = t ^ n.+1 / b * / t)%Re.
    rewrite -[LHS]Rmult_1_r -(Rinv_r t); last by lra.
    by rewrite /= /Rdiv; ring.
  by apply: Rmult_le_compat_r; lra.
have := mono (sin t - (t - t ^ 3 / 6 + t ^ 5 / 120 - t ^ 7 / 5040))%Re 362880%Re 8%N.
have := mono (cos t - (1 - t ^ 2 / 2 + t ^ 4 / 24 - t ^ 6 / 720))%Re 40320%Re 7%N.
move=> m1 m2; have [|a1 a2] := m1; first by lra.
have [|b1 b2] := m2; first by lra.
by split; split=> //; lra.
Qed.
Lemma Cmod_sum (z : C) a b : (Rabs (fst z) <= a)%Re -> (Rabs (snd z) <= b)%Re -> (Cmod z <= a + b)%Re.
Proof.
move=> h1 h2; case: z h1 h2 => x y /= h1 h2.
have px := Rabs_pos x; have py := Rabs_pos y.
apply: (@Rle_trans _ (Rabs x + Rabs y)%Re); last by lra.
rewrite /Cmod -(sqrt_Rsqr (Rabs x + Rabs y)%Re); last by lra.
apply: sqrt_le_1_alt; rewrite /= /Rsqr.
have -> : (x * (x * 1) = Rabs x * Rabs x)%Re by rewrite -Rabs_mult Rabs_pos_eq; [ring|exact: Rle_0_sqr].
have -> : (y * (y * 1) = Rabs y * Rabs y)%Re by rewrite -Rabs_mult Rabs_pos_eq; [ring|exact: Rle_0_sqr].
by have := Rmult_le_pos _ _ px py; lra.
Qed.
Lemma fexpz_close t : (Cmod (fexpz (- ci * RtoC t) - sincint t)%R <= tiny)%Re.
Proof.
have z0 : (Cmod (0%R : C) <= tiny)%Re by rewrite Cmod_0 /tiny; lra.
case: (Rlt_dec (1 / 100) (Rabs t)) => h; first by rewrite fexpz_clear // subrr.
case: (Req_EM_T t 0) => [->|t0]; first by rewrite fexpz0 subrr.
rewrite fexpz_taylor; last by lra.
rewrite /sincint; destruct (Req_EM_T t 0) as [e|t0'] => //.
apply: (@Rle_trans _ (/ 10 ^ 16 / 362880 + / 10 ^ 14 / 40320)%Re); last by rewrite /tiny; lra.
case: (Rle_dec 0 t) => t1.
  have t2 : (0 < t <= 1 / 100)%Re by rewrite Rabs_pos_eq in h; lra.
  have [a b] := small_pos t2.
  by apply: Cmod_sum; apply: Rabs_le; cbn [fst snd]; move: a b;
    rewrite -[GRing.opp _]/(Copp _) -[GRing.add _ _]/(Cplus _ _) /=; lra.
have t2 : (0 < - t <= 1 / 100)%Re by rewrite Rabs_left in h; lra.
have [a b] := small_pos t2.
have e1 : (sin (- t) / - t = sin t / t)%Re by rewrite sin_neg; field.
have e2 : ((cos (- t) - 1) / - t = - ((cos t - 1) / t))%Re by rewrite cos_neg; field.
rewrite e1 e2 in a b.
apply: Cmod_sum; apply: Rabs_le; move: a b;
    rewrite -[GRing.opp _]/(Copp _) -[GRing.add _ _]/(Cplus _ _) /=; lra.
Qed.
Lemma sincint_le1 t : (Cmod (sincint t) <= 1)%Re.
Proof.
rewrite /sincint; destruct (Req_EM_T t 0) as [e|t0].
  rewrite /Cmod /=; have -> : (1 * (1 * 1) + 0 * (0 * 1) = 1)%Re by ring.
  by rewrite sqrt_1; lra.
rewrite /Cmod; apply: (@Rle_trans _ (sqrt 1)); last by rewrite sqrt_1; lra.
apply: sqrt_le_1_alt => /=.
have t2 : (0 < t * t)%Re by apply: Rsqr_pos_lt.
have -> : (sin t / t * (sin t / t * 1) + (cos t - 1) / t * ((cos t - 1) / t * 1) = (2 - 2 * cos t) / (t * t))%Re.
  have s2 := sin2_cos2 t; rewrite /Rsqr in s2.
  have -> : (2 - 2 * cos t = sin t * sin t + (cos t - 1) * (cos t - 1))%Re by lra.
  by field.
apply: (Rmult_le_reg_r (t * t)) => //; rewrite /Rdiv Rmult_assoc Rinv_l; last by lra.
have -> : (cos t = 1 - 2 * sin (t / 2) * sin (t / 2))%Re.
  have {1}-> : (t = 2 * (t / 2))%Re by field.
  by rewrite cos_2a_sin.
suff : (sin (t / 2) * sin (t / 2) <= (t / 2) * (t / 2))%Re by lra.
have key x : (0 <= x)%Re -> (sin x * sin x <= x * x)%Re.
  case=> [x0|<-]; last by rewrite sin_0; lra.
  case: (Rle_dec x 1) => x1.
    have := sin_lt_x _ x0; have := PI2_3_2 => p q.
    have : (0 <= sin x)%Re by apply: sin_ge_0; lra.
    by move=> r; apply: Rmult_le_compat; lra.
  apply: (@Rle_trans _ (1 * 1)%Re); last by apply: Rmult_le_compat; lra.
  have [l u] := SIN_bound x.
  by have := sin2_cos2 x; rewrite /Rsqr; have := Rle_0_sqr (cos x); rewrite /Rsqr; lra.
case: (Rle_dec 0 t) => t1; first by apply: key; lra.
have := key (- (t / 2))%Re; rewrite sin_neg; have -> : (- sin (t / 2) * - sin (t / 2) = sin (t / 2) * sin (t / 2))%Re by ring.
have -> : (- (t / 2) * - (t / 2) = t / 2 * (t / 2))%Re by ring.
by apply; lra.
Qed.

(** Integrals of complex functions. *)
Lemma cint_unique f a b v w : cint f a b v -> cint f a b w -> v = w.
Proof.
case=> h1 h2 [h3 h4]; apply: C_ext.
  by rewrite -(is_RInt_unique _ _ _ _ h1) (is_RInt_unique _ _ _ _ h3).
by rewrite -(is_RInt_unique _ _ _ _ h2) (is_RInt_unique _ _ _ _ h4).
Qed.
Lemma cint_ext f g a b v : (forall x, (Rmin a b < x < Rmax a b)%Re -> f x = g x) -> cint f a b v -> cint g a b v.
Proof.
by move=> h [h1 h2]; split; [move: h1|move: h2]; apply: is_RInt_ext => x hx; rewrite h.
Qed.
Lemma cint2_unique f a b c d v w : cint2 f a b c d v -> cint2 f a b c d w -> v = w.
Proof.
case=> g [h1 h2] [g' [h3 h4]]; apply: (cint_unique h2); apply: cint_ext h4 => x _.
exact: (cint_unique (h3 x) (h1 x)).
Qed.
Lemma cintD f g a b v w : cint f a b v -> cint g a b w -> cint (fun x => f x + g x) a b (v + w).
Proof. by case=> h1 h2 [h3 h4]; split; exact: is_RInt_plus. Qed.
Lemma cintZ f a b v (k : C) : cint f a b v -> cint (fun x => k * f x) a b (k * v).
Proof.
case=> h1 h2; split.
  have := @is_RInt_minus R_NormedModule _ _ _ _ _ _ (is_RInt_scal _ _ _ (fst k) _ h1) (is_RInt_scal _ _ _ (snd k) _ h2).
  by apply: is_RInt_ext => x _; rewrite /minus /plus /opp /scal /= /mult.
have := @is_RInt_plus R_NormedModule _ _ _ _ _ _ (is_RInt_scal _ _ _ (fst k) _ h2) (is_RInt_scal _ _ _ (snd k) _ h1).
by apply: is_RInt_ext => x _; rewrite /plus /scal /= /mult.
Qed.
Lemma cint2D f g a b c d v w : cint2 f a b c d v -> cint2 g a b c d w -> cint2 (fun x y => f x y + g x y) a b c d (v + w).
Proof.
case=> p [h1 h2] [q [h3 h4]]; exists (fun y => p y + q y); split; last exact: cintD.
by move=> y; exact: cintD.
Qed.
Lemma cint2Z f a b c d v (k : C) : cint2 f a b c d v -> cint2 (fun x y => k * f x y) a b c d (k * v).
Proof.
case=> p [h1 h2]; exists (fun y => k * p y); split; last exact: cintZ.
by move=> y; exact: cintZ.
Qed.
Lemma cint2_ext f g a b c d v : (forall x y, f x y = g x y) -> cint2 f a b c d v -> cint2 g a b c d v.
Proof. by move=> h [p [h1 h2]]; exists p; split=> // y; apply: cint_ext (h1 y). Qed.
Lemma cint_chasles f a b c v w : cint f a b v -> cint f b c w -> cint f a c (v + w).
Proof. by case=> h1 h2 [h3 h4]; split; [exact: is_RInt_Chasles h1 h3|exact: is_RInt_Chasles h2 h4]. Qed.
Lemma cint0 a b : cint (fun=> 0) a b 0.
Proof.
by split; have := @is_RInt_const R_NormedModule a b 0%Re; rewrite /scal /= /mult /= Rmult_0_r.
Qed.

Lemma cint_wave q l u ph :
  cint (fun x => (cos (q * x + ph)%Re, (- sin (q * x + ph))%Re)) l u
    (RtoC (u - l)%Re * sincint (q * (u - l))%Re * (cos (q * l + ph)%Re, (- sin (q * l + ph))%Re)).
Proof.
case: (Req_EM_T q 0) => [->|q0].
  have e x : (0 * x + ph = ph)%Re by ring.
  rewrite /sincint Rmult_0_l; destruct (Req_EM_T 0 0) as [z|z] => //.
  split; cbn [fst snd].
    have := @is_RInt_const R_NormedModule l u (cos ph); rewrite /scal /= /mult /= => h.
    rewrite e; have -> : (((u - l) * 1 - 0 * 0) * cos ph - ((u - l) * 0 + 0 * 1) * - sin ph = (u - l) * cos ph)%Re by ring.
    by apply: is_RInt_ext h => x _; rewrite e.
  have := @is_RInt_const R_NormedModule l u (- sin ph)%Re; rewrite /scal /= /mult /= => h.
  rewrite e; have -> : (((u - l) * 1 - 0 * 0) * - sin ph + ((u - l) * 0 + 0 * 1) * cos ph = (u - l) * - sin ph)%Re by ring.
  by apply: is_RInt_ext h => x _; rewrite e.
have hv : RtoC (u - l)%Re * sincint (q * (u - l))%Re * (cos (q * l + ph)%Re, (- sin (q * l + ph))%Re) =
  (((sin (q * u + ph) - sin (q * l + ph)) / q)%Re, ((cos (q * u + ph) - cos (q * l + ph)) / q)%Re) :> C.
  case: (Req_EM_T u l) => [->|ul].
    by apply: C_ext => /=; field.
  have t0 : (q * (u - l) <> 0)%Re by apply: Rmult_integral_contrapositive; split=> //; lra.
  rewrite /sincint; destruct (Req_EM_T (q * (u - l)) 0) as [z|z] => //.
  have -> : (q * u + ph = q * (u - l) + (q * l + ph))%Re by ring.
  have ul' : (u - l <> 0)%Re by lra.
  move: (q * l + ph)%Re => A; rewrite (sin_plus _ A) (cos_plus _ A).
  by apply: C_ext => /=; field.
rewrite hv; split; cbn [fst snd].
  have -> : ((sin (q * u + ph) - sin (q * l + ph)) / q = sin (q * u + ph) / q - sin (q * l + ph) / q)%Re by field.
  apply: (@is_RInt_derive R_CompleteNormedModule (fun x => sin (q * x + ph) / q)%Re (fun x => cos (q * x + ph)%Re)) => x _.
    by auto_derive => //; field.
  by apply: (@ex_derive_continuous _ R_NormedModule); auto_derive.
have -> : ((cos (q * u + ph) - cos (q * l + ph)) / q = cos (q * u + ph) / q - cos (q * l + ph) / q)%Re by field.
apply: (@is_RInt_derive R_CompleteNormedModule (fun x => cos (q * x + ph) / q)%Re (fun x => - sin (q * x + ph))%Re) => x _.
  by auto_derive => //; field.
by apply: (@ex_derive_continuous _ R_NormedModule); auto_derive.
Qed.

Definition rect_integral (l0 l1 u0 u1 : R) (G : vec2) : C :=
  RtoC (u0 - l0)%Re * sincint (G.1 * (u0 - l0))%Re *
  (RtoC (u1 - l1)%Re * sincint (G.2 * (u1 - l1))%Re * planewave G l0 l1).

Lemma wave_over_x G l u y :
  cint (fun x => planewave G x y) l u (RtoC (u - l)%Re * sincint (G.1 * (u - l))%Re * planewave G l y).
Proof. exact: cint_wave. Qed.
Lemma wave_over_y G x l u :
  cint (fun y => planewave G x y) l u (RtoC (u - l)%Re * sincint (G.2 * (u - l))%Re * planewave G x l).
Proof.
have := cint_wave G.2 l u (G.1 * x)%Re; rewrite /planewave.
have e y : (G.2 * y + G.1 * x = G.1 * x + G.2 * y)%Re by ring.
by rewrite e; apply: cint_ext => y _; rewrite e.
Qed.
Lemma rect_integralP G l0 l1 u0 u1 : cint2 (planewave G) l0 u0 l1 u1 (rect_integral l0 l1 u0 u1 G).
Proof.
exists (fun y => RtoC (u0 - l0)%Re * sincint (G.1 * (u0 - l0))%Re * planewave G l0 y); split.
  by move=> y; exact: wave_over_x.
by apply: cintZ; exact: wave_over_y.
Qed.

Lemma planewaveE (G : vec2) x y : cexp (- ci * RtoC (x * G.1 + y * G.2)%Re) = planewave G x y.
Proof.
rewrite cexp_it /planewave; have -> : (x * G.1 + y * G.2 = G.1 * x + G.2 * y)%Re by ring.
by [].
Qed.
Lemma rectangleE l0 l1 u0 u1 (G : vec2) s : s <> 0%Re ->
  transform_rectangle l0 l1 u0 u1 G.1 G.2 s =
  RtoC (/ s)%Re * (RtoC (u0 - l0)%Re * fexpz (- ci * RtoC (G.1 * (u0 - l0))%Re) *
    (RtoC (u1 - l1)%Re * fexpz (- ci * RtoC (G.2 * (u1 - l1))%Re) * planewave G l0 l1)).
Proof.
move=> s0; rewrite /transform_rectangle planewaveE.
have e a b : - ci * RtoC a * RtoC b = - ci * RtoC (a * b)%Re by rewrite RtoC_mult -mulrA.
rewrite !e; move: (fexpz _) => x; move: (fexpz _) => y; move: (planewave _ _ _) => z.
rewrite /Rdiv !RtoC_mult.
move: (RtoC (/ s)%Re) (RtoC (u0 - l0)%Re) (RtoC (u1 - l1)%Re) => a b c.
rewrite -[Cmult (Cmult b c) a]/(b * c * a); by cring.
Qed.
Lemma Cmod_plane G x y : Cmod (planewave G x y) = 1%Re.
Proof.
rewrite /planewave; move: (_ + _)%Re => t; rewrite /Cmod; cbn [fst snd pow].
have -> : (cos t * (cos t * 1) + - sin t * (- sin t * 1) = 1)%Re.
  by have := sin2_cos2 t; rewrite /Rsqr; lra.
exact: sqrt_1.
Qed.
Lemma CmodM (z w : C) : Cmod (z * w) = (Cmod z * Cmod w)%Re.
Proof. exact: Cmod_mult. Qed.
Lemma CmodD (z w : C) : (Cmod (z + w)%R <= Cmod z + Cmod w)%Re.
Proof. exact: Cmod_triangle. Qed.

Lemma rectangle_exact l0 l1 u0 u1 (G : vec2) s : s <> 0%Re ->
  off_small_branch (G.1 * (u0 - l0))%Re -> off_small_branch (G.2 * (u1 - l1))%Re ->
  transform_rectangle l0 l1 u0 u1 G.1 G.2 s = RtoC (/ s)%Re * rect_integral l0 l1 u0 u1 G.
Proof. by move=> s0 h1 h2; rewrite rectangleE // !fexpz_off. Qed.
Lemma rectangle_close l0 l1 u0 u1 (G : vec2) s : s <> 0%Re ->
  (Cmod (transform_rectangle l0 l1 u0 u1 G.1 G.2 s - RtoC (/ s)%Re * rect_integral l0 l1 u0 u1 G)%R
   <= Rabs ((u0 - l0) * (u1 - l1) / s) * / 10 ^ 18)%Re.
Proof.
move=> s0; rewrite rectangleE // /rect_integral.
have c1 := fexpz_close (G.1 * (u0 - l0)); have c2 := fexpz_close (G.2 * (u1 - l1)).
have m1 := sincint_le1 (G.1 * (u0 - l0)); have m2 := sincint_le1 (G.2 * (u1 - l1)).
have pw := Cmod_plane G l0 l1.
move: (fexpz _) (fexpz _) (sincint _) (sincint _) (planewave _ _ _) c1 c2 m1 m2 pw => f2 f1 e2 e1 w c1 c2 m1 m2 pw.
move: (u0 - l0)%Re (u1 - l1)%Re => a b.
have -> : RtoC (/ s)%Re * (RtoC a * f1 * (RtoC b * f2 * w)) - RtoC (/ s)%Re * (RtoC a * e1 * (RtoC b * e2 * w)) =
  RtoC (a * b / s)%Re * w * (e1 * (f2 - e2) + (f1 - e1) * e2 + (f1 - e1) * (f2 - e2)).
  rewrite /Rdiv !RtoC_mult; move: (RtoC (/ s)%Re) (RtoC a) (RtoC b) => si ca cb.
  rewrite -[Cmult (Cmult ca cb) si]/(ca * cb * si); by cring.
rewrite !CmodM Cmod_R pw Rmult_1_r; apply: Rmult_le_compat_l; first exact: Rabs_pos.
have p1 := Cmod_ge_0 (f1 - e1); have p2 := Cmod_ge_0 (f2 - e2).
have q1 := Cmod_ge_0 e1; have q2 := Cmod_ge_0 e2.
have t1 := CmodD (e1 * (f2 - e2) + (f1 - e1) * e2) ((f1 - e1) * (f2 - e2)).
have t2 := CmodD (e1 * (f2 - e2)) ((f1 - e1) * e2).
rewrite !CmodM in t1 t2.
have a1 : (Cmod e1 * Cmod (f2 - e2)%R <= 1 * tiny)%Re by apply: Rmult_le_compat.
have a2 : (Cmod (f1 - e1)%R * Cmod e2 <= tiny * 1)%Re by apply: Rmult_le_compat.
have a3 : (Cmod (f1 - e1)%R * Cmod (f2 - e2)%R <= tiny * tiny)%Re by apply: Rmult_le_compat.
have : (1 * tiny + tiny * 1 + tiny * tiny <= / 10 ^ 18)%Re by rewrite /tiny; lra.
move=> h; apply: Rle_trans t1 _; apply: Rle_trans h; apply: Rplus_le_compat => //.
by apply: Rle_trans t2 _; exact: Rplus_le_compat.
Qed.
Lemma rectangle_zero l0 l1 u0 u1 s : s <> 0%Re ->
  transform_rectangle l0 l1 u0 u1 0 0 s = RtoC ((u0 - l0) * (u1 - l1) / s)%Re.
Proof.
move=> s0; have -> : transform_rectangle l0 l1 u0 u1 0 0 s = transform_rectangle l0 l1 u0 u1 (0%Re, 0%Re).1 (0%Re, 0%Re).2 s by [].
rewrite rectangle_exact //=; [|by left; ring|by left; ring].
rewrite /rect_integral /= !Rmult_0_l /sincint; destruct (Req_EM_T 0 0) as [e|e] => //.
rewrite /planewave /= !Rmult_0_l Rplus_0_l cos_0 sin_0.
by apply: C_ext => /=; field.
Qed.

(** The indicator of a rectangle inside the cell. *)
Lemma inside_piece (f : R -> C) (p : R -> bool) L l u v : (0 <= l)%Re -> (l <= u)%Re -> (u <= L)%Re ->
  (forall x, (l <= x < u)%Re -> p x) -> (forall x, (x < l)%Re \/ (u <= x)%Re -> p x = false) ->
  cint f l u v -> cint (fun x => (if p x then 1 else 0) * f x) 0 L v.
Proof.
move=> l0 lu uL pin pout h.
have -> : v = 0 + v + 0 by rewrite add0r addr0.
apply: (@cint_chasles _ 0%Re u); first (apply: (@cint_chasles _ 0%Re l)).
- apply: cint_ext (cint0 0%Re l) => x; rewrite Rmin_left // Rmax_right // => hx.
  by rewrite pout ?mul0r //; left; lra.
- apply: cint_ext h => x; rewrite Rmin_left // Rmax_right // => hx.
  by rewrite pin ?mul1r //; lra.
apply: cint_ext (cint0 u L) => x; rewrite Rmin_left // Rmax_right // => hx.
by rewrite pout ?mul0r //; right; lra.
Qed.
Lemma rect_indicator Lx Ly l0 l1 u0 u1 G : (0 <= l0)%Re -> (l0 <= u0)%Re -> (u0 <= Lx)%Re ->
  (0 <= l1)%Re -> (l1 <= u1)%Re -> (u1 <= Ly)%Re ->
  cint2 (fun x y => indicator (in_rect (l0, l1, u0, u1)) x y * planewave G x y) 0 Lx 0 Ly
    (rect_integral l0 l1 u0 u1 G).
Proof.
move=> a1 a2 a3 b1 b2 b3.
set py := fun y => (if Rle_dec l1 y then true else false) && (if Rlt_dec y u1 then true else false).
set px := fun x => (if Rle_dec l0 x then true else false) && (if Rlt_dec x u0 then true else false).
have pxi x : (l0 <= x < u0)%Re -> px x.
  by rewrite /px => h; case: Rle_dec => h1; [|lra]; case: Rlt_dec => h2; [|lra].
have pyi x : (l1 <= x < u1)%Re -> py x.
  by rewrite /py => h; case: Rle_dec => h1; [|lra]; case: Rlt_dec => h2; [|lra].
have pxo x : (x < l0)%Re \/ (u0 <= x)%Re -> px x = false.
  by rewrite /px => h; case: Rle_dec => h1 //; case: Rlt_dec => h2 //; lra.
have pyo x : (x < l1)%Re \/ (u1 <= x)%Re -> py x = false.
  by rewrite /py => h; case: Rle_dec => h1 //; case: Rlt_dec => h2 //; lra.
set k := RtoC (u0 - l0)%Re * sincint (G.1 * (u0 - l0))%Re.
exists (fun y => (if py y then 1 else 0) * (k * planewave G l0 y)); split; last first.
  by apply: (@inside_piece _ _ Ly l1 u1) => //; apply: cintZ; exact: wave_over_y.
move=> y; have h := @inside_piece _ px Lx l0 u0 _ a1 a2 a3 pxi pxo (wave_over_x G l0 u0 y).
apply: cint_ext (cintZ (if py y then 1 else 0) h) => x _.
rewrite mulrA; congr (_ * _); rewrite /indicator /in_rect -/(px x) -/(py y).
by case: (px x); case: (py y); rewrite ?mulr1 ?mulr0.
Qed.
