(** Integrals over a circle and over a disc: Bessel's integrals. *)
From Coq Require Import Reals Lra Psatz.
From Coquelicot Require Import Coquelicot.
Open Scope R_scope.

(** The continuity used everywhere below. *)
Lemma cont_any f : (forall t, continuous f t) -> forall a b, ex_RInt (V := R_CompleteNormedModule) f a b.
Proof. intros h a b; apply (ex_RInt_continuous (V := R_CompleteNormedModule)); auto. Qed.
Ltac cont := intros; apply (ex_derive_continuous (K := R_AbsRing) (V := R_NormedModule)); auto_derive; auto.

Ltac eqR := match goal with |- @eq _ ?a ?b => change (@eq R a b) end.

(** * Periodic functions *)
Section Periodic.
Variable f : R -> R.
Hypothesis cf : forall t, continuous f t.
Hypothesis per : forall t, f (t + 2 * PI) = f t.
Lemma RInt_shift a b d : RInt (fun t => f (t + d)) a b = RInt f (a + d) (b + d).
Proof.
replace (a + d) with (1 * a + d) by ring; replace (b + d) with (1 * b + d) by ring.
rewrite <- (RInt_comp_lin f 1 d a b) by (apply cont_any; auto).
apply RInt_ext; intros t _; unfold scal; simpl; unfold mult; simpl; rewrite !Rmult_1_l; reflexivity.
Qed.
Lemma RInt_period d : RInt (fun t => f (t + d)) 0 (2 * PI) = RInt f 0 (2 * PI).
Proof.
rewrite RInt_shift, Rplus_0_l.
assert (e : RInt f 0 d = RInt f (2 * PI) (2 * PI + d)).
{ replace (2 * PI) with (0 + 2 * PI) at 1 by ring; replace (2 * PI + d) with (d + 2 * PI) by ring.
  rewrite <- RInt_shift; apply RInt_ext; intros; symmetry; apply per. }
assert (c1 := RInt_Chasles f 0 d (2 * PI + d) (cont_any f cf _ _) (cont_any f cf _ _)).
assert (c2 := RInt_Chasles f 0 (2 * PI) (2 * PI + d) (cont_any f cf _ _) (cont_any f cf _ _)).
unfold plus in c1, c2; simpl in c1, c2; lra.
Qed.
End Periodic.

(** * Bessel's integrals *)
Definition int0 (x : R) := RInt (fun t => cos (x * sin t)) 0 (2 * PI).
Definition int1 (x : R) := RInt (fun t => sin t * sin (x * sin t)) 0 (2 * PI).

Lemma sin_per t : sin (t + 2 * PI) = sin t.
Proof. replace (2 * PI) with (2 * INR 1 * PI) by (simpl; ring); apply sin_period. Qed.
Lemma odd_zero x : RInt (fun t => sin (x * sin t)) 0 (2 * PI) = 0.
Proof.
assert (c : forall t, continuous (fun t => sin (x * sin t)) t) by cont.
assert (h := RInt_period _ c (fun t => f_equal (fun y => sin (x * y)) (sin_per t)) PI).
simpl in h; rewrite (RInt_ext _ (fun t => opp (sin (x * sin t)))) in h.
- rewrite (RInt_opp (V := R_CompleteNormedModule)) in h by (apply cont_any, c); unfold opp in h; simpl in h; lra.
- intros t _; rewrite neg_sin; replace (x * - sin t) with (- (x * sin t)) by ring; apply sin_neg.
Qed.
Lemma exact_zero g g' : (forall t, is_derive g t (g' t)) -> (forall t, continuous g' t) -> g (2 * PI) = g 0 -> RInt g' 0 (2 * PI) = 0.
Proof.
intros d c e; rewrite (is_RInt_unique _ _ _ (minus (g (2 * PI)) (g 0))).
- rewrite e; unfold minus, plus, opp; simpl; ring.
- apply (is_RInt_derive (V := R_CompleteNormedModule)); auto.
Qed.
Lemma int1_bessel x : RInt (fun t => cos (t - x * sin t)) 0 (2 * PI) = int1 x.
Proof.
rewrite (RInt_ext _ (fun t => plus (cos t * cos (x * sin t)) (sin t * sin (x * sin t)))).
2: { intros t _; rewrite cos_minus; reflexivity. }
rewrite (RInt_plus (V := R_CompleteNormedModule)) by (apply cont_any; cont).
replace (RInt (fun t => cos t * cos (x * sin t)) 0 (2 * PI)) with 0.
- unfold plus, int1; simpl; ring.
- destruct (Req_EM_T x 0) as [->|nz].
  + rewrite (RInt_ext _ cos) by (intros t _; change (cos t * cos (0 * sin t) = cos t); rewrite Rmult_0_l, cos_0; ring).
    symmetry; apply (exact_zero sin cos); [intros; auto_derive; auto; ring|cont|rewrite sin_2PI, sin_0; reflexivity].
  + symmetry; apply (exact_zero (fun t => sin (x * sin t) / x)); [intros; auto_derive; auto; field; auto|cont|].
    rewrite sin_2PI, sin_0; reflexivity.
Qed.
(** (x int1)' = x int0. *)
Lemma int1_derive x : is_derive int1 x (RInt (fun t => sin t * sin t * cos (x * sin t)) 0 (2 * PI)).
Proof.
unfold int1.
assert (d : forall u t, Derive (fun u => sin t * sin (u * sin t)) u = sin t * sin t * cos (u * sin t)).
{ intros u t; apply is_derive_unique; auto_derive; auto; ring. }
rewrite (RInt_ext _ (fun t => Derive (fun u => sin t * sin (u * sin t)) x)) by (intros; rewrite d; reflexivity).
apply (is_derive_RInt_param (fun u t => sin t * sin (u * sin t)) 0 (2 * PI) x).
- apply filter_forall; intros u t _; auto_derive; auto.
- intros t _; apply (continuity_2d_pt_ext (fun u v => (sin v * sin v) * cos (u * sin v))); [intros; rewrite d; reflexivity|].
  assert (s : continuity_2d_pt (fun _ v => sin v) x t).
  { apply (continuity_1d_2d_pt_comp sin (fun _ v => v)); [apply continuity_sin|apply continuity_2d_pt_id2]. }
  apply continuity_2d_pt_mult; [apply continuity_2d_pt_mult; auto|].
  apply (continuity_1d_2d_pt_comp cos (fun u v => u * sin v)); [apply continuity_cos|].
  apply continuity_2d_pt_mult; [apply continuity_2d_pt_id1|auto].
- apply filter_forall; intros u; apply cont_any; cont.
Qed.
Lemma RInt_lin a b f g u v : (forall t, continuous f t) -> (forall t, continuous g t) ->
  RInt (fun t => a * f t + b * g t) u v = a * RInt f u v + b * RInt g u v.
Proof.
intros cf cg; apply (is_RInt_unique (V := R_CompleteNormedModule)).
apply (is_RInt_plus (V := R_NormedModule) (fun t => a * f t) (fun t => b * g t));
  apply (is_RInt_scal (V := R_NormedModule)); apply (RInt_correct (V := R_CompleteNormedModule)); apply cont_any; auto.
Qed.
Lemma bessel_rule x : is_derive (fun x => x * int1 x) x (x * int0 x).
Proof.
set (f1 := fun t => sin t * sin (x * sin t)); set (f2 := fun t => sin t * sin t * cos (x * sin t)); set (f3 := fun t => cos t * cos t * cos (x * sin t)).
assert (c1 : forall t, continuous f1 t) by (unfold f1; cont).
assert (c2 : forall t, continuous f2 t) by (unfold f2; cont).
assert (c3 : forall t, continuous f3 t) by (unfold f3; cont).
assert (h : RInt (fun t => 1 * f1 t + - x * f3 t) 0 (2 * PI) = 0).
{ apply (exact_zero (fun t => - cos t * sin (x * sin t))); [intros; unfold f1, f3; auto_derive; auto; ring|unfold f1, f3; cont|].
  rewrite sin_2PI, sin_0, !Rmult_0_r, sin_0; eqR; ring. }
rewrite RInt_lin in h by auto.
assert (e : int0 x = 1 * RInt f2 0 (2 * PI) + 1 * RInt f3 0 (2 * PI)).
{ rewrite <- RInt_lin by auto; apply RInt_ext; intros t _; unfold f2, f3; eqR; assert (q := sin2_cos2 t); unfold Rsqr in q.
  transitivity (cos (x * sin t) * (sin t * sin t + cos t * cos t)); [rewrite q; ring|ring]. }
replace (x * int0 x) with (1 * int1 x + x * RInt f2 0 (2 * PI)).
- apply (is_derive_mult (fun x => x) int1 x 1 _); [auto_derive; auto|apply int1_derive|intros; apply Rmult_comm].
- rewrite e; change (int1 x) with (RInt f1 0 (2 * PI)); lra.
Qed.

(** * Integrals over a disc *)
Lemma polar_direction gx gy : (gx <> 0 \/ gy <> 0) -> exists d, gx = sqrt (gx * gx + gy * gy) * sin d /\ gy = sqrt (gx * gx + gy * gy) * cos d.
Proof.
intros nz; assert (p : 0 < gx * gx + gy * gy) by (destruct nz; nra).
set (g := sqrt (gx * gx + gy * gy)); assert (g0 : 0 < g) by (apply sqrt_lt_R0; auto).
assert (gg : g * g = gx * gx + gy * gy) by (apply sqrt_sqrt; lra).
assert (b : -1 <= gy / g <= 1).
{ split; apply (Rmult_le_reg_r g); auto; unfold Rdiv; rewrite Rmult_assoc, Rinv_l, Rmult_1_r; nra. }
assert (ec : cos (acos (gy / g)) = gy / g) by (apply cos_acos; auto).
assert (es : sin (acos (gy / g)) * sin (acos (gy / g)) = gx / g * (gx / g)).
{ assert (q := sin2_cos2 (acos (gy / g))); unfold Rsqr in q; rewrite ec in q.
  assert (gx / g * (gx / g) + gy / g * (gy / g) = 1) by (transitivity ((gx * gx + gy * gy) / (g * g)); [field; lra|rewrite gg; field; lra]).
  lra. }
assert (s0 : 0 <= sin (acos (gy / g))) by (apply sin_ge_0; apply acos_bound).
destruct (Rle_dec 0 gx) as [h|h].
- exists (acos (gy / g)); rewrite ec; split; [|field; lra].
  assert (e : sin (acos (gy / g)) = gx / g).
  { assert (q0 : 0 <= gx / g) by (apply Rmult_le_pos; [auto|apply Rlt_le, Rinv_0_lt_compat; auto]); nra. }
  rewrite e; field; lra.
- exists (- acos (gy / g)); rewrite cos_neg, sin_neg, ec; split; [|field; lra].
  assert (e : sin (acos (gy / g)) = - (gx / g)).
  { assert (q0 : 0 <= - (gx / g)) by (replace (- (gx / g)) with ((- gx) / g) by (field; lra); apply Rmult_le_pos; [lra|apply Rlt_le, Rinv_0_lt_compat; auto]); nra. }
  rewrite e; field; lra.
Qed.
Lemma polar_angle gx gy : exists d, gx = sqrt (gx * gx + gy * gy) * sin d /\ gy = sqrt (gx * gx + gy * gy) * cos d.
Proof.
destruct (Req_EM_T gx 0) as [zx|nx]; [destruct (Req_EM_T gy 0) as [zy|ny]|]; [|apply polar_direction; auto|apply polar_direction; auto].
exists 0; rewrite zx, zy, Rmult_0_l, Rplus_0_l, sqrt_0; split; ring.
Qed.
(** A plane wave over a circle. *)
Lemma circle_shift a x d : RInt (fun t => cos (a + x * sin (t + d))) 0 (2 * PI) = cos a * int0 x /\
  RInt (fun t => sin (a + x * sin (t + d))) 0 (2 * PI) = sin a * int0 x.
Proof.
assert (cc : forall t, continuous (fun t => cos (x * sin t)) t) by cont.
assert (cs : forall t, continuous (fun t => sin (x * sin t)) t) by cont.
assert (z := odd_zero x); split.
- rewrite (RInt_period (fun t => cos (a + x * sin t)) ltac:(cont) (fun t => f_equal (fun y => cos (a + x * y)) (sin_per t)) d).
  transitivity (cos a * int0 x + - sin a * RInt (fun t => sin (x * sin t)) 0 (2 * PI)); [|rewrite z; eqR; ring].
  unfold int0; rewrite <- RInt_lin by auto; apply RInt_ext; intros t _; eqR; rewrite cos_plus; ring.
- rewrite (RInt_period (fun t => sin (a + x * sin t)) ltac:(cont) (fun t => f_equal (fun y => sin (a + x * y)) (sin_per t)) d).
  transitivity (sin a * int0 x + cos a * RInt (fun t => sin (x * sin t)) 0 (2 * PI)); [|rewrite z; eqR; ring].
  unfold int0; rewrite <- RInt_lin by auto; apply RInt_ext; intros t _; eqR; rewrite sin_plus; ring.
Qed.
Lemma circle gx gy c0 c1 r : let x := sqrt (gx * gx + gy * gy) * r in let a := gx * c0 + gy * c1 in
  RInt (fun t => cos (gx * (c0 + r * cos t) + gy * (c1 + r * sin t))) 0 (2 * PI) = cos a * int0 x /\
  RInt (fun t => sin (gx * (c0 + r * cos t) + gy * (c1 + r * sin t))) 0 (2 * PI) = sin a * int0 x.
Proof.
intros x a; destruct (polar_angle gx gy) as [d [ex ey]]; destruct (circle_shift a x d) as [h1 h2].
assert (e : forall t, gx * (c0 + r * cos t) + gy * (c1 + r * sin t) = a + x * sin (t + d)).
{ intros t; rewrite sin_plus; transitivity (a + r * (gx * cos t + gy * sin t)); [unfold a; ring|].
  f_equal; replace (gx * cos t + gy * sin t) with (sqrt (gx * gx + gy * gy) * sin d * cos t + sqrt (gx * gx + gy * gy) * cos d * sin t).
  - unfold x; ring.
  - rewrite <- ex, <- ey; reflexivity. }
rewrite <- h1, <- h2; split; apply RInt_ext; intros t _; rewrite e; reflexivity.
Qed.
Lemma int0_cont x : continuous int0 x.
Proof.
apply (ex_derive_continuous (K := R_AbsRing) (V := R_NormedModule)).
exists (RInt (fun t => Derive (fun u => cos (u * sin t)) x) 0 (2 * PI)).
apply (is_derive_RInt_param (fun u t => cos (u * sin t)) 0 (2 * PI) x).
- apply filter_forall; intros u t _; auto_derive; auto.
- intros t _; apply (continuity_2d_pt_ext (fun u v => - sin v * sin (u * sin v))).
  { intros u v; symmetry; apply is_derive_unique; auto_derive; auto; ring. }
  assert (s : continuity_2d_pt (fun _ v => sin v) x t).
  { apply (continuity_1d_2d_pt_comp sin (fun _ v => v)); [apply continuity_sin|apply continuity_2d_pt_id2]. }
  apply continuity_2d_pt_mult; [apply continuity_2d_pt_opp; auto|].
  apply (continuity_1d_2d_pt_comp sin (fun u v => u * sin v)); [apply continuity_sin|].
  apply continuity_2d_pt_mult; [apply continuity_2d_pt_id1|auto].
- apply filter_forall; intros u; apply cont_any; cont.
Qed.
(** A plane wave over a disc of radius [r], in polar coordinates about its centre. *)
Lemma radial k g r : g <> 0 -> RInt (fun s => s * (k * int0 (g * s))) 0 r = k * (r * int1 (g * r) / g).
Proof.
intros g0; apply (is_RInt_unique (V := R_CompleteNormedModule)).
replace (k * (r * int1 (g * r) / g)) with (minus (k * (r * int1 (g * r) / g)) (k * (0 * int1 (g * 0) / g))).
2: { unfold minus, plus, opp; simpl; field; auto. }
apply (is_RInt_derive (V := R_CompleteNormedModule) (fun s => k * (s * int1 (g * s) / g))).
- intros s _; replace (s * (k * int0 (g * s))) with (k / (g * g) * (g * (g * s * int0 (g * s)))) by (field; auto).
  apply (is_derive_ext (fun s => k / (g * g) * (fun x => x * int1 x) (g * s))); [intros; simpl; eqR; field; auto|].
  apply is_derive_scal; apply (is_derive_comp (fun x => x * int1 x) (fun s => g * s)); [apply bessel_rule|].
  auto_derive; auto; ring.
- intros s _; apply (continuous_mult (K := R_AbsRing) (fun s => s) (fun s => k * int0 (g * s))); [apply continuous_id|].
  apply (continuous_mult (K := R_AbsRing) (fun _ => k) (fun s => int0 (g * s))); [apply continuous_const|].
  apply (continuous_comp (fun s => g * s) int0); [cont|apply int0_cont].
Qed.
Lemma radial0 k r : RInt (fun s => s * (k * int0 (0 * s))) 0 r = k * (PI * (r * r)).
Proof.
apply (is_RInt_unique (V := R_CompleteNormedModule)).
assert (e : forall s, int0 (0 * s) = 2 * PI).
{ intros s; unfold int0; rewrite (RInt_ext _ (fun _ => 1)); [rewrite RInt_const; unfold scal; simpl; unfold mult; simpl; ring|].
  intros; rewrite !Rmult_0_l, cos_0; reflexivity. }
replace (k * (PI * (r * r))) with (minus (k * (PI * (r * r))) (k * (PI * (0 * 0)))) by (unfold minus, plus, opp; simpl; ring).
apply (is_RInt_derive (V := R_CompleteNormedModule) (fun s => k * (PI * (s * s)))).
- intros s _; rewrite e; auto_derive; auto; ring.
- intros s _; apply (continuous_ext (fun s => s * (k * (2 * PI)))); [intros; rewrite e; reflexivity|cont].
Qed.
