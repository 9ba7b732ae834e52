(** The paraxial wave equation. *)
From Coq Require Import Reals ZArith Lra Lia.
From mathcomp Require Import all_ssreflect all_algebra.
From Coquelicot Require Import Complex Hierarchy Derive AutoDerive ElemFct.
From Verif Require Import Base CField CFun RField ModelExpansion ModelBeams SpecBeams BeamProofs.
Set Implicit Arguments. Unset Strict Implicit. Unset Printing Implicit Defensive.
Import GRing.Theory.
Local Open Scope ring_scope.

Lemma deriv_ext f g x d : (forall t, f t = g t) -> has_deriv f x d -> has_deriv g x d.
Proof.
move=> h [h1 h2]; split.
  by apply: is_derive_ext h1 => t; rewrite h.
by apply: is_derive_ext h2 => t; rewrite h.
Qed.
Lemma deriv_eq f x d e : d = e -> has_deriv f x d -> has_deriv f x e. Proof. by move->. Qed.
Lemma deriv_const (c : C) x : has_deriv (fun _ => c) x 0.
Proof. by split; apply: is_derive_const. Qed.
Lemma der_eq (f : R -> R) (x d e : R) : is_derive f x d -> d = e -> is_derive f x e. Proof. by move=> h <-. Qed.
Lemma der_ext (f g : R -> R) (x d e : R) : is_derive f x d -> (forall t, f t = g t) -> d = e -> is_derive g x e.
Proof. by move=> h hfg <-; apply: is_derive_ext h. Qed.
Lemma deriv_mul f g x d e : has_deriv f x d -> has_deriv g x e ->
  has_deriv (fun t => f t * g t) x (d * g x + f x * e).
Proof.
move=> [f1 f2] [g1 g2]; split.
  have h := is_derive_minus _ _ _ _ _ (Derive.is_derive_mult _ _ _ _ _ f1 g1) (Derive.is_derive_mult _ _ _ _ _ f2 g2).
  by apply: (der_ext h) => [t|]; rewrite /minus /plus /opp /mult /=; ring.
have h := is_derive_plus _ _ _ _ _ (Derive.is_derive_mult _ _ _ _ _ f1 g2) (Derive.is_derive_mult _ _ _ _ _ f2 g1).
by apply: (der_ext h) => [t|]; rewrite /minus /plus /opp /mult /=; ring.
Qed.
Lemma deriv_exp f x d : has_deriv f x d -> has_deriv (fun t => cexp (f t)) x (d * cexp (f x)).
Proof.
move=> [f1 f2].
have he := is_derive_comp exp (fun t => fst (f t)) x _ _ (is_derive_exp (fst (f x))) f1.
have hc := is_derive_comp cos (fun t => snd (f t)) x _ _ (is_derive_cos (snd (f x))) f2.
have hs := is_derive_comp sin (fun t => snd (f t)) x _ _ (is_derive_sin (snd (f x))) f2.
have h1 := Derive.is_derive_mult _ _ _ _ _ he hc; have h2 := Derive.is_derive_mult _ _ _ _ _ he hs.
split.
  by apply: (der_ext h1) => [t|]; rewrite /scal /= /mult /=; ring.
by apply: (der_ext h2) => [t|]; rewrite /scal /= /mult /=; ring.
Qed.
Lemma deriv_add f g x d e : has_deriv f x d -> has_deriv g x e -> has_deriv (fun t => f t + g t) x (d + e).
Proof. by move=> [f1 f2] [g1 g2]; split; [exact: (is_derive_plus _ _ _ _ _ f1 g1)|exact: (is_derive_plus _ _ _ _ _ f2 g2)]. Qed.
Lemma deriv_unique f x d e : has_deriv f x d -> has_deriv f x e -> d = e.
Proof.
move=> [d1 d2] [e1 e2]; apply: C_ext.
  by rewrite -(is_derive_unique _ _ _ d1) (is_derive_unique _ _ _ e1).
by rewrite -(is_derive_unique _ _ _ d2) (is_derive_unique _ _ _ e2).
Qed.

Section Vacuum.
Variables (wl w0 : R).
Hypotheses (wl0 : wl <> 0%Re) (w00 : w0 <> 0%Re).
Let zr := rayleigh w0 1 wl.
Let k := (2 * PI / wl)%Re.
Lemma zr1 : zr <> 0%Re. Proof. by apply: rayleigh_neq0 => //; lra. Qed.
Lemma zr_k : (k / zr = 2 / (w0 * w0))%Re.
Proof. by rewrite /k /zr /rayleigh sqrt_1; field; repeat split => //; exact: PI_neq0. Qed.
Definition recip (z : R) : C := ((zr * zr / (zr * zr + z * z))%Re, (- (z * zr) / (zr * zr + z * z))%Re).
Lemma den0 z : (0 < zr * zr + z * z)%Re.
Proof. have := zr1; nra. Qed.
Lemma recip_polar z : RtoC (/ spread wl w0 1 z)%Re * cexp (ci * RtoC (- atan (z / zr))%Re) = recip z.
Proof.
have s1 := spread_ge1 wl w0 1 z; have s2 := spread_sq wl w0 1 z; rewrite -/zr in s2.
rewrite cexp_i cos_neg sin_neg cos_atan sin_atan /Rsqr.
have -> : sqrt (1 + z / zr * (z / zr)) = spread wl w0 1 z by [].
have d := den0 z; have z1 := zr1.
have e : (/ spread wl w0 1 z * / spread wl w0 1 z = zr * zr / (zr * zr + z * z))%Re.
  rewrite -Rinv_mult_distr; [|lra|lra]; rewrite s2; field; split => //; nra.
apply: C_ext => /=.
  by rewrite -e; field; lra.
transitivity (- (z / zr) * (/ spread wl w0 1 z * / spread wl w0 1 z))%Re; first by field; lra.
by rewrite e; field; split => //; nra.
Qed.
Lemma gaussian_vacuum x y z : gaussian_ex x y z wl w0 1 =
  recip z * cexp (RtoC (- ((x * x + y * y) / (w0 * w0)))%Re * recip z) * cexp (ci * RtoC (k * z)%Re).
Proof.
rewrite -recip_polar /gaussian_ex -/zr -/k radius_sq -/(spread wl w0 1 z).
have s1 := spread_ge1 wl w0 1 z; have s2 := spread_sq wl w0 1 z; rewrite -/zr in s2.
have d := den0 z; have z1 := zr1.
have -> : (w0 / (w0 * spread wl w0 1 z) = / spread wl w0 1 z)%Re by field; lra.
set ph := atan _.
have -> : RtoC (- ((x * x + y * y) / (w0 * w0)))%Re * (RtoC (/ spread wl w0 1 z)%Re * cexp (ci * RtoC (- ph)%Re)) =
  RtoC (- (x * x + y * y) / (w0 * spread wl w0 1 z * (w0 * spread wl w0 1 z)))%Re +
  ci * RtoC (k * (x * x + y * y) / 2 * z / (z * z + zr * zr))%Re.
  rewrite recip_polar.
  have -> : (w0 * spread wl w0 1 z * (w0 * spread wl w0 1 z) = w0 * w0 * (1 + z / zr * (z / zr)))%Re by rewrite -s2; ring.
  have -> : (k = 2 / (w0 * w0) * zr)%Re by rewrite -zr_k; field.
  by apply: C_ext => /=; field; repeat split => //; nra.
rewrite cexpD.
have -> : cexp (ci * RtoC (k * z + k * (x * x + y * y) / 2 * z / (z * z + zr * zr) - ph)%Re) =
  cexp (ci * RtoC (k * z)%Re) * cexp (ci * RtoC (k * (x * x + y * y) / 2 * z / (z * z + zr * zr))%Re) * cexp (ci * RtoC (- ph)%Re).
  by rewrite -!cexpD; congr cexp; apply: C_ext => /=; ring.
have -> (t : R) : cexp (RtoC t) = RtoC (exp t).
  by apply: C_ext => /=; rewrite ?cos_0 ?sin_0; ring.
move: (cexp _) (cexp _) (cexp _) (RtoC _) (RtoC _) => *; cring.
Qed.
Lemma envelope_vacuum x y z : envelope (wavenumber wl 1) (fun x y z => gaussian_ex x y z wl w0 1) x y z =
  recip z * cexp (RtoC (- ((x * x + y * y) / (w0 * w0)))%Re * recip z).
Proof.
have e : wavenumber wl 1 = k by rewrite /wavenumber sqrt_1 /k; field.
rewrite /envelope gaussian_vacuum e -mulrA -cexpD.
have -> : ci * RtoC (k * z)%Re + - ci * RtoC (k * z)%Re = 0 by apply: C_ext => /=; ring.
by rewrite cexp0 mulr1.
Qed.
Lemma recip_deriv z : has_deriv recip z (- ci * RtoC (/ zr)%Re * recip z * recip z).
Proof.
have d := den0 z; have z1 := zr1.
split; rewrite /recip /=.
  by auto_derive; [lra|field; split => //; lra].
by auto_derive; [lra|field; split => //; lra].
Qed.
Lemma real_deriv (f : R -> R) x d : is_derive f x d -> has_deriv (fun t => RtoC (f t)) x (RtoC d).
Proof. by move=> h; split => //=; apply: is_derive_const. Qed.
Lemma square_deriv (c x : R) : is_derive (fun t => - ((t * t + c) / (w0 * w0)))%Re x (- (2 * x / (w0 * w0)))%Re.
Proof. by auto_derive => //; field. Qed.
Lemma transverse (c : R) (Q : C) x :
  let f t := Q * cexp (RtoC (- ((t * t + c) / (w0 * w0)))%Re * Q) in
  second_deriv f x ((RtoC (- (2 / (w0 * w0)))%Re * Q + RtoC (4 * x * x / (w0 * w0 * (w0 * w0)))%Re * Q * Q) * f x).
Proof.
move=> f.
have d1 t : has_deriv f t (RtoC (- (2 * t / (w0 * w0)))%Re * Q * f t).
  apply: (@deriv_eq _ _ (0 * cexp (RtoC (- ((t * t + c) / (w0 * w0)))%Re * Q) + Q * ((RtoC (- (2 * t / (w0 * w0)))%Re * Q + RtoC (- ((t * t + c) / (w0 * w0)))%Re * 0) * cexp (RtoC (- ((t * t + c) / (w0 * w0)))%Re * Q)))).
    by rewrite /f; move: (cexp _) => w; cring.
  apply: deriv_mul; first exact: deriv_const.
  apply: (@deriv_exp (fun t => RtoC (- ((t * t + c) / (w0 * w0)))%Re * Q)).
  apply: (@deriv_mul (fun t => RtoC (- ((t * t + c) / (w0 * w0)))%Re) (fun _ => Q)); last exact: deriv_const.
  exact: real_deriv (square_deriv _ _).
exists (fun t => RtoC (- (2 * t / (w0 * w0)))%Re * Q * f t); first exact: d1.
have l1 : has_deriv (fun t => RtoC (- (2 * t / (w0 * w0)))%Re * Q) x (RtoC (- (2 / (w0 * w0)))%Re * Q + RtoC (- (2 * x / (w0 * w0)))%Re * 0).
  apply: (@deriv_mul (fun t => RtoC (- (2 * t / (w0 * w0)))%Re) (fun _ => Q)); last exact: deriv_const.
  by apply: real_deriv; auto_derive => //; field.
apply: deriv_eq; last exact: (deriv_mul l1 (d1 x)).
have -> : RtoC (4 * x * x / (w0 * w0 * (w0 * w0)))%Re = RtoC (- (2 * x / (w0 * w0)))%Re * RtoC (- (2 * x / (w0 * w0)))%Re.
  by rewrite mulCE -RtoC_mult; congr RtoC; field.
by move: (f x) (RtoC _) (RtoC _) => w *; cring.
Qed.
Lemma vacuum_paraxial x y z : paraxial_at (wavenumber wl 1) (fun x y z => gaussian_ex x y z wl w0 1) x y z.
Proof.
have z1 := zr1.
pose u := recip z * cexp (RtoC (- ((x * x + y * y) / (w0 * w0)))%Re * recip z).
pose Q := recip z; pose rho := RtoC (- ((x * x + y * y) / (w0 * w0)))%Re.
exists (- ci * RtoC (/ zr)%Re * Q * (1 + rho * Q) * u).
exists ((RtoC (- (2 / (w0 * w0)))%Re * Q + RtoC (4 * x * x / (w0 * w0 * (w0 * w0)))%Re * Q * Q) * u).
exists ((RtoC (- (2 / (w0 * w0)))%Re * Q + RtoC (4 * y * y / (w0 * w0 * (w0 * w0)))%Re * Q * Q) * u).
split.
- apply: (deriv_ext (fun t => esym (envelope_vacuum x y t))).
  apply: deriv_eq; last first.
    apply: deriv_mul; first exact: recip_deriv.
    apply: (@deriv_exp (fun t => rho * recip t)).
    by apply: deriv_mul; [exact: deriv_const|exact: recip_deriv].
  rewrite /u -/Q -/rho; move: (cexp _) => w; cring.
- have [f' h1 h2] := transverse (y * y)%Re Q x; exists f' => // t.
  by apply: deriv_ext (h1 t) => s; rewrite envelope_vacuum.
- have [f' h1 h2] := transverse (x * x)%Re Q y; exists f'.
    by move=> t; apply: deriv_ext (h1 t) => s; rewrite envelope_vacuum Rplus_comm.
  by move: h2; rewrite /u (Rplus_comm (y * y)).
have e : wavenumber wl 1 = (2 / (w0 * w0) * zr)%Re.
  by rewrite -zr_k /wavenumber sqrt_1 /k; field; split => //; exact: zr1.
rewrite e.
have h1 : RtoC (2 * (2 / (w0 * w0) * zr))%Re * ci * (- ci * RtoC (/ zr)%Re) = RtoC (4 / (w0 * w0))%Re.
  by apply: C_ext => /=; field.
have h2 : RtoC (4 * x * x / (w0 * w0 * (w0 * w0)))%Re + RtoC (4 * y * y / (w0 * w0 * (w0 * w0)))%Re =
  - (RtoC (4 / (w0 * w0))%Re * rho).
  by apply: C_ext => /=; field.
have h3 : RtoC (4 / (w0 * w0))%Re = - (RtoC (- (2 / (w0 * w0)))%Re + RtoC (- (2 / (w0 * w0)))%Re).
  by apply: C_ext => /=; field.
transitivity ((RtoC (2 * (2 / (w0 * w0) * zr))%Re * ci * (- ci * RtoC (/ zr)%Re) * (Q + rho * Q * Q) +
  (RtoC (- (2 / (w0 * w0)))%Re + RtoC (- (2 / (w0 * w0)))%Re) * Q +
  (RtoC (4 * x * x / (w0 * w0 * (w0 * w0)))%Re + RtoC (4 * y * y / (w0 * w0 * (w0 * w0)))%Re) * Q * Q) * u).
  by move: (RtoC _) (RtoC _) (RtoC _) (RtoC _) (RtoC _) => *; cring.
rewrite h1 h2 h3; move: (RtoC _) => c.
by cring.
Qed.
End Vacuum.

(** In a medium. *)
Lemma phase_deriv (k q z : R) : z <> 0%Re -> is_derive (fun t => k * t - atan (t / z) - q * t)%Re 0 (k - / z - q)%Re.
Proof.
move=> z0; auto_derive => //.
by rewrite !Rmult_0_l Rplus_0_r Rinv_1; ring.
Qed.
Lemma width_deriv (z : R) : is_derive (fun t => / sqrt (1 + t / z * (t / z)))%Re 0 0%Re.
Proof.
auto_derive; rewrite !(Rmult_0_l, Rplus_0_r) ?sqrt_1; first by repeat split; lra.
by rewrite !(Rmult_0_r, Rmult_0_l, Ropp_0).
Qed.
Section Medium.
Variables (wl w0 er : R).
Hypotheses (wl0 : wl <> 0%Re) (w00 : w0 <> 0%Re) (er0 : (0 < er)%Re).
Let zr := rayleigh w0 er wl.
Let k := (2 * PI / wl)%Re.
Let q := wavenumber wl er.
Let E x y z := gaussian_ex x y z wl w0 er.
Lemma zrm : zr <> 0%Re. Proof. exact: rayleigh_neq0. Qed.
Lemma axis_x t : envelope q E t 0 0 = RtoC (exp (- (t * t / (w0 * w0)))).
Proof.
rewrite /envelope /E /gaussian_ex radius_sq -/zr.
have -> : (0 / zr = 0)%Re by field; exact: zrm.
have z1 := zrm.
have -> : (2 * PI / wl * (t * t + 0 * 0) / 2 * 0 / (0 * 0 + zr * zr) = 0)%Re by field; split => //; nra.
rewrite atan_0 !(Rmult_0_l, Rmult_0_r, Rplus_0_r, Rminus_0_r) sqrt_1 Rmult_1_r.
rewrite !mulr0 cexp0 !mulr1.
have -> : (w0 / w0 = 1)%Re by field.
by rewrite mul1r; congr (RtoC (exp _)); field.
Qed.
Lemma axis_y t : envelope q E 0 t 0 = RtoC (exp (- (t * t / (w0 * w0)))).
Proof.
rewrite -axis_x /envelope /E /gaussian_ex.
by have -> : (0 * 0 + t * t = t * t + 0 * 0)%Re by ring.
Qed.
Lemma axis_z t : envelope q E 0 0 t = RtoC (/ sqrt (1 + t / zr * (t / zr)))%Re * cexp (ci * RtoC (k * t - atan (t / zr) - q * t)%Re).
Proof.
rewrite /envelope /E /gaussian_ex radius_sq -/zr -/k.
have s1 := spread_ge1 wl w0 er t; rewrite /spread -/zr in s1; set s := sqrt _ in s1 *.
have -> : (w0 / (w0 * s) = / s)%Re by field; lra.
have -> : (- (0 * 0 + 0 * 0) / (w0 * s * (w0 * s)) = 0)%Re by field; lra.
rewrite exp_0 mulr1 -mulrA -cexpD; congr (_ * cexp _).
have -> : (k * (0 * 0 + 0 * 0) / 2 * t / (t * t + zr * zr) = 0)%Re by field; have := zrm; nra.
by apply: C_ext => /=; ring.
Qed.
Lemma gauss_second f d : (forall t, f t = RtoC (exp (- (t * t / (w0 * w0))))) -> second_deriv f 0 d -> d = RtoC (- (2 / (w0 * w0)))%Re.
Proof.
move=> hf [f' h1 h2].
have d1 t : f' t = RtoC (- (2 * t / (w0 * w0)) * exp (- (t * t / (w0 * w0))))%Re.
  apply: deriv_unique (h1 t) _; apply: (deriv_ext (fun s => esym (hf s))); apply: real_deriv.
  by auto_derive => //; rewrite /Rdiv; ring.
apply: deriv_unique h2 _; apply: (deriv_ext (fun s => esym (d1 s))); apply: real_deriv.
auto_derive => //; rewrite -/(Rdiv _ _).
have -> : (- (0 * 0 / (w0 * w0)) = 0)%Re by field.
by rewrite exp_0; field.
Qed.
Lemma axis_z_deriv d : has_deriv (fun t => envelope q E 0 0 t) 0 d -> d = (0%Re, (k - / zr - q)%Re).
Proof.
move=> h; apply: deriv_unique h _; apply: (deriv_ext (fun s => esym (axis_z s))).
have z1 := zrm.
have hs := width_deriv zr; have hp := phase_deriv k q z1.
apply: deriv_eq; last first.
  apply: deriv_mul; first exact: (real_deriv hs).
  apply: (@deriv_exp (fun t => ci * RtoC (k * t - atan (t / zr) - q * t)%Re)).
  by apply: deriv_mul; [exact: deriv_const|exact: (real_deriv hp)].
have -> : (0 / zr = 0)%Re by field.
rewrite atan_0 !Rmult_0_r !Rminus_0_r Rplus_0_r sqrt_1 mulr0 cexp0.
by apply: C_ext => /=; field.
Qed.
Lemma medium_paraxial : paraxial_at q E 0 0 0 -> er = 1%Re.
Proof.
move=> [dz [dxx [dyy [h1 h2 h3]]]].
rewrite (axis_z_deriv h1) (gauss_second axis_x h2) (gauss_second axis_y h3) => e.
have {}e := congr1 fst e; rewrite /= in e.
have {}e : (2 * q * (k - / zr - q) + 4 / (w0 * w0) = 0)%Re by move: e; rewrite /Rdiv; lra.
have s0 : (0 < sqrt er)%Re by apply: sqrt_lt_R0.
have hq : (q = k * sqrt er)%Re by rewrite /q /k /wavenumber; field.
have P0 := PI_neq0.
have hz : (q * / zr = 2 / (w0 * w0))%Re by rewrite /q /zr /wavenumber /rayleigh; field; repeat split => //; lra.
have k0 : k <> 0%Re.
  by rewrite /k /Rdiv; do ! apply: Rmult_integral_contrapositive_currified => //; try lra; apply: Rinv_neq_0_compat.
have : (2 * (k * k) * sqrt er * (1 - sqrt er) = 0)%Re.
  transitivity (2 * q * (k - / zr - q) + 2 * (q * / zr))%Re; first by rewrite hq; ring.
  by rewrite hz; move: e; rewrite /Rdiv; lra.
move=> h; have {}h : (1 - sqrt er = 0)%Re.
  case: (Rmult_integral _ _ h) => // {}h; case: (Rmult_integral _ _ h); nra.
by rewrite -(sqrt_sqrt er); [have -> : (sqrt er = 1)%Re by lra|lra]; ring.
Qed.
End Medium.
