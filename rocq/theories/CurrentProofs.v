(** Proofs about the currents and fluxes of the T-matrix API. *)
From Coq Require Import Reals ZArith Lra Lia.
From mathcomp Require Import all_ssreflect all_algebra.
From Coquelicot Require Import Complex.
From Verif Require Import Base CField CFun ModelRedheffer RedhefferProofs ModelExpansion ModelFourier Blk ModelTmat SpecTmat TmatProofs
  ModelLattice SpecLattice LatticeProofs LookupProofs.
Set Implicit Arguments. Unset Strict Implicit. Unset Printing Implicit Defensive.
Import GRing.Theory.
Local Open Scope ring_scope.

Lemma sqmodE z : sqmod z = (fst z * fst z + snd z * snd z)%Re.
Proof. by rewrite /sqmod -Cmod_sqr /= Rmult_1_r. Qed.
Lemma real_or_imaginary (K : C) (r : R) : K * K = RtoC r -> snd K = 0%Re \/ fst K = 0%Re.
Proof. by move=> /(congr1 snd) /= h; case: (Rmult_integral (fst K) (snd K)); [nra|right|left]. Qed.

(** One order of an interface. *)
Section OneOrder.
Variables (K K' n n' a b c x y z : C).
Hypotheses (hK : snd K = 0%Re) (hn : snd n = 0%Re) (n0 : n <> 0) (n0' : n' <> 0).
Hypothesis hK' : snd K' = 0%Re \/ fst K' = 0%Re.
Hypothesis hn' : snd n' = 0%Re \/ fst n' = 0%Re /\ fst K' = 0%Re.
Hypotheses (s1 : a + b = c) (s2 : K * (a - b) = K' * c).
Hypotheses (p1 : n * (x + y) = n' * z) (p2 : K / n * (x - y) = K' / n' * z).
Lemma s_energy : (fst K * (sqmod a - sqmod b) = fst K' * sqmod c)%Re.
Proof.
have := congr1 (fun t => fst (t * Cconj (a + b))) s2; rewrite {2}s1 !sqmodE /= hK => h.
have e1 := congr1 fst s1; have e2 := congr1 snd s1; rewrite /= in e1 e2.
rewrite -e1 -e2 in h |- *; nra.
Qed.
Lemma p_energy : (fst K * (sqmod x - sqmod y) = fst K' * sqmod z)%Re.
Proof.
have q : K * (x - y) * Cconj (x + y) = K' * Cconj n' / n' * (z * Cconj z).
  have e1 : K * (x - y) = n * (K' / n' * z).
    by rewrite -p2 mulrA [n * _]mulrC divfK //; apply/eqP.
  have e2 : n * Cconj (x + y) = Cconj n' * Cconj z.
    rewrite -conjCM -p1 conjCM; congr (_ * _); apply: C_ext => /=; rewrite ?hn; ring.
  rewrite e1; have -> : n * (K' / n' * z) * Cconj (x + y) = n * Cconj (x + y) * (K' / n' * z) by toC; ring.
  by rewrite e2; toC; ring.
have := congr1 fst q; rewrite !sqmodE.
case: hn' => [r|[i k]].
  have -> : Cconj n' = n' by apply: C_ext => /=; rewrite ?r; ring.
  rewrite mulfK; last by apply/eqP.
  by rewrite /= hK; nra.
have -> : Cconj n' = - n' by apply: C_ext => /=; rewrite ?i; ring.
rewrite mulrN mulNr mulfK; last by apply/eqP.
by rewrite /= hK k; nra.
Qed.
End OneOrder.

(** The quarters of a vector of amplitudes. *)
Lemma eq_quarters n (P Q : 'cV[C]_((n + n) + (n + n))) :
  (forall a, (a < 4)%N -> forall g, quarter_of P a g 0 = quarter_of Q a g 0) -> P = Q.
Proof.
move=> h; rewrite -(vsubmxK P) -(vsubmxK Q) -(vsubmxK (usubmx P)) -(vsubmxK (dsubmx P)) -(vsubmxK (usubmx Q)) -(vsubmxK (dsubmx Q)).
by congr (col_mx (col_mx _ _) (col_mx _ _)); apply/colP => g;
  [exact: (h 0%N)|exact: (h 1%N)|exact: (h 2%N)|exact: (h 3%N)].
Qed.
Lemma quad_quarters n (f : nat -> nat -> 'I_n -> C) (P : 'cV[C]_((n + n) + (n + n))) a (g : 'I_n) : (a < 4)%N ->
  quarter_of (quad (fun a b => dgf (f a b)) *m P) a g 0 =
  (f a 0%N g * quarter_of P 0 g 0 + f a 1%N g * quarter_of P 1 g 0) + (f a 2%N g * quarter_of P 2 g 0 + f a 3%N g * quarter_of P 3 g 0).
Proof.
rewrite /quad -{1}(vsubmxK P) -(vsubmxK (usubmx P)) -(vsubmxK (dsubmx P)) !mul_block_col.
have dg (h : 'I_n -> C) (q : 'cV[C]_n) : (dgf h *m q) g 0 = h g * q g 0.
  by rewrite /dgf mul_diag_mx !mxE.
have ad (u v : 'cV[C]_n) : (u + v) g 0 = u g 0 + v g 0 by rewrite mxE.
by move: a; apply: below4; rewrite /quarter_of !add_col_mx !(col_mxKu, col_mxKd) !ad !dg.
Qed.

Definition only {n} (g0 : 'I_n) (P : 'cV[C]_((n + n) + (n + n))) : 'cV[C]_((n + n) + (n + n)) :=
  let m a : 'cV[C]_n := \col_g (if g == g0 then quarter_of P a g 0 else 0) in
  col_mx (col_mx (m 0%N) (m 1%N)) (col_mx (m 2%N) (m 3%N)).
Lemma onlyE n (g0 : 'I_n) P a g : (a < 4)%N -> quarter_of (only g0 P) a g 0 = if g == g0 then quarter_of P a g 0 else 0.
Proof. by move: a; apply: below4; rewrite /quarter_of /only !(col_mxKu, col_mxKd) mxE. Qed.

Lemma rotate (X Y p q p' q' : C) : X * X + Y * Y = 1 ->
  (Y * p + X * q = Y * p' + X * q' /\ - X * p + Y * q = - X * p' + Y * q') <-> (p = p' /\ q = q').
Proof.
move=> h; split=> [[h1 h2]|[-> ->]] //.
have e (u v : C) : u = (Y * (Y * u + X * v) - X * (- X * u + Y * v)) by rewrite -[LHS]mul1r -h; toC; ring.
have e' (u v : C) : v = (X * (Y * u + X * v) + Y * (- X * u + Y * v)) by rewrite -[LHS]mul1r -h; toC; ring.
by split; [rewrite (e p q) h1 h2 -e|rewrite (e' p q) h1 h2 -e'].
Qed.
Lemma scl (c x y x' y' : C) : x = y -> c * x = x' -> c * y = y' -> x' = y'.
Proof. by move=> -> <- <-. Qed.
Lemma unscl (c x y x' y' : C) : x' = y' -> c <> 0 -> c * x = x' -> c * y = y' -> x = y.
Proof. by move=> e /eqP h h1 h2; apply: (mulfI h); rewrite h1 h2. Qed.

(** The fields on the two sides of an interface. *)
Section Transfer.
Variables (n : nat) (L : lattice) (wl : R) (kp : vec2) (U V : 'M[C]_((n + n) + (n + n))).
Hypotheses (hU : lattice_U n L wl kp = Ok U) (hV : lattice_Ve n L wl kp = Ok V).
Hypothesis hsq : has_sqrt (l_incid L).
Let ki (g : 'I_n) := compute_kz (l_incid L) wl kp (l_g L g).
Let ke (g : 'I_n) := compute_kz (l_emerg L) wl kp (l_g L g).
Let n1 := cmath_sqrt (l_incid L).
Let n2 := cmath_sqrt (l_emerg L).
Lemma transfer_fields_any P Q : P = U *m V *m Q <-> forall g : 'I_n,
  [/\ quarter_of P 0 g 0 + quarter_of P 2 g 0 = quarter_of Q 0 g 0 + quarter_of Q 2 g 0,
      ki g * (quarter_of P 0 g 0 - quarter_of P 2 g 0) = ke g * (quarter_of Q 0 g 0 - quarter_of Q 2 g 0),
      n1 * (quarter_of P 1 g 0 + quarter_of P 3 g 0) = n2 * (quarter_of Q 1 g 0 + quarter_of Q 3 g 0) &
      ki g / n1 * (quarter_of P 1 g 0 - quarter_of P 3 g 0) = ke g / n2 * (quarter_of Q 1 g 0 - quarter_of Q 3 g 0)].
Proof.
have [hn w0 e0 k0 _] := lattice_UE hU.
have [Vi hVi] : is_ok (lattice_Vi n L wl kp).
  exact: lattice_V_def.
have UV := lattice_UV hU hVi; have VU := mulmx1C UV.
have -> : P = U *m V *m Q <-> Vi *m P = V *m Q.
  split=> [->|h]; first by rewrite -!mulmxA mulmxA VU mul1mx.
  by rewrite -mulmxA -h mulmxA UV mul1mx.
have [_ _ e0' hv] := lattice_VE hV; have [_ _ _ hvi] := lattice_VE hVi.
move: hv hvi; rewrite /matrix_v; case hs : (np_sqrt _) => [s|//]; cbn [bind] => -[<-].
case hs' : (np_sqrt _) => [s'|//]; cbn [bind] => -[<-]; rewrite (np_sqrtE hs) (np_sqrtE hs').
have n10 : n1 <> 0 by apply/eqP; exact: cmath_sqrt_neq0.
have n20 : n2 <> 0 by apply/eqP; exact: cmath_sqrt_neq0.
set V1 := quad _; set V2 := quad _.
have -> : V1 *m P = V2 *m Q <-> forall g a, (a < 4)%N -> quarter_of (V1 *m P) a g 0 = quarter_of (V2 *m Q) a g 0.
  by split=> [-> //|h]; apply: eq_quarters => a ha g; exact: h.
suff key g : (forall a, (a < 4)%N -> quarter_of (V1 *m P) a g 0 = quarter_of (V2 *m Q) a g 0) <->
  [/\ quarter_of P 0 g 0 + quarter_of P 2 g 0 = quarter_of Q 0 g 0 + quarter_of Q 2 g 0,
      ki g * (quarter_of P 0 g 0 - quarter_of P 2 g 0) = ke g * (quarter_of Q 0 g 0 - quarter_of Q 2 g 0),
      n1 * (quarter_of P 1 g 0 + quarter_of P 3 g 0) = n2 * (quarter_of Q 1 g 0 + quarter_of Q 3 g 0) &
      ki g / n1 * (quarter_of P 1 g 0 - quarter_of P 3 g 0) = ke g / n2 * (quarter_of Q 1 g 0 - quarter_of Q 3 g 0)].
  by split=> h g; [exact: (proj1 (key g) (h g))|exact: (proj2 (key g) (h g))].
have four (R : nat -> Prop) : (forall a, (a < 4)%N -> R a) <-> (R 0%N /\ R 1%N) /\ (R 2%N /\ R 3%N).
  by split=> [h|[[? ?] [? ?]]]; [split; split; exact: h|exact: below4].
rewrite four !quad_quarters //=.
have e2 : RtoC (- (udir kp (l_g L g)).1)%Re = - RtoC (udir kp (l_g L g)).1 by apply: C_ext => /=; ring.
have e3 : RtoC (udir kp (l_g L g)).1 * RtoC (udir kp (l_g L g)).1 + RtoC (udir kp (l_g L g)).2 * RtoC (udir kp (l_g L g)).2 = 1.
  by apply: C_ext => /=; have := udir_unit kp (l_g L g); lra.
rewrite !e2 -/n1 -/n2 -/(ki g) -/(ke g).
have m0 : RtoC mu0c <> 0 by move=> /(congr1 fst); exact: mu0c_neq0.
have wc0 : RtoC wl <> 0 by move=> /(congr1 fst).
have tp0 : RtoC twopi <> 0 by move=> /(congr1 fst) /=; have := PI_RGT_0; rewrite /twopi; lra.
move: e3 m0 n10 n20 wc0 tp0; clear; move: (RtoC (udir kp (l_g L g)).1) (RtoC (udir kp (l_g L g)).2) (RtoC mu0c) (RtoC wl) (RtoC twopi) n1 n2 (ki g) (ke g).
move: (quarter_of P 0 g 0) (quarter_of P 1 g 0) (quarter_of P 2 g 0) (quarter_of P 3 g 0).
move: (quarter_of Q 0 g 0) (quarter_of Q 1 g 0) (quarter_of Q 2 g 0) (quarter_of Q 3 g 0).
move=> b0 b1 b2 b3 a0 a1 a2 a3 X Y M W T s t K K' e M0 s0 t0 W0 T0.
have r1 := @rotate X Y (a0 + a2) (K / (s * T / W) * (a3 - a1)) (b0 + b2) (K' / (t * T / W) * (b3 - b1)) e.
have r2 := @rotate Y X (s / M * (K / (s * T / W)) * (a0 - a2)) (s / M * (a1 + a3)) (t / M * (K' / (t * T / W)) * (b0 - b2)) (t / M * (b1 + b3)).
rewrite addrC in e; have {}r2 := r2 e.
have one : (1 : C) <> 0 by move=> /(congr1 fst) /=; lra.
have mone : (- 1 : C) <> 0 by move=> /(congr1 fst) /=; lra.
have TW : - (T / W) <> 0.
  by apply/eqP; rewrite oppr_eq0 mulf_neq0 // ?invr_eq0; apply/eqP.
have MT : M * (T / W) <> 0.
  by apply/eqP; rewrite !mulf_neq0 // ?invr_eq0; apply/eqP.
have f3 u v k : s <> 0 -> t <> 0 -> u <> 0 -> - (T / W) * (k / (u * T / W) * v) = k / u * - v.
  by move=> _ _ u0; toC; field; repeat split.
split=> [[[q1 q2] [q3 q4]]|[q1 q2 q3 q4]].
  have [z1 z2] : a0 + a2 = b0 + b2 /\ K / (s * T / W) * (a3 - a1) = K' / (t * T / W) * (b3 - b1).
    apply r1; split; [apply: (scl (c := 1) q1)|apply: (scl (c := 1) q2)]; toC; ring.
  have [z3 z4] : s / M * (K / (s * T / W)) * (a0 - a2) = t / M * (K' / (t * T / W)) * (b0 - b2) /\ s / M * (a1 + a3) = t / M * (b1 + b3).
    by apply r2; split; [apply: (scl (c := 1) q3)|apply: (scl (c := -1) q4)]; toC; ring.
  split=> //.
  - by apply: (scl (c := M * (T / W)) z3); toC; field; repeat split.
  - by apply: (scl (c := M) z4); toC; field; repeat split.
  - by apply: (scl (c := - (T / W)) z2); rewrite f3 // opprB.
have [z1 z2] : Y * (a0 + a2) + X * (K / (s * T / W) * (a3 - a1)) = Y * (b0 + b2) + X * (K' / (t * T / W) * (b3 - b1)) /\
   - X * (a0 + a2) + Y * (K / (s * T / W) * (a3 - a1)) = - X * (b0 + b2) + Y * (K' / (t * T / W) * (b3 - b1)).
  by apply r1; split=> //; apply: (unscl (c := - (T / W)) q4) => //; rewrite f3 // opprB.
have [z3 z4] : X * (s / M * (K / (s * T / W)) * (a0 - a2)) + Y * (s / M * (a1 + a3)) =
       X * (t / M * (K' / (t * T / W)) * (b0 - b2)) + Y * (t / M * (b1 + b3)) /\
       - Y * (s / M * (K / (s * T / W)) * (a0 - a2)) + X * (s / M * (a1 + a3)) =
       - Y * (t / M * (K' / (t * T / W)) * (b0 - b2)) + X * (t / M * (b1 + b3)).
  apply r2; split; first by apply: (unscl (c := M * (T / W)) q2) => //; toC; field; repeat split.
  by apply: (unscl (c := M) q3) => //; toC; field; repeat split.
split; split.
- by apply: (scl (c := 1) z1); toC; ring.
- by apply: (scl (c := 1) z2); toC; ring.
- by apply: (scl (c := 1) z3); toC; ring.
- by apply: (scl (c := -1) z4); toC; ring.
Qed.
End Transfer.
Lemma transfer_fields n L wl kp (U V : 'M[C]_((n + n) + (n + n))) r :
  lattice_U n L wl kp = Ok U -> lattice_Ve n L wl kp = Ok V -> (0 < wl)%Re ->
  num_val (l_incid L) = RtoC r -> (0 < r)%Re -> forall P Q, P = U *m V *m Q <-> forall g : 'I_n,
  [/\ quarter_of P 0 g 0 + quarter_of P 2 g 0 = quarter_of Q 0 g 0 + quarter_of Q 2 g 0,
      compute_kz (l_incid L) wl kp (l_g L g) * (quarter_of P 0 g 0 - quarter_of P 2 g 0) =
        compute_kz (l_emerg L) wl kp (l_g L g) * (quarter_of Q 0 g 0 - quarter_of Q 2 g 0),
      cmath_sqrt (l_incid L) * (quarter_of P 1 g 0 + quarter_of P 3 g 0) = cmath_sqrt (l_emerg L) * (quarter_of Q 1 g 0 + quarter_of Q 3 g 0) &
      compute_kz (l_incid L) wl kp (l_g L g) / cmath_sqrt (l_incid L) * (quarter_of P 1 g 0 - quarter_of P 3 g 0) =
        compute_kz (l_emerg L) wl kp (l_g L g) / cmath_sqrt (l_emerg L) * (quarter_of Q 1 g 0 - quarter_of Q 3 g 0)].
Proof.
move=> hU hV _ hi r0; apply: transfer_fields_any => //.
by move: hi; case: (l_incid L) => //= x /(congr1 fst) /= ->; lra.
Qed.

Section Interface.
Variables (n : nat) (L : lattice) (wl : R) (kp : vec2) (S : 'M[C]_((n + n) + (n + n))).
Hypothesis hS : scattering_interface n L wl kp = Ok S.
Hypothesis wl0 : (0 < wl)%Re.
Variables (r r' : R).
Hypotheses (hi : num_val (l_incid L) = RtoC r) (he : num_val (l_emerg L) = RtoC r') (r0 : (0 < r)%Re).
Variable pin : 'cV[C]_((n + n) + (n + n)).
Hypothesis forward : dsubmx pin = 0.
Let pout := S *m pin.
Let ki (g : 'I_n) := compute_kz (l_incid L) wl kp (l_g L g).
Let ke (g : 'I_n) := compute_kz (l_emerg L) wl kp (l_g L g).
Hypothesis prop : forall g : 'I_n, snd (ki g) = 0%Re \/ (quarter_of pin 0 g 0 = 0 /\ quarter_of pin 1 g 0 = 0).
Let n1 := cmath_sqrt (l_incid L).
Let n2 := cmath_sqrt (l_emerg L).
(** The fields on the two sides. *)
Lemma interface_fields P Q : tscatters S (usubmx P) (dsubmx P) (usubmx Q) (dsubmx Q) <-> forall g : 'I_n,
  [/\ quarter_of P 0 g 0 + quarter_of P 2 g 0 = quarter_of Q 0 g 0 + quarter_of Q 2 g 0,
      ki g * (quarter_of P 0 g 0 - quarter_of P 2 g 0) = ke g * (quarter_of Q 0 g 0 - quarter_of Q 2 g 0),
      n1 * (quarter_of P 1 g 0 + quarter_of P 3 g 0) = n2 * (quarter_of Q 1 g 0 + quarter_of Q 3 g 0) &
      ki g / n1 * (quarter_of P 1 g 0 - quarter_of P 3 g 0) = ke g / n2 * (quarter_of Q 1 g 0 - quarter_of Q 3 g 0)].
Proof.
move: hS; rewrite /scattering_interface; case hU : (lattice_U _ _ _ _) => [U|//]; cbn [bind].
case hV : (lattice_Ve _ _ _ _) => [V|//]; cbn [bind]; rewrite /interface => hm.
rewrite (matrix_s_meaning _ _ _ _ hm) /transfers !vsubmxK; exact (transfer_fields hU hV wl0 hi r0 P Q).
Qed.

Lemma zero_order g : quarter_of pin 0 g 0 = 0 -> quarter_of pin 1 g 0 = 0 ->
  forall a, (a < 4)%N -> quarter_of pout a g 0 = 0.
Proof.
move=> h0 h1.
(* pout = (rp, lm) *)
pose P := col_mx (usubmx pin) (dsubmx pout); pose Q := col_mx (usubmx pout) (dsubmx pin).
have hPQ : tscatters S (usubmx P) (dsubmx P) (usubmx Q) (dsubmx Q).
  by rewrite /tscatters /P /Q !(col_mxKu, col_mxKd) !vsubmxK.
have := (interface_fields P Q).1 hPQ => hf.
have : tscatters S (usubmx (only g P)) (dsubmx (only g P)) (usubmx (only g Q)) (dsubmx (only g Q)).
  apply/interface_fields => g'; rewrite !onlyE //; case: eqP => [->|_]; first exact: hf.
  by rewrite !(addr0, subr0, mulr0).
have z1 : usubmx (only g P) = 0.
  rewrite /only col_mxKu; apply/colP => i; rewrite [RHS]mxE -[i]splitK; case: (split i) => a /=.
    by rewrite (col_mxEu) mxE; case: eqP => // ->; rewrite /quarter_of /P !(col_mxKu, col_mxKd).
  by rewrite (col_mxEd) mxE; case: eqP => // ->; rewrite /quarter_of /P !(col_mxKu, col_mxKd).
have z2 : dsubmx (only g Q) = 0.
  rewrite /only col_mxKd; apply/colP => i; rewrite [RHS]mxE -[i]splitK; case: (split i) => a /=.
    by rewrite (col_mxEu) mxE; case: eqP => // ->; rewrite /quarter_of /Q !(col_mxKu, col_mxKd) forward !mxE.
  by rewrite (col_mxEd) mxE; case: eqP => // ->; rewrite /quarter_of /Q !(col_mxKu, col_mxKd) forward !mxE.
have e0 : (0 : 'cV[C]_((n + n) + (n + n))) = col_mx 0 0 by rewrite col_mx0.
rewrite /tscatters z1 z2 -e0 mulmx0 e0 => /eq_col_mx [u1 u2].
have w1 a : (a < 2)%N -> quarter_of pout a g 0 = 0.
  case: a => [|[|//]] _.
  - have := onlyE g Q g (erefl : (0 < 4)%N); rewrite eqxx /quarter_of u1 /Q !(col_mxKu, col_mxKd) => <-; by rewrite !mxE.
  - have := onlyE g Q g (erefl : (1 < 4)%N); rewrite eqxx /quarter_of u1 /Q !(col_mxKu, col_mxKd) => <-; by rewrite !mxE.
apply: below4; try exact: w1.
- have := onlyE g P g (erefl : (2 < 4)%N); rewrite eqxx /quarter_of u2 /P !(col_mxKu, col_mxKd) => <-; by rewrite !mxE.
- have := onlyE g P g (erefl : (3 < 4)%N); rewrite eqxx /quarter_of u2 /P !(col_mxKu, col_mxKd) => <-; by rewrite !mxE.
Qed.

Lemma csqrt_real (x : R) : (0 <= x)%Re -> snd (csqrt (RtoC x)) = 0%Re.
Proof.
move=> h; have e := csqrt_sqr (RtoC x); have e2 := real_or_imaginary e; move: e2 e; move: (csqrt _) => w [//|h2] /(congr1 fst) /=; rewrite h2 => e.
by nra.
Qed.
Lemma kz_real_sq eps x g : num_val eps = RtoC x -> compute_kz eps wl kp g * compute_kz eps wl kp g =
  RtoC (x * (2 * PI / wl) ^ 2 - ((kp.1 + g.1) ^ 2 + (kp.2 + g.2) ^ 2))%Re.
Proof. by move=> h; rewrite compute_kz2 h; apply: C_ext => /=; ring. Qed.
Hypothesis r0' : r' <> 0%Re.
(** Energy of each order. *)
Lemma order_energy (g : 'I_n) : snd (ki g) = 0%Re ->
  (fst (ki g) * (sqmod (quarter_of pin 0 g 0%R) + sqmod (quarter_of pin 1 g 0%R)) =
   fst (ki g) * (sqmod (quarter_of pout 2 g 0%R) + sqmod (quarter_of pout 3 g 0%R)) +
   fst (ke g) * (sqmod (quarter_of pout 0 g 0%R) + sqmod (quarter_of pout 1 g 0%R)))%Re.
Proof.
move=> hk; pose P := col_mx (usubmx pin) (dsubmx pout); pose Q := col_mx (usubmx pout) (dsubmx pin).
have hPQ : tscatters S (usubmx P) (dsubmx P) (usubmx Q) (dsubmx Q).
  by rewrite /tscatters /P /Q !(col_mxKu, col_mxKd) !vsubmxK.
have [s1 s2 p1 p2] := (interface_fields P Q).1 hPQ g.
have q0 a : (a < 2)%N -> quarter_of P a g 0 = quarter_of pin a g 0 /\ quarter_of Q a g 0 = quarter_of pout a g 0.
  by case: a => [|[|//]] _; rewrite /quarter_of /P /Q !(col_mxKu, col_mxKd).
have q1 a : (1 < a < 4)%N -> quarter_of P a g 0 = quarter_of pout a g 0 /\ quarter_of Q a g 0 = 0.
  by case: a => [|[|[|[|//]]]] // _; rewrite /quarter_of /P /Q !(col_mxKu, col_mxKd) forward !mxE.
move: s1 s2 p1 p2; have [-> ->] := q0 0%N erefl; have [-> ->] := q0 1%N erefl; have [-> ->] := q1 2%N erefl; have [-> ->] := q1 3%N erefl.
rewrite !(addr0, subr0) => s1 s2 p1 p2.
have h1 := s_energy hk s1 s2.
have n10 : n1 <> 0 by apply/eqP; rewrite /n1 /cmath_sqrt csqrt_eq0 hi; apply/eqP => /(congr1 fst) /=; lra.
have n20 : n2 <> 0 by apply/eqP; rewrite /n2 /cmath_sqrt csqrt_eq0 he; apply/eqP => /(congr1 fst) /=; lra.
have nr : snd n1 = 0%Re by rewrite /n1 /cmath_sqrt hi; apply: csqrt_real; lra.
have nr' : snd n2 = 0%Re \/ fst n2 = 0%Re /\ fst (ke g) = 0%Re.
  case: (Rle_dec 0 r') => hr; first by left; rewrite /n2 /cmath_sqrt he; apply: csqrt_real.
  right; split.
    have e := cmath_sqrt2 (l_emerg L); rewrite he -/n2 in e; case: (real_or_imaginary e) => // h.
    by move: h e; move: n2 => w h /(congr1 fst) /=; rewrite h => e2; exfalso; nra.
  have e := kz_real_sq (l_g L g) he; rewrite -/(ke g) in e; case: (real_or_imaginary e) => // h.
  move: h e; move: (ke g) => w h /(congr1 fst); rewrite -[RHS]/(_ - _)%Re -[LHS]/(_ - _)%Re h => e2; exfalso.
  have q2 := pow2_ge_0 (kp.1 + (l_g L g).1); have q3 := pow2_ge_0 (kp.2 + (l_g L g).2).
  have q4 : (0 < (2 * PI / wl) ^ 2)%Re by apply: pow_lt; apply: Rdiv_lt_0_compat => //; have := PI_RGT_0; lra.
  by nra.
have h2 := p_energy hk nr n10 n20 nr' p1 p2.
by lra.
Qed.

(** The hypotheses of the currents: an order that is not propagating is not almost
    propagating. *)
Hypothesis clear_i : forall g : 'I_n, snd (ki g) = 0%Re \/ (float_eps < Rabs (snd (ki g)))%Re.
Hypothesis clear_e : forall g : 'I_n, snd (ke g) = 0%Re \/ (float_eps < Rabs (snd (ke g)))%Re.
Lemma feps : (0 < float_eps)%Re.
Proof. by apply: Rinv_0_lt_compat; apply: pow_lt; lra. Qed.
Lemma kz_pos eps g : (0 < wl)%Re -> snd (compute_kz eps wl kp g) = 0%Re -> (0 <= fst (compute_kz eps wl kp g))%Re.
Proof.
move=> _; rewrite /compute_kz; set z := csqrt _.
have z0 : (0 <= fst z)%Re by exact: csqrt_re_ge0.
case: ifP => // /orP [|/andP [_]].
  by destruct (Rlt_dec (snd z) 0) as [h|h] => // _; rewrite -[snd _]/(- snd z)%Re => e; exfalso; lra.
by destruct (Rlt_dec (fst z) 0) as [h|h] => // _ _; exfalso; lra.
Qed.
Lemma currents_value js : compute_currents pin pout L wl kp = Ok js -> let: (j1p, j1m, j3p) := js in
  exists q : R, exists f : 'I_n -> R * R * R, forall g, let: (a, b, c) := f g in
    [/\ j1p g = RtoC (q * a), j1m g = RtoC (q * b), j3p g = RtoC (q * c), (a = b + c)%Re &
        [/\ (0 <= a)%Re, (0 <= b)%Re & (0 <= c)%Re]].
Proof.
rewrite /compute_currents; case: eqP => // _; destruct (Req_EM_T wl 0) as [h|h] => //; cbn [is_left].
have feps := feps.
have -> : (if Rlt_dec (Rabs (snd (num_val (l_emerg L)))) float_eps then false else true) = false.
  rewrite he /= Rabs_R0; by destruct (Rlt_dec 0 float_eps).
case=> <-; exists (l_area L / (2 * mu0c * twopi / wl))%Re; move: (l_area L / _)%Re => q.
pose mask (z : R) (g : 'I_n) (x : R) := if Req_EM_T z 0 then x else 0%Re.
pose two (P : 'cV[C]_((n + n) + (n + n))) (a b : nat) (g : 'I_n) := (sqmod (quarter_of P a g 0%R) + sqmod (quarter_of P b g 0%R))%Re.
exists (fun g => (mask (snd (ki g)) g (fst (ki g) * two pin 0%N 1%N g), mask (snd (ki g)) g (fst (ki g) * two pout 2%N 3%N g),
  mask (snd (ke g)) g (fst (ke g) * two pout 0%N 1%N g)))%Re => g.
have sq0 z : (0 <= sqmod z)%Re by rewrite /sqmod; exact: pow2_ge_0.
have two0 P a b : (0 <= two P a b g)%Re by rewrite /two; have := sq0 (quarter_of P a g 0%R); have := sq0 (quarter_of P b g 0%R); lra.
have R0 : (0 <= 0)%Re by lra.
have real (z : C) (x : R) : snd z = 0%Re -> RtoC q * z * RtoC x = RtoC (q * (fst z * x))%Re.
  by move=> e; apply: C_ext => /=; rewrite e; ring.
have qz : (0 : C) = RtoC (q * 0) by apply: C_ext => /=; ring.
split.
- rewrite -/(ki g) -/(two pin 0%N 1%N g) /mask; destruct (Rle_dec (Rabs (snd (ki g))) float_eps) as [h1|h1]; destruct (Req_EM_T (snd (ki g)) 0) as [h2|h2] => //; cbn [is_left].
  + exact: real.
  + by case: (clear_i g) => // h3; exfalso; lra.
  + by exfalso; apply: h1; rewrite h2 Rabs_R0; lra.
- rewrite -/(ki g) -/(two pout 2%N 3%N g) /mask; destruct (Rle_dec (Rabs (snd (ki g))) float_eps) as [h1|h1]; destruct (Req_EM_T (snd (ki g)) 0) as [h2|h2] => //; cbn [is_left].
  + exact: real.
  + by case: (clear_i g) => // h3; exfalso; lra.
  + by exfalso; apply: h1; rewrite h2 Rabs_R0; lra.
- rewrite -/(ke g) -/(two pout 0%N 1%N g) /mask; destruct (Rlt_dec (Rabs (snd (ke g))) float_eps) as [h1|h1]; destruct (Req_EM_T (snd (ke g)) 0) as [h2|h2] => //; cbn [is_left].
  + exact: real.
  + by case: (clear_e g) => // h3; exfalso; lra.
  + by exfalso; apply: h1; rewrite h2 Rabs_R0; lra.
- rewrite /mask; destruct (Req_EM_T (snd (ki g)) 0) as [h2|h2]; cbn [is_left]; last first.
    case: (prop g) => // -[z0 z1]; have z := zero_order z0 z1.
    have -> : two pout 0%N 1%N g = 0%Re by rewrite /two !z // sqmodE /=; ring.
    by destruct (Req_EM_T (snd (ke g)) 0) as [h3|h3]; cbn [is_left]; lra.
  have := order_energy h2; rewrite -/(two pin 0%N 1%N g) -/(two pout 2%N 3%N g) -/(two pout 0%N 1%N g) => ->.
  destruct (Req_EM_T (snd (ke g)) 0) as [h3|h3]; cbn [is_left] => //.
  have e := kz_real_sq (l_g L g) he; rewrite -/(ke g) in e; case: (real_or_imaginary e) => // ->; lra.
- have k0 := @kz_pos (l_incid L) (l_g L g) wl0; have k1 := @kz_pos (l_emerg L) (l_g L g) wl0.
  rewrite /mask; split.
  + by destruct (Req_EM_T (snd (ki g)) 0) as [h2|h2]; cbn [is_left] => //; apply: Rmult_le_pos; [exact: k0|].
  + by destruct (Req_EM_T (snd (ki g)) 0) as [h2|h2]; cbn [is_left] => //; apply: Rmult_le_pos; [exact: k0|].
  + by destruct (Req_EM_T (snd (ke g)) 0) as [h2|h2]; cbn [is_left] => //; apply: Rmult_le_pos; [exact: k1|].
Qed.
Lemma currents_sum js : compute_currents pin pout L wl kp = Ok js -> let: (j1p, j1m, j3p) := js in
  exists q a b c : R, [/\ \sum_g j1p g = RtoC (q * a), \sum_g j1m g = RtoC (q * b), \sum_g j3p g = RtoC (q * c), (a = b + c)%Re &
        [/\ (0 <= a)%Re, (0 <= b)%Re & (0 <= c)%Re]].
Proof.
move/currents_value; case: js => [[j1p j1m] j3p] [q [f hf]].
have S0 (j : 'I_n -> C) (u : 'I_n -> R) : (forall g, j g = RtoC (q * u g)%Re) -> \sum_g j g = RtoC (q * (\sum_g u g : R))%Re.
  move=> e; rewrite (eq_bigr _ (fun g _ => e g)) -[(q * _)%Re]/(q * (\sum_g u g : R)) mulr_sumr.
  by apply: (big_rec2 (fun (x : C) (y : R) => x = RtoC y)) => [//|i y x _ ->]; apply: C_ext => //; exact: Rplus_0_r.
have P0 (u : 'I_n -> R) : (forall g, 0 <= u g)%Re -> (0 <= (\sum_g u g : R))%Re.
  by move=> e; apply: (big_ind (fun x : R => 0 <= x)%Re) => [|x y|i _]; [exact: Rle_refl|exact: Rplus_le_le_0_compat|exact: e].
exists q, (\sum_g (f g).1.1 : R), (\sum_g (f g).1.2 : R), (\sum_g (f g).2 : R); split.
- by apply: S0 => g; have := hf g; case: (f g) => [[a b] c] [].
- by apply: S0 => g; have := hf g; case: (f g) => [[a b] c] [].
- by apply: S0 => g; have := hf g; case: (f g) => [[a b] c] [].
- rewrite -[RHS]/((\sum_g (f g).1.2 : R) + (\sum_g (f g).2 : R)) -big_split /=; apply: eq_bigr => g _.
  by have := hf g; case: (f g) => [[a b] c] [].
- by split; apply: P0 => g; have := hf g; case: (f g) => [[a b] c] [_ _ _ _ []].
Qed.
(** The fluxes are computed with the currents at normal incidence. *)
Lemma fluxes_sum f kp' : kp = (0%Re, 0%Re) -> compute_fluxes L wl pin pout kp' = Ok f ->
  (f.1.1 + f.1.2 = 1)%Re /\ f.2 = 0%Re.
Proof.
move=> k0; rewrite /compute_fluxes -k0; case hj : (compute_currents _ _ _ _ _) => [[[j1p j1m] j3p]|//]; cbn [bind].
have [q [a [b [c [-> -> -> e [a0 b0 c0]]]]]] := currents_sum hj.
case: eqP => // nz [<-] /=.
have qa : (q * a)%Re <> 0%Re by move=> z; apply: nz; rewrite z.
have q0 : q <> 0%Re by move=> z; apply: qa; rewrite z; ring.
have a1 : a <> 0%Re by move=> z; apply: qa; rewrite z; ring.
have rat x : (0 <= x)%Re -> Cmod (RtoC (q * x) / RtoC (q * a)) = (x / a)%Re.
  move=> x0; have -> : RtoC (q * x) / RtoC (q * a) = RtoC (x / a) by toC; apply: C_ext => /=; field; repeat split => //; nra.
  by rewrite Cmod_R Rabs_pos_eq //; apply: Rmult_le_pos => //; apply/Rlt_le/Rinv_0_lt_compat; lra.
have h : (b / a + c / a = 1)%Re by rewrite e; field; rewrite -e.
by rewrite !rat //; split; lra.
Qed.
End Interface.

Lemma csqrt_nonneg (x : R) : (0 <= x)%Re -> csqrt (RtoC x) = RtoC (sqrt x).
Proof.
move=> h; rewrite /csqrt /= Cmod_R Rabs_pos_eq //; destruct (Rlt_dec 0 0) as [h2|h2]; first by exfalso; lra.
by apply: C_ext => /=; [congr sqrt; lra|have -> : ((x - x) / 2 = 0)%Re by lra]; rewrite ?sqrt_0; ring.
Qed.
Lemma csqrt_nonpos (x : R) : (x <= 0)%Re -> csqrt (RtoC x) = ci * RtoC (sqrt (- x)).
Proof.
move=> h; rewrite /csqrt /= Cmod_R Rabs_left1 //; destruct (Rlt_dec 0 0) as [h2|h2]; first by exfalso; lra.
have -> : ((- x + x) / 2 = 0)%Re by lra.
have -> : ((- x - x) / 2 = - x)%Re by lra.
by rewrite sqrt_0; apply: C_ext => /=; ring.
Qed.
(** The normal wavevectors of a lossless medium. *)
Lemma kz_lossless eps x wl kp g : num_val eps = RtoC x ->
  let y := (x * (2 * PI / wl) ^ 2 - ((kp.1 + g.1) ^ 2 + (kp.2 + g.2) ^ 2))%Re in
  compute_kz eps wl kp g = if Rle_dec 0 y then RtoC (sqrt y) else ci * RtoC (sqrt (- y)).
Proof.
move=> hx y; rewrite /compute_kz.
have -> : num_val eps * RtoC ((twopi / wl) ^ 2)%Re - RtoC (unorm kp g ^ 2)%Re = RtoC y.
  by rewrite hx unorm2 /y /uvec; apply: C_ext => /=; rewrite /twopi; ring.
destruct (Rle_dec 0 y) as [h|h]; cbn [is_left].
  rewrite csqrt_nonneg // /= Rabs_R0; have s0 := sqrt_pos y.
  destruct (Rlt_dec 0 0) as [h1|h1]; first by exfalso; lra.
  destruct (Rlt_dec (sqrt y) 0) as [h2|h2]; first by exfalso; lra.
  by rewrite andbF.
rewrite csqrt_nonpos; last lra; have s0 := sqrt_pos (- y).
have -> : snd (ci * RtoC (sqrt (- y))) = sqrt (- y) by rewrite /=; ring.
have -> : fst (ci * RtoC (sqrt (- y))) = 0%Re by rewrite /=; ring.
destruct (Rlt_dec (sqrt (- y)) 0) as [h1|h1]; first by exfalso; lra.
destruct (Rlt_dec 0 0) as [h2|h2]; first by exfalso; lra.
by rewrite andbF.
Qed.
Lemma kz_quadrant eps x wl kp g : num_val eps = RtoC x ->
  (0 <= fst (compute_kz eps wl kp g))%Re /\ (0 <= snd (compute_kz eps wl kp g))%Re.
Proof.
move=> h; rewrite (kz_lossless _ _ _ h); set y := (_ - _)%Re; have s1 := sqrt_pos y; have s2 := sqrt_pos (- y).
by case: ifP => _; split; rewrite -?[fst (ci * _)]/(0 * _ - 1 * 0)%Re -?[snd (ci * _)]/(0 * 0 + 1 * _)%Re //=; lra.
Qed.

(** An interface between lossless dielectrics is always defined. *)
Lemma interface_def n L wl kp r r' : n = l_ng L -> (0 < wl)%Re -> num_val (l_incid L) = RtoC r -> (0 < r)%Re ->
  num_val (l_emerg L) = RtoC r' -> (0 < r')%Re -> no_anomaly L (l_incid L) wl kp ->
  is_ok (scattering_interface n L wl kp).
Proof.
move=> hn w0 hi r0 he r0' ha.
have z0 : num_val (l_incid L) != 0 by rewrite hi; apply/eqP => /(congr1 fst) /=; lra.
have z0' : num_val (l_emerg L) != 0 by rewrite he; apply/eqP => /(congr1 fst) /=; lra.
have w1 : wl <> 0%Re by lra.
have sq : has_sqrt (l_emerg L) by move: he; case: (l_emerg L) => //= x /(congr1 fst) /= ->; lra.
have [U hU] := lattice_U_def hn w1 z0 ha; have [V hV] := lattice_V_def kp hn w1 z0' sq.
rewrite /scattering_interface hU; cbn [bind]; rewrite /lattice_Ve hV; cbn [bind]; apply/matrix_s_ok.
apply/unitmx_inj => v hv.
pose P := col_mx (0 : 'cV[C]_(n + n)) (mp (U *m V) *m v); pose Q := col_mx v (0 : 'cV[C]_(n + n)).
have e : P = U *m V *m Q.
  by rewrite /P /Q -{2}(submxK (U *m V)) mul_block_col !mulmx0 !addr0 -/(pp _) hv.
have hf := (transfer_fields hU hV w0 hi r0 P Q).1 e.
have q0 a g : (a < 2)%N -> quarter_of P a g 0 = 0.
  by case: a => [|[|//]] _; rewrite /quarter_of /P !(col_mxKu, col_mxKd) !mxE.
have q1 a g : (1 < a < 4)%N -> quarter_of Q a g 0 = 0.
  by case: a => [|[|[|[|//]]]] // _; rewrite /quarter_of /Q !(col_mxKu, col_mxKd) !mxE.
have z g : quarter_of Q 0 g 0 = 0 /\ quarter_of Q 1 g 0 = 0.
  have := hf g; rewrite !(q0 0%N) // !(q0 1%N) // !(q1 2%N) // !(q1 3%N) // !(addr0, subr0, sub0r, add0r) => -[s1 s2 p1 p2].
  have [hn' w0' e0 k0 _] := lattice_UE hU; have {}k0 := k0 g; rewrite /kzf in k0.
  have [i1 i2] := kz_quadrant wl kp (l_g L g) hi; have [j1 j2] := kz_quadrant wl kp (l_g L g) he.
  move: (compute_kz (l_incid L) wl kp (l_g L g)) (compute_kz (l_emerg L) wl kp (l_g L g)) k0 i1 i2 j1 j2 s2 p2 => K K' k0 i1 i2 j1 j2 s2 p2.
  have n10 := cmath_sqrt_neq0 z0; have n20 := cmath_sqrt_neq0 z0'.
  have c1 := cmath_sqrt2 (l_incid L); have c2 := cmath_sqrt2 (l_emerg L); rewrite hi in c1; rewrite he in c2.
  move: (cmath_sqrt (l_incid L)) (cmath_sqrt (l_emerg L)) n10 n20 c1 c2 p1 p2 => s t n10 n20 c1 c2 p1 p2.
  have sum0 (x y : R) : (0 < x)%Re -> (0 <= y)%Re -> RtoC x * K + RtoC y * K' != 0.
    move=> x0 y0; apply/eqP => h; have h1 := congr1 fst h; have h2 := congr1 snd h; rewrite /= in h1 h2.
    move/eqP: k0; apply; apply: C_ext => /=; nra.
  split.
    have h : (K + K') * quarter_of Q 0 g 0 = 0 by rewrite mulrDl -s2 -s1 mulrN addrN.
    move/eqP: h; rewrite mulf_eq0 => /orP [h|/eqP //]; have := sum0 1%Re 1%Re; rewrite -[RtoC 1]/(1 : C) !mul1r (eqP h) eqxx => hc.
    by exfalso; have : is_true false by apply: hc; lra.
  have h : (RtoC r' * K + RtoC r * K') * quarter_of Q 1 g 0 = 0.
    have e1 : RtoC r * K' * quarter_of Q 1 g 0 = RtoC r * t * (K' / t * quarter_of Q 1 g 0) by move/eqP: n20 => n20; toC; field.
    rewrite mulrDl e1 -p2 -c1 -c2.
    have e2 : s * s * t * (K / s * - quarter_of P 3 g 0) = - (t * K * (s * quarter_of P 3 g 0)) by move/eqP: n10 => n10; toC; field.
    by rewrite e2 p1; toC; ring.
  move/eqP: h; rewrite mulf_eq0 => /orP [h|/eqP //]; have := sum0 r' r r0'; rewrite (eqP h) eqxx => hc.
  by exfalso; have : is_true false by apply: hc; lra.
rewrite -(vsubmxK v) -(vsubmxK (0 : 'cV[C]_(n + n))).
by congr col_mx; apply/colP => g; have [h1 h2] := z g; move: h1 h2; rewrite /quarter_of /Q !(col_mxKu, col_mxKd) => h1 h2; rewrite ?h1 ?h2 !mxE.
Qed.
