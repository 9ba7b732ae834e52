(** Lemmas for C112-C114: the layers of turned lattices (T-matrix API). *)
From Coq Require Import Reals ZArith Lra Lia String.
From mathcomp Require Import all_ssreflect all_fingroup all_algebra.
From Coquelicot Require Import Complex.
From Verif Require Import Base CField CFun ModelRedheffer SpecScatter ModelExpansion SpecExpansion ModelFourier Blk ModelDevice ModelTmat ModelLattice SpecLattice LatticeProofs
  SpecExp ExpProofs ModelEz SpecScale SpecSym SpecBloch CurrentProofs ScaleProofs PolConj SpecTurn TmatTurn.
Set Implicit Arguments. Unset Strict Implicit. Unset Printing Implicit Defensive.
Import GRing.Theory.
Local Open Scope ring_scope.

Lemma quad_tr n (B : nat -> nat -> 'M[C]_n) : (quad B)^T = quad (fun x y => (B y x)^T).
Proof. by rewrite /quad !tr_block_mx. Qed.
Lemma Ok_inj T (x y : T) : Ok x = Ok y -> x = y. Proof. by case. Qed.
Section Turn.
Variables a b s : R.
Hypothesis iso : isometry a b s.
Notation tn := (turn a b s).
Variables (n : nat) (L L' : lattice) (wl : R) (kp : vec2) (r : 'I_n -> 'I_n).
Hypothesis ri : injective r.
Hypothesis hg : forall g : 'I_n, l_g L' (r g) = tn (l_g L g).
Notation P := (Pm a b s r).
Notation D := (Dm a b s L kp r).
Lemma ortho (X : nat -> nat -> 'I_n -> C) :
  (forall g x, (x < 4)%N -> forall y, (y < 4)%N -> (X 0%N x g * X 0%N y g + X 1%N x g * X 1%N y g) + (X 2%N x g * X 2%N y g + X 3%N x g * X 3%N y g) = if x == y then 1 else 0) ->
  let Q := quad (fun x y => mono r (X x y)) in Q *m Q^T = 1%:M.
Proof.
move=> h; apply: mulmx1C; rewrite quad_tr quadM quad_1; apply: eq_quad => x hx y hy.
rewrite !tr_mono // !dgfD; case: ifP => e; rewrite ?dgf1 ?dgf0; apply: eq_dgf => g; by rewrite h // e.
Qed.
Lemma D_ortho : D *m D^T = 1%:M.
Proof.
apply: ortho => g; have [h1 h2'] := iso; have h2 : s = 1%Re \/ s = (- (1))%Re by case: h2' => ->; [left|right; ring].
have hab : Cmult (RtoC a) (RtoC a) = Cminus (RtoC 1) (Cmult (RtoC b) (RtoC b)).
  by apply: C_ext => /=; [lra|ring].
apply: below4; apply: below4; cbv beta iota delta [waves_turn pol_turn]; cbv zeta; case: (tiny _) => /=;
  case: h2 => hs; rewrite ?hs ?(RtoC_opp, RtoC_mult, RtoC_plus); toC; ring [hab].
Qed.
Lemma P_ortho : P *m P^T = 1%:M.
Proof.
apply: ortho => g; have [h1 h2'] := iso; have h2 : s = 1%Re \/ s = (- (1))%Re by case: h2' => ->; [left|right; ring].
have hab : Cmult (RtoC a) (RtoC a) = Cminus (RtoC 1) (Cmult (RtoC b) (RtoC b)).
  by apply: C_ext => /=; [lra|ring].
apply: below4; apply: below4; cbv beta iota delta [fields_turn]; rewrite /=;
  case: h2 => hs; rewrite ?hs ?(RtoC_opp, RtoC_mult, RtoC_plus); toC; ring [hab].
Qed.
(** The two halves of D. *)
Definition half_turn (up : bool) : 'M[C]_(n + n) :=
  let M to from := mono r (fun g => RtoC (pol_turn a b s up (uvec kp (l_g L g)) to from)) in
  block_mx (M false false) (M false true) (M true false) (M true true).
Lemma D_halves : D = dd (half_turn true) (half_turn false).
Proof.
rewrite /Dm /quad /dd /half_turn; congr block_mx; first [by congr block_mx | by rewrite -block_mx0; congr block_mx; rewrite (mono0 r)].
Qed.
Lemma dd_tr k (x y : 'M[C]_k) : (dd x y)^T = dd x^T y^T.
Proof. by rewrite /dd tr_block_mx !trmx0. Qed.
Lemma dd_inj k (x y x' y' : 'M[C]_k) : dd x y = dd x' y' -> x = x' /\ y = y'.
Proof. by rewrite /dd => /eq_block_mx []. Qed.
Lemma half_ortho up : half_turn up *m (half_turn up)^T = 1%:M.
Proof.
have := D_ortho; rewrite D_halves dd_tr /dd mulmx_block !mulmx0 !mul0mx !addr0 !add0r (scalar_mx_block (n + n) (n + n)).
by move=> /eq_block_mx [? _ _ ?]; case: up.
Qed.

(** The directions near the normal. *)
Lemma csqrt_scale (k : R) z : (0 < k)%Re -> csqrt (z * RtoC (k ^ 2)) = csqrt z * RtoC k.
Proof. by move=> k0; rewrite mulrC [RHS]mulrC -ScaleProofs.csqrt_mul2 //; congr (csqrt (_ * _)); apply: C_ext => /=; ring. Qed.
Lemma slant_zero eps (g : 'I_n) : (0 < wl)%Re -> (0 <= snd (num_val eps))%Re -> num_val eps != 0 ->
  uvec kp (l_g L g) = (0%Re, 0%Re) -> slant L wl kp eps g = 1.
Proof.
move=> w0 he e0 hu; have k0 : (0 < twopi / wl)%Re by apply: Rdiv_lt_0_compat => //; have := PI_RGT_0; rewrite /twopi; lra.
have hn : (unorm kp (l_g L g) ^ 2 = 0)%Re by rewrite unorm2 hu /=; ring.
rewrite /slant; have -> : compute_kz eps wl kp (l_g L g) = cmath_sqrt eps * RtoC (twopi / wl)%Re.
  rewrite /compute_kz hn subr0 csqrt_scale // /cmath_sqrt.
  have i0 : (0 <= snd (csqrt (num_val eps)))%Re.
    rewrite /csqrt /=; case: Rlt_dec => h /=; first by exfalso; lra.
    exact: sqrt_pos.
  have r0 := csqrt_re_ge0 (num_val eps).
  move: (csqrt (num_val eps)) i0 r0 => q i0 r0; set t := (twopi / wl)%Re in k0 *.
  have e1 : snd (q * RtoC t) = (snd q * t)%Re by rewrite /=; ring.
  have e2 : fst (q * RtoC t) = (fst q * t)%Re by rewrite /=; ring.
  cbv zeta; rewrite e1 e2; case: Rlt_dec => h /=.
    by exfalso; have := Rmult_le_pos _ _ i0 (Rlt_le _ _ k0); lra.
  case: Rlt_dec => h' /=; rewrite ?andbF //.
  by exfalso; have := Rmult_le_pos _ _ r0 (Rlt_le _ _ k0); lra.
have c0 : cmath_sqrt eps != 0 by exact: cmath_sqrt_neq0.
rewrite (_ : cmath_sqrt eps * RtoC twopi / RtoC wl = cmath_sqrt eps * RtoC (twopi / wl)%Re); last first.
  by rewrite -mulrA; congr (_ * _); rewrite -[_ / _]/(Cdiv _ _) -RtoC_div //; lra.
rewrite divff //; apply: mulf_neq0 => //; apply/eqP => h; have := congr1 fst h => /=; lra.
Qed.

Hypothesis hn : n = l_ng L'.
Hypothesis hi : l_incid L' = l_incid L.
Hypothesis he : l_emerg L' = l_emerg L.
Lemma turnable_slant eps : turnable b L wl kp -> n = l_ng L -> num_val eps != 0 -> num_val eps = num_val (l_incid L) \/ num_val eps = num_val (l_emerg L) ->
  b = 0%Re \/ (forall g : 'I_n, tiny (uvec kp (l_g L g)) -> slant L wl kp eps g = 1).
Proof.
case=> [->|[w0 i0 e0 h] hL z0 hz]; [by left|right=> g ht]; apply: slant_zero => //; first by case: hz => ->.
by apply: h => //; rewrite -hL ltn_ord.
Qed.
Lemma waves_VE eps V : turnable b L wl kp -> num_val eps = num_val (l_incid L) \/ num_val eps = num_val (l_emerg L) ->
  lattice_V n L eps wl kp = Ok V -> exists2 V', lattice_V n L' eps wl (tn kp) = Ok V' & V' *m D = P *m V.
Proof.
move=> ht hz hV; have [h1 _ h3 _] := lattice_VE hV.
apply: (waves_V iso ri hg _ hn hV); exact: turnable_slant.
Qed.
Definition as_complex (M : lattice) : lattice :=
  Lattice (l_pw M) (l_q M) (l_b M) (l_G M) (l_area M) (Complex (num_val (l_incid M))) (l_emerg M).
Lemma U_complex M k : lattice_U n (as_complex M) wl k = lattice_U n M wl k.
Proof. by []. Qed.
Lemma waves_U U : turnable b L wl kp -> lattice_U n L wl kp = Ok U -> exists2 U', lattice_U n L' wl (tn kp) = Ok U' & U' *m P = D *m U.
Proof.
move=> ht hU; have [hnL w0 z0 k0 hu] := lattice_UE hU.
have [V hV] : exists V, lattice_V n L (Complex (num_val (l_incid L))) wl kp = Ok V.
  rewrite /lattice_V -hnL eqxx /=; destruct (Req_EM_T wl 0) as [h|h] => //; rewrite /window_mu /= (negbTE z0); cbn [bind]; by eexists.
have [V' hV' e] := @waves_VE (Complex (num_val (l_incid L))) V ht (or_introl erefl) hV.
have [U' hU'] : exists U', lattice_U n L' wl (tn kp) = Ok U'.
  rewrite /lattice_U -hn eqxx /=; destruct (Req_EM_T wl 0) as [h|h] => //; rewrite hi /window_mu (negbTE z0); cbn [bind].
  rewrite /matrix_u (negbTE z0); case: ifP => [/negP []|_]; last by eexists.
  by apply/forallP => g; have [j ->] := r_onto ri g; rewrite hg turn_kz //; exact: k0.
exists U' => //; have h1 : U *m V = 1%:M by apply: (@lattice_UV n (as_complex L) wl kp).
have h2 : U' *m V' = 1%:M by apply: (@lattice_UV n (as_complex L') wl (tn kp)) => //; rewrite /lattice_Vi /= hi.
have h3 := mulmx1C h1; have : U' *m (V' *m D) *m U = U' *m (P *m V) *m U by rewrite e.
by rewrite !mulmxA h2 mul1mx -![_ *m V *m U]mulmxA h3 mulmx1 => ->.
Qed.
Notation con := (con2 (half_turn true) (half_turn true)^T (half_turn false) (half_turn false)^T).
Lemma conE S : con S = D *m S *m D^T.
Proof. by rewrite D_halves dd_tr. Qed.
Lemma interface_turn S : turnable b L wl kp -> scattering_interface n L wl kp = Ok S -> scattering_interface n L' wl (tn kp) = Ok (D *m S *m D^T).
Proof.
move=> ht; rewrite /scattering_interface; case hU : (lattice_U _ _ _ kp) => [U|//]; cbn [bind]; case hV : (lattice_Ve _ _ _ kp) => [V|//]; cbn [bind].
have [V' hV' e] := @waves_VE (l_emerg L) V ht (or_intror erefl) hV; have [U' -> e'] := waves_U ht hU; cbn [bind].
rewrite /lattice_Ve he hV'; cbn [bind]; rewrite /interface.
have -> : U' *m V' = con (U *m V).
  rewrite conE -[U']mulmx1 -P_ortho mulmxA e' -!mulmxA; congr (_ *m (_ *m _)).
  by rewrite -[V']mulmx1 -D_ortho [V' *m _]mulmxA e !mulmxA (mulmx1C P_ortho) mul1mx.
by rewrite (@matrix_sG _ _ _ _ _ _ (half_ortho true)) => ->; rewrite /= conE.
Qed.

(** The operator of a layer. *)
Lemma matrix_a_turn l l' T Ti T' Ti' A :
  (forall e, order_lookups l (w_rows (window L) %/ 2) (w_cols (window L) %/ 2) n T = Ok e ->
   exists2 e', order_lookups l' (w_rows (window L') %/ 2) (w_cols (window L') %/ 2) n T' = Ok e' & forall i j : 'I_n, looked e' (r i) (r j) = looked e i j) ->
  (forall e, order_lookups l (w_rows (window L) %/ 2) (w_cols (window L) %/ 2) n Ti = Ok e ->
   exists2 e', order_lookups l' (w_rows (window L') %/ 2) (w_cols (window L') %/ 2) n Ti' = Ok e' & forall i j : 'I_n, looked e' (r i) (r j) = looked e i j) ->
  matrix_a n l (window L) T Ti wl kp = Ok A ->
  exists2 A', matrix_a n l' (window L') T' Ti' wl (tn kp) = Ok A' & A' *m P = P *m A.
Proof.
move=> hT hTi; rewrite /matrix_a; case: Req_EM_T => [//|w0].
case: eqP => // _; rewrite -[w_ng (window L')]/(l_ng L') -hn eqxx; cbn [negb].
case eT : (order_lookups _ _ _ _ T) => [e|//]; cbn [bind]; case eTi : (order_lookups _ _ _ _ Ti) => [v|//]; cbn [bind] => hA; have {hA} eA := Ok_inj hA; subst A.
have [e' -> le] := hT _ eT; cbn [bind]; have [v' -> lv] := hTi _ eTi; cbn [bind].
eexists; first by [].
have [h1 h2'] := iso; have h2 : s = 1%Re \/ s = (- (1))%Re by case: h2' => ->; [left|right; ring].
have hab : Cmult (RtoC a) (RtoC a) = Cminus (RtoC 1) (Cmult (RtoC b) (RtoC b)) by apply: C_ext => /=; [lra|ring].
rewrite /Pm !quadM; apply: eq_quad => x hx y hy; apply/matrixP => i j; have [k ->] := r_onto ri i.
have hu q : uvec (tn kp) (w_flat (window L') (r q)) = tn (uvec kp (w_flat (window L) q)).
  by rewrite -turn_uvec -/(l_g L' (r q)) hg.
have md (M : 'M[C]_n) c : (M *m mono r (fun=> c)) (r k) j = M (r k) (r j) * c by rewrite mul_mono.
have mm (M : 'M[C]_n) c : (mono r (fun=> c) *m M) (r k) j = c * M k j by rewrite (mono_mul ri).
have ad (M N : 'M[C]_n) x0 y0 : (M + N) x0 y0 = M x0 y0 + N x0 y0 by rewrite mxE.
have op (M : 'M[C]_n) x0 y0 : (- M) x0 y0 = - M x0 y0 by rewrite mxE.
have z0 x0 y0 : (0 : 'M[C]_n) x0 y0 = 0 by rewrite mxE.
rewrite !ad !md !mm.
have dg f x0 y0 : (dgf f : 'M[C]_n) x0 y0 = if x0 == y0 then f x0 else 0 by rewrite !mxE; case: eqP => [->|]; rewrite ?mulr1n ?mulr0n.
case: x hx => [|[|[|[|x]]]] // _; case: y hy => [|[|[|[|y]]]] // _; cbv beta iota delta [fields_turn];
  rewrite ?(ad, op, z0, dg) ?mxE ?(inj_eq ri) ?le ?lv; cbv beta; rewrite ?hu; rewrite /turn; cbn [fst snd];
  (case: h2 => hs; rewrite ?hs ?(RtoC_opp, RtoC_mult, RtoC_plus)); case: eqP => [->|_]; toC; ring [hab].
Qed.
End Turn.
