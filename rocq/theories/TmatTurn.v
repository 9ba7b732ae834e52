(** Lemmas for C112-C114: the waves of turned lattices (T-matrix API). *)
From Coq Require Import Reals ZArith Lra Lia String.
From mathcomp Require Import all_ssreflect all_fingroup all_algebra.
From Coquelicot Require Import Complex.
From Verif Require Import Base CField CFun ModelRedheffer SpecScatter ModelExpansion SpecExpansion ModelFourier Blk ModelDevice ModelTmat ModelLattice SpecLattice LatticeProofs
  SpecExp ExpProofs ModelEz SpecScale SpecSym SpecBloch CurrentProofs PolConj SpecTurn.
Set Implicit Arguments. Unset Strict Implicit. Unset Printing Implicit Defensive.
Import GRing.Theory.
Local Open Scope ring_scope.

(** Monomial matrices. *)
Section Mono.
Variables (n : nat) (r : 'I_n -> 'I_n).
Hypothesis ri : injective r.
Definition mono (f : 'I_n -> C) : 'M[C]_n := \matrix_(i, j) (if i == r j then f j else 0).
Lemma eq_mono f g : f =1 g -> mono f = mono g.
Proof. by move=> h; apply/matrixP => i j; rewrite !mxE h. Qed.
Lemma r_onto i : exists j, i = r j.
Proof. by have [r' h1 h2] := injF_bij ri; exists (r' i); rewrite h2. Qed.
Lemma mul_mono (M : 'M[C]_n) f i j : (M *m mono f) i j = M i (r j) * f j.
Proof.
rewrite mxE (bigD1 (r j)) //= mxE eqxx big1 ?addr0 // => k hk; by rewrite mxE (negbTE hk) mulr0.
Qed.
Lemma mono_mul (M : 'M[C]_n) f i j : (mono f *m M) (r i) j = f i * M i j.
Proof.
rewrite mxE (bigD1 i) //= mxE eqxx big1 ?addr0 // => k hk; rewrite mxE (inj_eq ri) eq_sym (negbTE hk) mul0r //.
Qed.
Lemma dgf_mono h f : dgf h *m mono f = mono (fun g => h (r g) * f g).
Proof. by apply/matrixP => i j; rewrite mul_mono !mxE; case: eqP => [->|_]; rewrite ?mulr1n ?mulr0n ?mul0r. Qed.
Lemma mono_dgf h f : mono f *m dgf h = mono (fun g => f g * h g).
Proof.
apply/matrixP => i j; have [k ->] := r_onto i; rewrite mono_mul !mxE (inj_eq ri).
by case: eqP => [->|_]; rewrite ?mulr1n ?mulr0n ?mulr0.
Qed.
Lemma monoD f g : mono f + mono g = mono (fun k => f k + g k).
Proof. by apply/matrixP => i j; rewrite !mxE; case: eqP => _ //; rewrite addr0. Qed.
Lemma mono0 : (0 : 'M[C]_n) = mono (fun _ => 0).
Proof. by apply/matrixP => i j; rewrite !mxE; case: ifP. Qed.
Lemma tr_mono f g : (mono f)^T *m mono g = dgf (fun k => f k * g k).
Proof.
apply/matrixP => i j; rewrite mul_mono !mxE (inj_eq ri) eq_sym.
by case: eqP => [->|_]; rewrite ?mulr1n ?mulr0n ?mul0r.
Qed.
(** Products of diagonal and monomial quads. *)
Lemma quad_dm X Y : quad (fun x y => dgf (X x y)) *m quad (fun x y => mono (Y x y)) =
  quad (fun x y => mono (fun g => (X x 0%N (r g) * Y 0%N y g + X x 1%N (r g) * Y 1%N y g) + (X x 2%N (r g) * Y 2%N y g + X x 3%N (r g) * Y 3%N y g))).
Proof. by rewrite quadM; apply: eq_quad => x hx y hy; rewrite !dgf_mono !monoD. Qed.
Lemma quad_md X Y : quad (fun x y => mono (Y x y)) *m quad (fun x y => dgf (X x y)) =
  quad (fun x y => mono (fun g => (Y x 0%N g * X 0%N y g + Y x 1%N g * X 1%N y g) + (Y x 2%N g * X 2%N y g + Y x 3%N g * X 3%N y g))).
Proof. by rewrite quadM; apply: eq_quad => x hx y hy; rewrite !mono_dgf !monoD. Qed.
End Mono.

(** The direction of polarisation of one order. *)
Section Turn.
Variables a b s : R.
Hypothesis iso : isometry a b s.
Notation tn := (turn a b s).
Lemma turn_uvec kp g : uvec (tn kp) (tn g) = tn (uvec kp g).
Proof. by rewrite /uvec /turn /=; congr (_, _); ring. Qed.
Lemma turn_norm v : ((tn v).1 ^ 2 + (tn v).2 ^ 2 = v.1 ^ 2 + v.2 ^ 2)%Re.
Proof.
have [h1 h2] := iso; rewrite /turn /=; have h : (a * a = 1 - b * b)%Re by lra.
by case: h2 => ->; ring [h].
Qed.
Lemma turn_unorm kp g : unorm (tn kp) (tn g) = unorm kp g.
Proof. by rewrite /unorm turn_uvec turn_norm. Qed.
Lemma turn_kz eps wl kp g : compute_kz eps wl (tn kp) (tn g) = compute_kz eps wl kp g.
Proof. by rewrite /compute_kz turn_unorm. Qed.
Lemma tiny_unorm kp g : tiny (uvec kp g) = if Rlt_dec (unorm kp g ^ 2) float_eps then true else false.
Proof. by rewrite /tiny unorm2. Qed.
Lemma turn_tiny v : tiny (tn v) = tiny v.
Proof. by rewrite /tiny turn_norm. Qed.
Lemma udir_tiny kp g : tiny (uvec kp g) -> udir kp g = (1%Re, 0%Re).
Proof. by rewrite tiny_unorm /udir; case: Rlt_dec. Qed.
Lemma udir_turn kp g : ~~ tiny (uvec kp g) -> udir (tn kp) (tn g) = tn (udir kp g).
Proof.
rewrite tiny_unorm /udir turn_unorm turn_uvec; case: Rlt_dec => // h _; rewrite /turn /= /Rdiv; congr (_, _); ring.
Qed.

(** The waves of a medium. *)
Variables (n : nat) (L L' : lattice) (wl : R) (kp : vec2) (r : 'I_n -> 'I_n).
Hypothesis ri : injective r.
Hypothesis hg : forall g : 'I_n, l_g L' (r g) = tn (l_g L g).
Definition fields_turn (x y : nat) : C := RtoC
  match x, y with
  | 0%N, 0%N | 3%N, 3%N => a | 0%N, 1%N => b | 1%N, 0%N => (- (s * b))%Re | 1%N, 1%N | 2%N, 2%N => (s * a)%Re
  | 2%N, 3%N => (s * b)%Re | 3%N, 2%N => (- b)%Re | _, _ => 0%Re
  end.
Definition waves_turn (x y : nat) (g : 'I_n) : C :=
  let u := uvec kp (l_g L g) in RtoC
  match x, y with
  | 0%N, 0%N => pol_turn a b s true u false false | 0%N, 1%N => pol_turn a b s true u false true
  | 1%N, 0%N => pol_turn a b s true u true false | 1%N, 1%N => pol_turn a b s true u true true
  | 2%N, 2%N => pol_turn a b s false u false false | 2%N, 3%N => pol_turn a b s false u false true
  | 3%N, 2%N => pol_turn a b s false u true false | 3%N, 3%N => pol_turn a b s false u true true
  | _, _ => 0%Re
  end.
Definition Pm : 'M[C]_((n + n) + (n + n)) := quad (fun x y => mono r (fun _ => fields_turn x y)).
Definition Dm : 'M[C]_((n + n) + (n + n)) := quad (fun x y => mono r (waves_turn x y)).
Definition slant (eps : num) (g : 'I_n) : C := compute_kz eps wl kp (l_g L g) / (cmath_sqrt eps * RtoC twopi / RtoC wl).
Lemma waves_V eps V : b = 0%Re \/ (forall g : 'I_n, tiny (uvec kp (l_g L g)) -> slant eps g = 1) -> n = l_ng L' ->
  lattice_V n L eps wl kp = Ok V -> exists2 V', lattice_V n L' eps wl (tn kp) = Ok V' & V' *m Dm = Pm *m V.
Proof.
move=> ok hn hV; have [_ w0 e0 hv] := lattice_VE hV.
rewrite /lattice_V -hn eqxx /=; destruct (Req_EM_T wl 0) as [h|h] => //.
case hm : (@window_mu n L' eps wl (tn kp)) => [m|]; last by move: hm; rewrite /window_mu (negbTE e0).
have [_ em] := window_muE hm; cbn [bind]; rewrite em.
move: hv; rewrite /matrix_v; case: (np_sqrt eps) => [z|//]; cbn [bind] => -[<-]; eexists; first by [].
rewrite /Dm /Pm quad_dm // quad_md //; apply: eq_quad => x hx y hy; apply: eq_mono => g.
have ek : compute_kz eps wl (tn kp) (l_g L' (r g)) = compute_kz eps wl kp (l_g L g) by rewrite hg turn_kz.
have [f ef] : exists f, compute_kz eps wl kp (l_g L g) / (cmath_sqrt eps * RtoC twopi / RtoC wl) = f by eexists.
move: (z / RtoC mu0c) => w.
have [h1 h2'] := iso; have h2 : s = 1%Re \/ s = (- (1))%Re by case: h2' => ->; [left|right; ring].
case ht : (tiny (uvec kp (l_g L g))).
  have ht' : tiny (uvec (tn kp) (tn (l_g L g))) by rewrite turn_uvec turn_tiny.
  have eu := udir_tiny ht; have := udir_tiny ht'; rewrite -hg => eu'; case: ok => [hb|/(_ g ht)]; last rewrite /slant ef => ef1.
    case: x hx => [|[|[|[|x]]]] // _; case: y hy => [|[|[|[|y]]]] // _; cbv beta iota delta [fields_turn waves_turn pol_turn muf compute_eta etaf]; cbv zeta; cbn [fst snd]; rewrite ht ?ek ?ef ?eu' ?eu hb /=;
     case: h2 => ->; rewrite ?(RtoC_opp, RtoC_mult, RtoC_plus); cring.
  case: x hx => [|[|[|[|x]]]] // _; case: y hy => [|[|[|[|y]]]] // _; cbv beta iota delta [fields_turn waves_turn pol_turn muf compute_eta etaf]; cbv zeta; cbn [fst snd]; rewrite ht ?ek ?ef ?eu' ?eu ?ef1 /=;
     case: h2 => ->; rewrite ?(RtoC_opp, RtoC_mult, RtoC_plus); cring.
have eu' : udir (tn kp) (l_g L' (r g)) = tn (udir kp (l_g L g)) by rewrite hg udir_turn // ht.
move: eu'; move E : (udir kp (l_g L g)) => u eu'.
case: x hx => [|[|[|[|x]]]] // _; case: y hy => [|[|[|[|y]]]] // _; cbv beta iota delta [fields_turn waves_turn pol_turn muf compute_eta etaf]; cbv zeta; cbn [fst snd]; rewrite ht ?ek ?ef ?eu' ?E /turn /=;
     case: h2 => ->; rewrite ?(RtoC_opp, RtoC_mult, RtoC_plus); cring.
Qed.
End Turn.
