(** Proofs about derivatives of matrices of complex functions, and the growth of a
    quadratic form along a matrix exponential. *)
From Coq Require Import Reals Lra Lia.
From mathcomp Require Import all_ssreflect all_algebra.
From Coquelicot Require Import Hierarchy Rbar Lub Series PSeries Derive Complex.
From Verif Require Import SpecEnergy Base CField RField CFun SpecExp ExpProofs.
Set Implicit Arguments. Unset Strict Implicit. Unset Printing Implicit Defensive.
Import GRing.Theory.
Local Open Scope ring_scope.

(** The derivative of a complex function of a real variable. *)
Definition derC (u : R -> C) (t : R) (d : C) : Prop :=
  is_derive (fun s => fst (u s)) t (fst d) /\ is_derive (fun s => snd (u s)) t (snd d).
Lemma derC_ext u v t d : (forall s, u s = v s) -> derC u t d -> derC v t d.
Proof. by move=> e [h1 h2]; split; [apply: is_derive_ext h1|apply: is_derive_ext h2] => s; rewrite e. Qed.
Lemma derC_const c t : derC (fun=> c) t 0.
Proof. by split; exact: is_derive_const. Qed.
Lemma derCD u v t d e : derC u t d -> derC v t e -> derC (fun s => u s + v s) t (d + e).
Proof. by case=> h1 h2 [h3 h4]; split; apply: (is_derive_plus (V := R_NormedModule)). Qed.
Lemma is_derive_val (f : R -> R) t (d d' : R) : is_derive f t d -> d = d' -> is_derive f t d'.
Proof. by move=> h <-. Qed.
Lemma derCM u v t d e : derC u t d -> derC v t e -> derC (fun s => u s * v s) t (d * v t + u t * e).
Proof.
case=> h1 h2 [h3 h4].
have mul (f g : R -> R) (a b : R) : is_derive f t a -> is_derive g t b -> is_derive (fun s => (f s * g s)%Re) t (a * g t + f t * b)%Re.
  by move=> /is_derive_Reals ha /is_derive_Reals hb; apply/is_derive_Reals; exact: derivable_pt_lim_mult.
have sub (f g : R -> R) (a b : R) : is_derive f t a -> is_derive g t b -> is_derive (fun s => (f s - g s)%Re) t (a - b)%Re.
  by move=> ha hb; exact: (is_derive_minus (V := R_NormedModule) f g t a b ha hb).
have add (f g : R -> R) (a b : R) : is_derive f t a -> is_derive g t b -> is_derive (fun s => (f s + g s)%Re) t (a + b)%Re.
  by move=> ha hb; exact: (is_derive_plus (V := R_NormedModule) f g t a b ha hb).
split; [apply: is_derive_val (sub _ _ _ _ (mul _ _ _ _ h1 h3) (mul _ _ _ _ h2 h4)) _|apply: is_derive_val (add _ _ _ _ (mul _ _ _ _ h1 h4) (mul _ _ _ _ h2 h3)) _].
all: by rewrite /=; ring.
Qed.
Lemma derC_conj u t d : derC u t d -> derC (fun s => Cconj (u s)) t (Cconj d).
Proof. by case=> h1 h2; split=> //; exact: (is_derive_opp (V := R_NormedModule)). Qed.
Lemma derC_sum (I : Type) (r : seq I) (u : I -> R -> C) (d : I -> C) t : (forall i, derC (u i) t (d i)) ->
  derC (fun s => \sum_(i <- r) u i s) t (\sum_(i <- r) d i).
Proof.
move=> h; elim: r => [|i r ih].
  by rewrite big_nil; apply: (@derC_ext (fun=> 0)) => [s|]; [rewrite big_nil|exact: derC_const].
rewrite big_cons; apply: (@derC_ext (fun s => u i s + \sum_(i <- r) u i s)) => [s|]; first by rewrite big_cons.
exact: derCD.
Qed.

(** Matrices, entry by entry. *)
Definition derM m n (Y : R -> 'M[C]_(m, n)) (t : R) (D : 'M[C]_(m, n)) : Prop := forall i j, derC (fun s => Y s i j) t (D i j).
Lemma derM_const m n (A : 'M[C]_(m, n)) t : derM (fun=> A) t 0.
Proof. by move=> i j; rewrite mxE; exact: derC_const. Qed.
Lemma derMM m n p (Y : R -> 'M[C]_(m, n)) (Z : R -> 'M[C]_(n, p)) t D E : derM Y t D -> derM Z t E ->
  derM (fun s => Y s *m Z s) t (D *m Z t + Y t *m E).
Proof.
move=> h1 h2 i j; rewrite !mxE -big_split /=.
apply: (@derC_ext (fun s => \sum_k Y s i k * Z s k j)) => [s|]; first by rewrite mxE.
by apply: derC_sum => k; exact: derCM.
Qed.
Lemma derM_adj m n (Y : R -> 'M[C]_(m, n)) t D : derM Y t D -> derM (fun s => adj (Y s)) t (adj D).
Proof.
move=> h i j; rewrite !mxE; apply: (@derC_ext (fun s => Cconj (Y s j i))) => [s|]; first by rewrite !mxE.
exact: derC_conj.
Qed.

Section Exp.
Variable n : nat.
Implicit Types X J : 'M[C]_n.

Lemma mpowZ X (c : C) k : mpow (c *: X) k = c ^+ k *: mpow X k.
Proof.
elim: k => [|k ih] /=; first by rewrite expr0 scale1r.
by rewrite ih -scalemxAl -scalemxAr scalerA exprS.
Qed.
Lemma RtoC_pow (t : R) k : RtoC t ^+ k = RtoC (t ^ k).
Proof. by elim: k => [//|k ih]; rewrite exprS ih /= RtoC_mult. Qed.
(** A real power series that converges everywhere can be differentiated. *)
Lemma pseries_derive (a : nat -> R) (f : R -> R) (g : R -> R) t :
  (forall s, ex_series (fun k => Rabs (a k * s ^ k))) ->
  (forall s, is_series (fun k => a k * s ^ k)%Re (f s)) ->
  (forall s, is_series (fun k => INR k.+1 * a k.+1 * s ^ k)%Re (g s)) -> is_derive f t (g t).
Proof.
move=> hc hf hg.
have pw (b : nat -> R) s l : is_series (fun k => b k * s ^ k)%Re l -> is_pseries b s l.
  by apply: is_series_ext => k; rewrite /scal /= /mult /= pow_n_pow Rmult_comm.
have ef s : f s = PSeries a s by rewrite (is_pseries_unique _ _ _ (pw _ _ _ (hf s))).
have eg : g t = PSeries (PS_derive a) t by rewrite (is_pseries_unique _ _ _ (pw (PS_derive a) _ _ (hg t))).
rewrite eg; apply: (is_derive_ext (PSeries a)) => [s|]; first by rewrite ef.
apply: is_derive_PSeries.
have : Rbar_le (Rabs t + 1)%Re (CV_radius a).
  have [h _] := Lub_Rbar_correct (CV_disk a); apply: h; exact: hc.
case: (CV_radius a) => //= r; lra.
Qed.
Lemma exp_derive X t : derM (fun s => mexp (RtoC s *: X)) t (X *m mexp (RtoC t *: X)).
Proof.
move=> i j.
pose c k := RtoC (/ INR (Factorial.fact k)) * mpow X k i j.
have term s k : exp_term (RtoC s *: X) k i j = RtoC (s ^ k)%Re * c k.
  by rewrite /exp_term mpowZ !mxE RtoC_pow /c mulrCA.
have term' s k : (X *m exp_term (RtoC s *: X) k) i j = RtoC (s ^ k)%Re * (RtoC (INR k.+1) * c k.+1).
  rewrite /exp_term mpowZ RtoC_pow -!scalemxAr mxE mxE mulrCA; congr (_ * _).
  rewrite /c -[Factorial.fact k.+1]/(k.+1 * Factorial.fact k)%coq_nat mult_INR.
  rewrite mulrA; congr (_ * _); rewrite -[RHS]RtoC_mult; congr RtoC.
  by field; split; [exact: INR_fact_neq_0|exact: not_0_INR].
have ab s : ex_series (fun k => Cmod (RtoC (s ^ k)%Re * c k)).
  by apply: ex_series_ext (exp_term_abs (RtoC s *: X) i j) => k; rewrite term.
have S1 s := mexpP (RtoC s *: X) i j.
have S2 s := exp_sum_lmul X i j (mexpP (RtoC s *: X)).
have real (r : R) (z : C) : fst (RtoC r * z) = (fst z * r)%Re /\ snd (RtoC r * z) = (snd z * r)%Re.
  by split=> /=; ring.
split.
- apply: (@pseries_derive (fun k => fst (c k)) (fun s => fst (mexp (RtoC s *: X) i j)) (fun s => fst ((X *m mexp (RtoC s *: X)) i j))).
  + move=> s; apply: ex_series_le (ab s) => k; rewrite /norm /= /abs /= Rabs_Rabsolu.
    by rewrite -(real (s ^ k)%Re (c k)).1; exact: Cmod_ge_abs_re.
  + move=> s; have [h _] := S1 s; apply: is_series_ext h => k.
    by rewrite term (real _ _).1.
  + move=> s; have [h _] := S2 s; apply: is_series_ext h => k.
    by rewrite term' (real _ _).1 (real _ _).1; match goal with |- @eq _ ?a ?b => change (@eq R a b) end; ring.
- apply: (@pseries_derive (fun k => snd (c k)) (fun s => snd (mexp (RtoC s *: X) i j)) (fun s => snd ((X *m mexp (RtoC s *: X)) i j))).
  + move=> s; apply: ex_series_le (ab s) => k; rewrite /norm /= /abs /= Rabs_Rabsolu.
    by rewrite -(real (s ^ k)%Re (c k)).2; exact: Cmod_ge_abs_im.
  + move=> s; have [_ h] := S1 s; apply: is_series_ext h => k.
    by rewrite term (real _ _).2.
  + move=> s; have [_ h] := S2 s; apply: is_series_ext h => k.
    by rewrite term' (real _ _).2 (real _ _).2; match goal with |- @eq _ ?a ?b => change (@eq R a b) end; ring.
Qed.

(** The value of a form. *)
Definition formval J (F : 'cV[C]_n) : R := fst ((adj F *m J *m F) 0 0).
Lemma exp_grows J X (F : 'cV[C]_n) : (forall G, 0 <= formval (adj X *m J + J *m X) G)%Re ->
  (formval J F <= formval J (mexp X *m F))%Re.
Proof.
move=> h.
pose y (s : R) := mexp (RtoC s *: X) *m F.
pose f (s : R) := formval J (y s).
have dy t : derM y t (X *m y t).
  have := derMM (exp_derive X t) (derM_const F t); rewrite mulmx0 addr0 -mulmxA; exact.
have df t : is_derive f t (formval (adj X *m J + J *m X) (y t)).
  have [h1 _] := derMM (derMM (derM_adj (dy t)) (derM_const J t)) (dy t) 0 0.
  apply: is_derive_val h1 _.
  rewrite mulmx0 addr0 /formval; congr (fst (_ _ _)).
  rewrite mulmxDr mulmxDl /adj trmx_mul map_mxM /= !mulmxA; reflexivity.
have f1 : f 1%Re = formval J (mexp X *m F) by rewrite /f /y scale1r.
have f0 : f 0%Re = formval J F by rewrite /f /y scale0r exp0 mul1mx.
rewrite -f1 -f0.
have hcont x : continuity_pt f x by apply: derivable_continuous_pt; exists (formval (adj X *m J + J *m X) (y x)); apply/is_derive_Reals; exact: df.
have [c [hc e]] := MVT_gen f 0%Re 1%Re (fun s => formval (adj X *m J + J *m X) (y s)) (fun x _ => df x) (fun x _ => hcont x).
have := h (y c); lra.
Qed.
End Exp.
