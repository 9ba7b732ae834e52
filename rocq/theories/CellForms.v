(** Quadratic forms of the Fourier coefficients of a map of the cell. *)
From Coq Require Import Reals ZArith Lra Lia.
From mathcomp Require Import all_ssreflect all_algebra.
From Coquelicot Require Import Complex RInt Hierarchy.
From Verif Require Import Base CField CFun ModelExpansion ModelFourier SpecLattice SpecTransform FourierProofs TransformProofs ModelExtension ModelDevice IslandProofs.
Set Implicit Arguments. Unset Strict Implicit. Unset Printing Implicit Defensive.
Import GRing.Theory.
Local Open Scope ring_scope.

Lemma cint2_sum (I : Type) (r : seq I) (f : I -> R -> R -> C) (v : I -> C) a b c d :
  (forall i, cint2 (f i) a b c d (v i)) -> cint2 (fun x y => \sum_(i <- r) f i x y) a b c d (\sum_(i <- r) v i).
Proof.
move=> h; elim: r => [|i r ih].
  rewrite big_nil; exists (fun=> 0); split; last exact: cint0.
  by move=> y; apply: cint_ext (cint0 _ _) => x _; rewrite big_nil.
rewrite big_cons; apply: cint2_ext (cint2D (h i) ih) => x y; by rewrite big_cons.
Qed.
(** The integral of a function with a nonnegative imaginary part. *)
Lemma cint2_im f a b c d v : (a <= b)%Re -> (c <= d)%Re -> (forall x y, 0 <= snd (f x y))%Re -> cint2 f a b c d v -> (0 <= snd v)%Re.
Proof.
move=> ab cd h [g [hg [_ hv]]]; apply: (is_RInt_ge_0 (fun y => snd (g y)) c d) => // y _.
by have [_ hy] := hg y; apply: (is_RInt_ge_0 (fun x => snd (f x y)) a b).
Qed.

Lemma planewave_minus g h x y : planewave (minus2 g h) x y = planewave g x y * Cconj (planewave h x y).
Proof.
rewrite /planewave /minus2; cbn [fst snd].
have -> : ((g.1 - h.1) * x + (g.2 - h.2) * y = (g.1 * x + g.2 * y) - (h.1 * x + h.2 * y))%Re by ring.
by rewrite cos_minus sin_minus; apply: C_ext => /=; ring.
Qed.
Section Form.
Variables (n : nat) (Lx Ly : R) (f : R -> R -> C) (G : 'I_n -> vec2) (w : 'I_n -> 'I_n -> C).
Hypotheses (Lx0 : (0 < Lx)%Re) (Ly0 : (0 < Ly)%Re).
Hypothesis hw : forall i j, fourier_integral Lx Ly f (minus2 (G i) (G j)) (w i j).
Definition trial (x : 'cV[C]_n) (a b : R) : C := \sum_j x j 0 * Cconj (planewave (G j) a b).
(** The form is the integral of the map times the intensity of the field with these
    coefficients. *)
Lemma form_integral (x : 'cV[C]_n) :
  cint2 (fun a b => f a b * RtoC (Cmod (trial x a b) ^ 2)%Re) 0 Lx 0 Ly (RtoC (Lx * Ly)%Re * \sum_i \sum_j Cconj (x i 0) * w i j * x j 0).
Proof.
rewrite mulr_sumr.
have h : cint2 (fun a b => \sum_i \sum_j (Cconj (x i 0) * x j 0) * (f a b * planewave (minus2 (G i) (G j)) a b)) 0 Lx 0 Ly
   (\sum_i \sum_j (Cconj (x i 0) * x j 0) * (RtoC (Lx * Ly)%Re * w i j)).
  by apply: cint2_sum => i; apply: cint2_sum => j; apply: cint2Z; exact: hw.
have -> : \sum_i RtoC (Lx * Ly)%Re * (\sum_j Cconj (x i 0) * w i j * x j 0) = \sum_i \sum_j (Cconj (x i 0) * x j 0) * (RtoC (Lx * Ly)%Re * w i j).
  by apply: eq_bigr => i _; rewrite mulr_sumr; apply: eq_bigr => j _; cring.
apply: cint2_ext h => a b.
have -> : RtoC (Cmod (trial x a b) ^ 2)%Re = Cconj (trial x a b) * trial x a b.
  move: (trial x a b) => z; have e : (Cmod z ^ 2 = fst z ^ 2 + snd z ^ 2)%Re.
    by rewrite /Cmod pow2_sqrt //; have := pow2_ge_0 (fst z); have := pow2_ge_0 (snd z); lra.
  by rewrite e; apply: C_ext => /=; ring.
rewrite {1}/trial conjC_sum mulr_suml mulr_sumr; apply: eq_bigr => i _.
rewrite /trial !mulr_sumr; apply: eq_bigr => j _.
by rewrite planewave_minus conjCM conjCK; cring.
Qed.
Lemma form_im (x : 'cV[C]_n) : (forall a b, 0 <= snd (f a b))%Re -> (0 <= snd (\sum_i \sum_j Cconj (x i 0) * w i j * x j 0 : C))%Re.
Proof.
move=> h; have := form_integral x; move: (\sum_i _) => z hz.
have : (0 <= snd (RtoC (Lx * Ly)%Re * z)%R)%Re.
  apply: (cint2_im (Rlt_le _ _ Lx0) (Rlt_le _ _ Ly0) _ hz) => a b.
  have q := pow2_ge_0 (Cmod (trial x a b)); have := h a b; move: (f a b) => u; rewrite /=; nra.
have p : (0 < Lx * Ly)%Re by exact: Rmult_lt_0_compat.
rewrite /= => k; nra.
Qed.
End Form.
Lemma form_im_neg n Lx Ly (f : R -> R -> C) (G : 'I_n -> vec2) (w : 'I_n -> 'I_n -> C) (x : 'cV[C]_n) :
  (0 < Lx)%Re -> (0 < Ly)%Re -> (forall i j, fourier_integral Lx Ly f (minus2 (G i) (G j)) (w i j)) ->
  (forall a b, snd (f a b) <= 0)%Re -> (snd (\sum_i \sum_j Cconj (x i 0%R) * w i j * x j 0%R : C)%R <= 0)%Re.
Proof.
move=> Lx0 Ly0 hw hf.
have hw' i j : fourier_integral Lx Ly (fun a b => - f a b) (minus2 (G i) (G j)) (- w i j).
  have := cint2Z (-1) (hw i j); rewrite mulN1r -mulrN; apply: cint2_ext => a b; by rewrite mulN1r -mulNr.
have := form_im Lx0 Ly0 hw' x; have -> : \sum_i \sum_j Cconj (x i 0) * - w i j * x j 0 = - \sum_i \sum_j Cconj (x i 0) * w i j * x j 0.
  by rewrite -sumrN; apply: eq_bigr => i _; rewrite -sumrN; apply: eq_bigr => j _; rewrite mulrN mulNr.
move=> h; have {}h := h _; move: (\sum_i _) h => z h.
have : (0 <= snd (- z)%R)%Re by apply: h => a b; have := hf a b; move: (f a b) => u; rewrite /=; lra.
by rewrite /=; lra.
Qed.
(** A drawn map. *)
Lemma drawn_ind (Q : C -> Prop) islands host x y : Q host -> (forall p e, List.In (p, e) islands -> Q e) -> Q (drawn islands host x y).
Proof.
move=> h0; elim: islands => [|[p e] rest ih] //= h; case: (p x y); first by apply: (h p); left.
by apply: ih => q e' hi; apply: (h q); right.
Qed.
