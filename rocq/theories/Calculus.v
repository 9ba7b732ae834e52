(** Derivatives of complex- and matrix-valued functions of a real variable. *)
From Coq Require Import Reals Lra.
From mathcomp Require Import all_ssreflect all_algebra.
From Coquelicot Require Import Complex Derive Hierarchy Continuity RInt.
From Verif Require Import Base CField CFun SpecEnergy EnergyAlg.
Set Implicit Arguments. Unset Strict Implicit. Unset Printing Implicit Defensive.
Import GRing.Theory.
Local Open Scope ring_scope.

Definition rder (f : R -> R) (z d : R) : Prop := derivable_pt_lim f z d.
Definition cder (f : R -> C) (z : R) (d : C) : Prop :=
  rder (fun t => fst (f t)) z (fst d) /\ rder (fun t => snd (f t)) z (snd d).
Definition mder m n (f : R -> 'M[C]_(m, n)) (z : R) (d : 'M[C]_(m, n)) : Prop :=
  forall i j, cder (fun t => f t i j) z (d i j).

Lemma rder_ext f g z d : f =1 g -> rder f z d -> rder g z d.
Proof. by move=> h hf e he; case: (hf e he) => dl hd; exists dl => x; rewrite -!h; exact: hd. Qed.
Lemma rder_const c z : rder (fun _ => c) z 0%Re.
Proof. exact: derivable_pt_lim_const. Qed.
Lemma rderD f g z a b : rder f z a -> rder g z b -> rder (fun t => f t + g t)%Re z (a + b)%Re.
Proof. by move=> *; apply: derivable_pt_lim_plus. Qed.
Lemma rderN f z a : rder f z a -> rder (fun t => - f t)%Re z (- a)%Re.
Proof. by move=> *; apply: derivable_pt_lim_opp. Qed.
Lemma rderM f g z a b : rder f z a -> rder g z b ->
  rder (fun t => f t * g t)%Re z (a * g z + f z * b)%Re.
Proof. by move=> *; apply: derivable_pt_lim_mult. Qed.

Lemma cder_ext f g z d : f =1 g -> cder f z d -> cder g z d.
Proof. by move=> h [h1 h2]; split; [apply: rder_ext h1 | apply: rder_ext h2] => t; rewrite h. Qed.
Lemma cder_const c z : cder (fun _ => c) z 0.
Proof. by split; exact: rder_const. Qed.
Lemma cderD f g z a b : cder f z a -> cder g z b -> cder (fun t => f t + g t) z (a + b).
Proof. by move=> [h1 h2] [h3 h4]; split; apply: rderD. Qed.
Lemma cderN f z a : cder f z a -> cder (fun t => - f t) z (- a).
Proof. by move=> [h1 h2]; split; apply: rderN. Qed.
Lemma rder_eq f z a b : rder f z a -> a = b -> rder f z b.
Proof. by move=> h <-. Qed.
Lemma cderM f g z a b : cder f z a -> cder g z b ->
  cder (fun t => f t * g t) z (a * g z + f z * b).
Proof.
move=> [h1 h2] [h3 h4]; split.
  apply: rder_eq; first by apply: rderD; [exact: rderM h1 h3 | apply: rderN; exact: rderM h2 h4].
  by rewrite /=; ring.
apply: rder_eq; first by apply: rderD; [exact: rderM h1 h4 | exact: rderM h2 h3].
by rewrite /=; ring.
Qed.
Lemma cder_conj f z a : cder f z a -> cder (fun t => Cconj (f t)) z (Cconj a).
Proof. by move=> [h1 h2]; split=> //; apply: rderN. Qed.
Lemma cder_sum (I : finType) (f : I -> R -> C) z (d : I -> C) :
  (forall i, cder (f i) z (d i)) -> cder (fun t => \sum_i f i t) z (\sum_i d i).
Proof.
move=> h; elim: (index_enum I) => [|i s IH].
  by rewrite big_nil; apply: cder_ext (cder_const 0 z) => t; rewrite big_nil.
by rewrite big_cons; apply: cder_ext (cderD (h i) IH) => t; rewrite big_cons.
Qed.
Lemma cder_exp (l : C) (k z : R) :
  cder (fun t => cexp (l * RtoC (t * k)%Re)) z (RtoC k * l * cexp (l * RtoC (z * k)%Re)).
Proof.
have lin (a : R) : rder (fun t => a * (t * k))%Re z (a * k)%Re.
  have h := rderM (rder_const (a * k)%Re z) (derivable_pt_lim_id z).
  apply: rder_eq; first by apply: rder_ext h => t; rewrite /Ranalysis1.id; ring.
  by rewrite /Ranalysis1.id; ring.
have he : rder (fun t => exp (fst l * (t * k)))%Re z (exp (fst l * (z * k)) * (fst l * k))%Re.
  by apply: (derivable_pt_lim_comp _ _ _ _ _ (lin (fst l))); exact: derivable_pt_lim_exp.
have hc : rder (fun t => cos (snd l * (t * k)))%Re z (- sin (snd l * (z * k)) * (snd l * k))%Re.
  by apply: (derivable_pt_lim_comp _ _ _ _ _ (lin (snd l))); exact: derivable_pt_lim_cos.
have hs : rder (fun t => sin (snd l * (t * k)))%Re z (cos (snd l * (z * k)) * (snd l * k))%Re.
  by apply: (derivable_pt_lim_comp _ _ _ _ _ (lin (snd l))); exact: derivable_pt_lim_sin.
have e1 t : fst (l * RtoC (t * k)%Re)%R = (fst l * (t * k))%Re by rewrite /=; ring.
have e2 t : snd (l * RtoC (t * k)%Re)%R = (snd l * (t * k))%Re by rewrite /=; ring.
split.
  apply: rder_eq; first by apply: rder_ext (rderM he hc) => t; rewrite /cexp [RHS]/fst e1 e2.
  by rewrite /cexp e1 e2 /=; ring.
apply: rder_eq; first by apply: rder_ext (rderM he hs) => t; rewrite /cexp [RHS]/snd e1 e2.
by rewrite /cexp e1 e2 /=; ring.
Qed.

Section Mx.
Variables (m n p : nat).
Lemma mder_const (A : 'M[C]_(m, n)) z : mder (fun _ => A) z 0.
Proof. by move=> i j; rewrite mxE; exact: cder_const. Qed.
Lemma mderD (f g : R -> 'M[C]_(m, n)) z a b :
  mder f z a -> mder g z b -> mder (fun t => f t + g t) z (a + b).
Proof. by move=> h1 h2 i j; rewrite mxE; apply: cder_ext (cderD (h1 i j) (h2 i j)) => t; rewrite mxE. Qed.
Lemma mderN (f : R -> 'M[C]_(m, n)) z a : mder f z a -> mder (fun t => - f t) z (- a).
Proof. by move=> h1 i j; rewrite mxE; apply: cder_ext (cderN (h1 i j)) => t; rewrite mxE. Qed.
Lemma mderM (f : R -> 'M[C]_(m, n)) (g : R -> 'M[C]_(n, p)) z a b :
  mder f z a -> mder g z b -> mder (fun t => f t *m g t) z (a *m g z + f z *m b).
Proof.
move=> h1 h2 i j; rewrite !mxE -big_split /=.
apply: cder_ext (@cder_sum _ (fun k t => f t i k * g t k j) z _ (fun k => cderM (h1 i k) (h2 k j))) => t.
by rewrite mxE.
Qed.
Lemma mder_adj (f : R -> 'M[C]_(m, n)) z a : mder f z a -> mder (fun t => adj (f t)) z (adj a).
Proof. by move=> h i j; rewrite !mxE; apply: cder_ext (cder_conj (h j i)) => t; rewrite !mxE. Qed.
End Mx.
Lemma mderMc m n p (A : 'M[C]_(m, n)) (g : R -> 'M[C]_(n, p)) z b :
  mder g z b -> mder (fun t => A *m g t) z (A *m b).
Proof. by move=> h; have := mderM (mder_const A z) h; rewrite mul0mx add0r. Qed.

(** Mean value theorem, in the form needed: the sign of the derivative. *)
Lemma rder_decreasing (f f' : R -> R) (a b : R) : (a <= b)%Re ->
  (forall z, rder f z (f' z)) -> (forall z, (f' z <= 0)%Re) -> (f b <= f a)%Re.
Proof.
move=> [ab|->] h hn; last exact: Rle_refl.
have [|c [hc _]] := MVT_cor2 f f' a b ab _; first by move=> c _; exact: h.
by have := hn c; nra.
Qed.
Lemma rder_constant (f f' : R -> R) (a b : R) :
  (forall z, rder f z (f' z)) -> (forall z, f' z = 0%Re) -> f b = f a.
Proof.
have key x y : (forall z, rder f z (f' z)) -> (forall z, f' z = 0%Re) -> (x < y)%Re -> f y = f x.
  move=> h hn xy; have [|c [hc _]] := MVT_cor2 f f' x y xy _; first by move=> c _; exact: h.
  by move: hc; rewrite hn; lra.
move=> h hn; case: (Rtotal_order a b) => [ab|[->//|ab]]; first exact: key.
by symmetry; exact: key.
Qed.
