(** Lemmas on adjoints, sesquilinear forms and power. *)
From Coq Require Import Reals Lra.
From mathcomp Require Import all_ssreflect all_algebra.
From Coquelicot Require Import Complex.
From Verif Require Import Base CField CFun ModelRedheffer SpecScatter SpecEnergy RedhefferProofs ZmodTac.
Set Implicit Arguments. Unset Strict Implicit. Unset Printing Implicit Defensive.
Import GRing.Theory.
Local Open Scope ring_scope.

Lemma adjM m n p (A : 'M[C]_(m, n)) (B : 'M[C]_(n, p)) : adj (A *m B) = adj B *m adj A.
Proof. by rewrite /adj trmx_mul map_mxM. Qed.
Lemma adjD m n (A B : 'M[C]_(m, n)) : adj (A + B) = adj A + adj B.
Proof. by rewrite /adj raddfD map_mxD. Qed.
Lemma adjN m n (A : 'M[C]_(m, n)) : adj (- A) = - adj A.
Proof. by rewrite /adj raddfN map_mxN. Qed.
Lemma adjB m n (A B : 'M[C]_(m, n)) : adj (A - B) = adj A - adj B.
Proof. by rewrite adjD adjN. Qed.
Lemma adjZ m n (c : C) (A : 'M[C]_(m, n)) : adj (c *: A) = Cconj c *: adj A.
Proof. by apply/matrixP => i j; rewrite !mxE conjCM. Qed.
Lemma adjK m n (A : 'M[C]_(m, n)) : adj (adj A) = A.
Proof. by apply/matrixP => i j; rewrite !mxE conjCK. Qed.
Lemma adj1 n : adj 1%:M = 1%:M :> 'M[C]_n.
Proof. by rewrite /adj trmx1 map_mx1. Qed.
Lemma adj0 m n : adj 0 = 0 :> 'M[C]_(m, n).
Proof. by rewrite /adj trmx0 map_mx0. Qed.
Lemma adj_scalar n (c : C) : adj c%:M = (Cconj c)%:M :> 'M[C]_n.
Proof. by rewrite -scalemx1 adjZ adj1 scalemx1. Qed.
Lemma adj_diag n (r : 'rV[C]_n) : adj (diag_mx r) = diag_mx (map_mx Cconj r).
Proof. by rewrite /adj tr_diag_mx map_diag_mx. Qed.
Lemma adj_col m n p (A : 'M[C]_(m, p)) (B : 'M[C]_(n, p)) :
  adj (col_mx A B) = row_mx (adj A) (adj B).
Proof. by rewrite /adj tr_col_mx map_row_mx. Qed.
Lemma adj_row m n p (A : 'M[C]_(p, m)) (B : 'M[C]_(p, n)) :
  adj (row_mx A B) = col_mx (adj A) (adj B).
Proof. by rewrite /adj tr_row_mx map_col_mx. Qed.
Lemma adj_block m1 m2 n1 n2 (A : 'M[C]_(m1, n1)) (B : 'M[C]_(m1, n2))
    (D : 'M[C]_(m2, n1)) (E : 'M[C]_(m2, n2)) :
  adj (block_mx A B D E) = block_mx (adj A) (adj D) (adj B) (adj E).
Proof. by rewrite /adj tr_block_mx map_block_mx. Qed.
Lemma adj_unit n (A : 'M[C]_n) : (adj A \in unitmx) = (A \in unitmx).
Proof. by rewrite /adj map_unitmx unitmx_tr. Qed.
Lemma adj_inv n (A : 'M[C]_n) : adj (invmx A) = invmx (adj A).
Proof. by rewrite /adj trmx_inv map_invmx. Qed.

Lemma sqmodE (z : C) : RtoC (sqmod z) = Cconj z * z.
Proof. apply: C_ext => /=; rewrite /sqmod; ring. Qed.
Lemma sqmod_ge0 z : (0 <= sqmod z)%Re.
Proof. rewrite /sqmod; nra. Qed.
Lemma sqmod_eq0 z : sqmod z = 0%Re -> z = 0.
Proof. by move=> h; case: (Rplus_sqr_eq_0 (fst z) (snd z) h) => *; exact: C_ext. Qed.
Lemma sqmodM x y : sqmod (x * y) = (sqmod x * sqmod y)%Re.
Proof. rewrite /sqmod /=; ring. Qed.
Lemma sqmod_Cmod z : sqmod z = (Cmod z * Cmod z)%Re.
Proof. by rewrite Cmod_sqr. Qed.

Lemma powerE n (v : 'cV[C]_n) : RtoC (power v) = (adj v *m v) 0 0.
Proof.
by rewrite rmorph_sum mxE; apply: eq_bigr => i _; rewrite !mxE; exact: sqmodE.
Qed.
Lemma power_col m n (a : 'cV[C]_m) (b : 'cV[C]_n) : power (col_mx a b) = (power a + power b)%Re.
Proof.
rewrite /power big_split_ord /=; congr Rplus; apply: eq_bigr => i _;
 by rewrite ?col_mxEu ?col_mxEd.
Qed.
Lemma power_ge0 n (v : 'cV[C]_n) : (0 <= power v)%Re.
Proof.
rewrite /power; elim/big_rec: _ => [|i x _ h]; first exact: Rle_refl.
by apply: Rplus_le_le_0_compat => //; exact: sqmod_ge0.
Qed.
Lemma power_eq0 n (v : 'cV[C]_n) : power v = 0%Re -> v = 0.
Proof.
elim: n v => [|n IH] v; first by move=> _; apply/colP => -[].
have {2}-> : v = col_mx (usubmx (v : 'cV_(1 + n))) (dsubmx (v : 'cV_(1 + n))) by rewrite vsubmxK.
rewrite /power big_ord_recl => h.
have h1 : (0 <= \sum_(i < n) sqmod (v (lift ord0 i) ord0))%Re.
  elim/big_rec: _ => [|i x _ hx]; first exact: Rle_refl.
  by apply: Rplus_le_le_0_compat => //; exact: sqmod_ge0.
have h2 := sqmod_ge0 (v ord0 ord0).
have h' : (sqmod (v ord0 ord0) + \sum_(i < n) sqmod (v (lift ord0 i) ord0) = 0)%Re by exact: h.
have -> : dsubmx (v : 'cV_(1 + n)) = 0.
  apply: IH; rewrite /power -[RHS](_ : \sum_(i < n) sqmod (v (lift ord0 i) ord0) = 0)%Re; last first.
    move: h' h1 h2; set s := \sum_(_ < _) _ => *; lra.
  apply: eq_bigr => i _; rewrite mxE; congr (sqmod (v _ _)); apply: val_inj => //.
have -> : usubmx (v : 'cV_(1 + n)) = 0.
  apply/colP => i; rewrite !mxE ord1 -[RHS](@sqmod_eq0 (v ord0 ord0)); last first.
    move: h' h1 h2; set s := \sum_(_ < _) _ => *; lra.
  by congr (v _ _); apply: val_inj.
by rewrite col_mx0.
Qed.

Lemma entD m n (A B : 'M[C]_(m, n)) i j : (A + B) i j = A i j + B i j. Proof. by rewrite mxE. Qed.
Lemma entN m n (A : 'M[C]_(m, n)) i j : (- A) i j = - A i j. Proof. by rewrite mxE. Qed.
Lemma entZ m n c (A : 'M[C]_(m, n)) i j : (c *: A) i j = c * A i j. Proof. by rewrite mxE. Qed.

(** A sesquilinear form that vanishes on the diagonal vanishes. *)
Lemma polarize n (K : 'M[C]_n) :
  (forall v : 'cV[C]_n, (adj v *m K *m v) 0 0 = 0) -> K = 0.
Proof.
move=> h.
have f0 (u v : 'cV[C]_n) : (adj u *m K *m v) 0 0 = 0.
  have h1 := h (u + v); have h2 := h (u + ci *: v).
  have hu := h u; have hv := h v; move: h1 h2.
  rewrite !adjD adjZ; mxexp.
  rewrite -?scalemxAl -?scalemxAr -?scalemxAl.
  rewrite ?mulmxA !(entD, entZ, hu, hv).
  move: ((adj u *m K *m v) 0 0) ((adj v *m K *m u) 0 0) => x y.
  rewrite ?(mulr0, add0r, addr0) => h1 h2.
  have -> : x = 2%:R^-1 * ((x + y) - ci * (ci * x + Cconj ci * y)).
    rewrite natCE; apply: C_ext => /=; field.
  by rewrite (addrC x) h1 (addrC (ci * x)) h2 mulr0 subrr mulr0.
apply/matrixP => i j.
rewrite [RHS]mxE -(f0 (delta_mx i 0) (delta_mx j 0)).
rewrite mxE (bigD1 j) //= big1 ?addr0; last first.
  by move=> k hk; rewrite [delta_mx j _ k _]mxE (negbTE hk) mulr0.
rewrite mxE (bigD1 i) //= big1 ?addr0; last first.
  by move=> k hk; rewrite !mxE (negbTE hk) conjC0 mul0r.
by rewrite !mxE !eqxx /= conjC1 mul1r mulr1.
Qed.

Definition power_flux n (r l : 'cV[C]_n) : R := (power r - power l)%Re.

Lemma dense_scatters n (S : smat _ n) (a1 a2 : 'cV[C]_n) :
  dense S *m col_mx a1 a2 = col_mx (s11 S *m a1 + s12 S *m a2) (s21 S *m a1 + s22 S *m a2).
Proof. by rewrite /dense mul_block_col. Qed.

Lemma unitary_conserves n (S : smat C_fieldType n) :
  unitary_smat S <-> conserves S (@power_flux n) (@power_flux n).
Proof.
split=> h.
- move=> a1 a2 b1 b2 [e1 e2]; rewrite /power_flux.
  suff : (power b1 + power b2 = power a1 + power a2)%Re by move=> ?; lra.
  rewrite -!power_col e1 e2 -dense_scatters; apply: RtoC_inj.
  by rewrite !powerE adjM -mulmxA (mulmxA (adj (dense S))) h mul1mx.
- apply/eqP; rewrite -subr_eq0; apply/eqP; apply: polarize => v.
  rewrite mulmxBr mulmx1 mulmxBl mulmxA -adjM -mulmxA entD entN -!powerE.
  rewrite -[v]vsubmxK; move: (usubmx v) (dsubmx v) => a1 a2.
  rewrite dense_scatters !power_col.
  have := h a1 a2 _ _ (conj (erefl _) (erefl _)); rewrite /power_flux.
  set b1 := _ + _; set b2 := _ + _ => e.
  have -> : (power b1 + power b2 = power a1 + power a2)%Re by lra.
  by rewrite subrr.
Qed.

Lemma rh_unitary n (SA SB S : smat C_fieldType n) :
  redheffer_product SA SB = Ok S -> unitary_smat SA -> unitary_smat SB -> unitary_smat S.
Proof.
move=> e /unitary_conserves hA /unitary_conserves hB.
by apply/unitary_conserves; exact: rh_conserves e hA hB.
Qed.

Lemma rh_passive n (SA SB S : smat C_fieldType n) :
  redheffer_product SA SB = Ok S -> passive_smat SA -> passive_smat SB -> passive_smat S.
Proof.
have P S0 : passive_smat S0 <-> dissipates Rle S0 (@power_flux n) (@power_flux n).
  split=> h a1 a2 b1 b2 hs; have := h _ _ _ _ hs; rewrite /power_flux; lra.
move=> e /P hA /P hB; apply/P; apply: rh_dissipates e hA hB.
exact: Rle_trans.
Qed.
