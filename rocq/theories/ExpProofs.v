(** The matrix exponential: existence, uniqueness, and the laws used of it. *)
From Coq Require Import Reals Lra Lia.
From mathcomp Require Import all_ssreflect all_algebra.
From Coquelicot Require Import Hierarchy Rbar Lim_seq Series PSeries ElemFct Complex Derive.
From Verif Require Import Base CField RField CFun Blk SpecExp.
Set Implicit Arguments. Unset Strict Implicit. Unset Printing Implicit Defensive.
Import GRing.Theory.
Local Open Scope ring_scope.

Lemma is_series_uniq (a : nat -> R) l l' : is_series a l -> is_series a l' -> l = l'.
Proof. by move=> h h'; rewrite -(is_series_unique _ _ h) -(is_series_unique _ _ h'). Qed.
Lemma csum_unique a l l' : csum a l -> csum a l' -> l = l'.
Proof. by move=> [h1 h2] [h3 h4]; apply: C_ext; [exact: (is_series_uniq h1)|exact: (is_series_uniq h2)]. Qed.
Lemma csum_ext a b l : (forall k, a k = b k) -> csum a l -> csum b l.
Proof. by move=> e [h1 h2]; split; [apply: is_series_ext h1|apply: is_series_ext h2] => k; rewrite e. Qed.
Lemma csumD a b l m : csum a l -> csum b m -> csum (fun k => a k + b k) (l + m).
Proof. by move=> [h1 h2] [h3 h4]; split; [exact: (is_series_plus _ _ _ _ h1 h3)|exact: (is_series_plus _ _ _ _ h2 h4)]. Qed.
Lemma csum0 : csum (fun _ => 0) 0.
Proof.
have h : is_series (fun _ : nat => 0%Re) 0%Re.
  apply/is_series_Reals => e he; exists 0%N => k _; rewrite /R_dist sum_cte.
  by rewrite Rmult_0_l Rminus_0_r Rabs_R0.
by split.
Qed.
Lemma csumZ c a l : csum a l -> csum (fun k => c * a k) (c * l).
Proof.
move=> [h1 h2]; split.
- have := is_series_plus _ _ _ _ (is_series_scal (fst c) _ _ h1) (is_series_scal (- snd c)%Re _ _ h2).
  move=> h; have e : plus (scal (fst c) (fst l)) (scal (- snd c)%Re (snd l)) = fst (c * l) by rewrite /plus /scal /= /mult /=; ring.
  rewrite -e; apply: is_series_ext h => k; rewrite /plus /scal /= /mult /=; ring.
- have := is_series_plus _ _ _ _ (is_series_scal (fst c) _ _ h2) (is_series_scal (snd c)%Re _ _ h1).
  move=> h; have e : plus (scal (fst c) (snd l)) (scal (snd c)%Re (fst l)) = snd (c * l) by rewrite /plus /scal /= /mult /=; ring.
  rewrite -e; apply: is_series_ext h => k; rewrite /plus /scal /= /mult /=; ring.
Qed.
Lemma csum_conj a l : csum a l -> csum (fun k => Cconj (a k)) (Cconj l).
Proof. by move=> [h1 h2]; split=> //; exact: (is_series_opp _ _ h2). Qed.
Lemma csum_big (I : Type) (r : seq I) (a : I -> nat -> C) (l : I -> C) : (forall i, csum (a i) (l i)) ->
  csum (fun k => \sum_(i <- r) a i k) (\sum_(i <- r) l i).
Proof.
move=> h; elim: r => [|i r ih]; first by rewrite big_nil; apply: csum_ext csum0 => k; rewrite big_nil.
by rewrite big_cons; apply: csum_ext (csumD (h i) ih) => k; rewrite big_cons.
Qed.

(** Absolute convergence. *)
Definition cabs (a : nat -> C) : Prop := ex_series (fun k => Cmod (a k)).
Lemma Cmod_ge_abs_im (z : C) : (Rabs (snd z) <= Cmod z)%Re.
Proof.
apply: Rsqr_incr_0; [|exact: Rabs_pos|exact: Cmod_ge_0].
rewrite -Rsqr_abs /Rsqr Cmod_sqr; nra.
Qed.
Lemma cabs_parts a : cabs a -> ex_series (fun k => Rabs (fst (a k))) /\ ex_series (fun k => Rabs (snd (a k))).
Proof.
by move=> h; split; apply: ex_series_le h => k; rewrite /norm /= /abs /= Rabs_Rabsolu; [exact: Cmod_ge_abs_re|exact: Cmod_ge_abs_im].
Qed.
Lemma cabs_csum a : cabs a -> exists l, csum a l.
Proof.
move=> /cabs_parts [/ex_series_Rabs [l1 h1] /ex_series_Rabs [l2 h2]]; by exists (l1, l2).
Qed.
Lemma sum_f_big (f : nat -> R) k : sum_f_R0 f k = \sum_(i < k.+1) f i.
Proof. by elim: k => [|k ih]; rewrite big_ord_recr /= ?ih // big_ord0 add0r. Qed.
Lemma fst_big (I : Type) (r : seq I) (a : I -> C) : fst (\sum_(i <- r) a i) = \sum_(i <- r) fst (a i).
Proof. by elim: r => [|i r ih]; rewrite ?big_nil ?big_cons //= -ih. Qed.
Lemma snd_big (I : Type) (r : seq I) (a : I -> C) : snd (\sum_(i <- r) a i) = \sum_(i <- r) snd (a i).
Proof. by elim: r => [|i r ih]; rewrite ?big_nil ?big_cons //= -ih. Qed.

Lemma csum_mult a b l m : csum a l -> csum b m -> cabs a -> cabs b ->
  csum (fun k => \sum_(i < k.+1) a i * b (k - i)%N) (l * m).
Proof.
move=> [a1 a2] [b1 b2] /cabs_parts [a1' a2'] /cabs_parts [b1' b2'].
have h11 := is_series_mult _ _ _ _ a1 b1 a1' b1'.
have h12 := is_series_mult _ _ _ _ a1 b2 a1' b2'.
have h21 := is_series_mult _ _ _ _ a2 b1 a2' b1'.
have h22 := is_series_mult _ _ _ _ a2 b2 a2' b2'.
split.
- apply: is_series_ext (is_series_minus _ _ _ _ h11 h22) => k.
  rewrite fst_big /minus /plus /opp /= -/(Rminus _ _) -minus_sum sum_f_big; apply: eq_bigr => i _ //=.
- apply: is_series_ext (is_series_plus _ _ _ _ h12 h21) => k.
  rewrite snd_big /plus /= -plus_sum sum_f_big; apply: eq_bigr => i _ //=.
Qed.

(** * Existence and uniqueness *)
Section Exists.
Variable n : nat.
Implicit Types X Y E : 'M[C]_n.

Lemma exp_sum_unique X E E' : exp_sum X E -> exp_sum X E' -> E = E'.
Proof. by move=> h h'; apply/matrixP => i j; exact: csum_unique (h i j) (h' i j). Qed.

Definition rsum (I : finType) (f : I -> R) : R := \sum_i f i.
Lemma rsum_ge0 (I : Type) (r : seq I) (f : I -> R) : (forall i, 0 <= f i)%Re -> (0 <= \sum_(i <- r) f i)%Re.
Proof.
move=> h; elim: r => [|i r ih]; first by rewrite big_nil; exact: Rle_refl.
by rewrite big_cons; apply: Rplus_le_le_0_compat.
Qed.
Lemma rsum_le (I : Type) (r : seq I) (f g : I -> R) : (forall i, f i <= g i)%Re ->
  (\sum_(i <- r) f i <= \sum_(i <- r) g i)%Re.
Proof.
move=> h; elim: r => [|i r ih]; first by rewrite !big_nil; exact: Rle_refl.
by rewrite !big_cons; apply: Rplus_le_compat.
Qed.
Lemma Cmod_sum (I : Type) (r : seq I) (f : I -> C) : (Cmod (\sum_(i <- r) f i) <= \sum_(i <- r) Cmod (f i))%Re.
Proof.
elim: r => [|i r ih]; first by rewrite !big_nil Cmod_0; exact: Rle_refl.
rewrite !big_cons; apply: Rle_trans (Cmod_triangle _ _) _.
by apply: Rplus_le_compat_l.
Qed.

(** The sum of the moduli of the entries bounds everything. *)
Definition size1 X : R := (1 + \sum_i \sum_j Cmod (X i j))%Re.
Lemma size1_ge1 X : (1 <= size1 X)%Re.
Proof.
have := @rsum_ge0 _ (index_enum _) (fun i => \sum_j Cmod (X i j)) (fun i => rsum_ge0 _ (fun j => Cmod_ge_0 _)).
rewrite /size1; lra.
Qed.
Lemma row_le X i : (\sum_j Cmod (X i j) <= size1 X)%Re.
Proof.
rewrite /size1 [X in (_ <= 1 + X)%Re](bigD1 i) //=.
have h : (0 <= \sum_(k | k != i) \sum_j Cmod (X k j))%Re.
  by rewrite big_mkcond; apply: rsum_ge0 => k; case: ifP => _; [apply: rsum_ge0 => j; exact: Cmod_ge_0|exact: Rle_refl].
move: h; set a := \sum_j _; set b := \sum_(k | _) _ => h.
change (a <= 1 + (a + b))%Re; lra.
Qed.
Lemma mpow_le X k i j : (Cmod (mpow X k i j) <= size1 X ^ k)%Re.
Proof.
elim: k i j => [|k ih] i j /=.
  rewrite mxE; case: eqP => _ /=; rewrite ?Cmod_1 ?Cmod_0; lra.
rewrite mxE; apply: Rle_trans (Cmod_sum _ _) _.
apply: (Rle_trans _ (\sum_l Cmod (X i l) * pow (size1 X) k)%R).
  apply: rsum_le => l; rewrite Cmod_mult; apply: Rmult_le_compat_l; first exact: Cmod_ge_0.
  exact: ih.
rewrite -mulr_suml; apply: Rmult_le_compat_r; last exact: row_le.
apply: pow_le; have := size1_ge1 X; lra.
Qed.
Lemma exp_term_abs X i j : cabs (fun k => exp_term X k i j).
Proof.
have e : ex_series (fun k => (size1 X ^ k * / INR (Factorial.fact k))%Re).
  exists (exp (size1 X)); have := is_exp_Reals (size1 X); rewrite /is_pseries.
  by apply: is_series_ext => k; rewrite /scal /= /mult /= -pow_n_pow Rmult_comm.
apply: ex_series_le e => k; rewrite /norm /= /abs /= Rabs_pos_eq; last exact: Cmod_ge_0.
rewrite /exp_term mxE Cmod_mult Cmod_R Rmult_comm Rabs_pos_eq; last by apply: Rlt_le; apply: Rinv_0_lt_compat; exact: INR_fact_lt_0.
apply: Rmult_le_compat_r; last exact: mpow_le.
apply: Rlt_le; apply: Rinv_0_lt_compat; exact: INR_fact_lt_0.
Qed.

(** The exponential. *)
Definition mexp X : 'M[C]_n :=
  \matrix_(i, j) (Series (fun k => fst (exp_term X k i j)), Series (fun k => snd (exp_term X k i j))).
Lemma mexpP : is_expm mexp.
Proof.
move=> X i j; rewrite mxE; have [l [h1 h2]] := cabs_csum (exp_term_abs X i j).
by split; apply: Series_correct; [exists (fst l)|exists (snd l)].
Qed.
Lemma is_expmE expm X : is_expm expm -> expm X = mexp X.
Proof. by move=> h; exact: exp_sum_unique (h X) (mexpP X). Qed.

(** * Laws *)
Lemma mpow_commute X Y k : X *m Y = Y *m X -> mpow X k *m Y = Y *m mpow X k.
Proof. by move=> h; elim: k => [|k ih] /=; rewrite ?mul1mx ?mulmx1 // -mulmxA ih mulmxA h mulmxA. Qed.
Lemma mpowSr X k : mpow X k.+1 = mpow X k *m X.
Proof. by rewrite /= mpow_commute. Qed.

(** Finite linear images of the series. *)
Lemma exp_sum_lmul m (P : 'M[C]_(m, n)) X E i j : exp_sum X E -> csum (fun k => (P *m exp_term X k) i j) ((P *m E) i j).
Proof.
move=> h; rewrite mxE; apply: (csum_ext (a := fun k => \sum_l P i l * exp_term X k l j)); first by move=> k; rewrite mxE.
by apply: csum_big => l; exact: csumZ.
Qed.
Lemma exp_sum_rmul m (Q : 'M[C]_(n, m)) X E i j : exp_sum X E -> csum (fun k => (exp_term X k *m Q) i j) ((E *m Q) i j).
Proof.
move=> h; rewrite mxE; apply: (csum_ext (a := fun k => \sum_l Q l j * exp_term X k i l)).
  by move=> k; rewrite mxE; apply: eq_bigr => l _; rewrite mulrC.
have -> : \sum_l E i l * Q l j = \sum_l Q l j * E i l by apply: eq_bigr => l _; rewrite mulrC.
by apply: csum_big => l; exact: csumZ.
Qed.

(** Intertwining: if P X = Y P then P e^X = e^Y P. *)
Lemma exp_intertwine P X Y : P *m X = Y *m P -> P *m mexp X = mexp Y *m P.
Proof.
move=> h; have hk k : P *m mpow X k = mpow Y k *m P.
  by elim: k => [|k ih] /=; rewrite ?mulmx1 ?mul1mx // mulmxA h -mulmxA ih mulmxA.
apply/matrixP => i j.
apply: csum_unique (exp_sum_lmul P i j (mexpP X)) _.
apply: csum_ext (exp_sum_rmul P i j (mexpP Y)) => k.
by rewrite /exp_term -scalemxAl -scalemxAr hk.
Qed.
Lemma exp_conjugate P Q X : P *m Q = 1%:M -> mexp (P *m X *m Q) = P *m mexp X *m Q.
Proof.
move=> h; have h' := mulmx1C h.
have /exp_intertwine -> : P *m X = (P *m X *m Q) *m P by rewrite -!mulmxA h' mulmx1.
by rewrite -[RHS]mulmxA h mulmx1.
Qed.
Lemma exp_trmx X : mexp (X^T) = (mexp X)^T.
Proof.
have hk k : mpow (X^T) k = (mpow X k)^T.
  by elim: k => [|k ih]; rewrite ?trmx1 // mpowSr trmx_mul -ih.
apply: exp_sum_unique (mexpP _) _ => i j; rewrite mxE.
by apply: csum_ext (mexpP X j i) => k; rewrite /exp_term hk [RHS]mxE mxE mxE.
Qed.
Lemma exp_conj X : mexp (map_mx Cconj X) = map_mx Cconj (mexp X).
Proof.
have hk k i j : mpow (map_mx Cconj X) k i j = Cconj (mpow X k i j).
  elim: k i j => [|k ih] i j /=.
    by rewrite !mxE; case: eqP => _ /=; apply: C_ext => /=; lra.
  rewrite !mxE; elim/big_rec2: _ => [|l x y _ ->]; first by apply: C_ext => /=; lra.
  by rewrite ih mxE; apply: C_ext => /=; ring.
apply: exp_sum_unique (mexpP _) _ => i j; rewrite mxE.
apply: csum_ext (csum_conj (mexpP X i j)) => k; rewrite /exp_term [RHS]mxE mxE hk.
by apply: C_ext => /=; ring.
Qed.
Lemma exp0 : mexp 0 = 1%:M.
Proof.
apply: exp_sum_unique (mexpP _) _ => i j.
have hk k : exp_term (0 : 'M[C]_n) k i j = if k is 0 then (1%:M : 'M_n) i j else 0.
  by case: k => [|k]; rewrite /exp_term /= ?mul0mx mxE ?mxE ?mulr0 //= Rinv_1 mul1r.
have h (r : R) : is_series (fun k => if k is 0%N then r else 0%Re) r.
  apply/is_series_Reals => e he; exists 0%N => k _.
  have -> : sum_f_R0 (fun k => if k is 0%N then r else 0%Re) k = r.
    by elim: k => //= k ->; rewrite Rplus_0_r.
  by rewrite /R_dist Rminus_eq_0 Rabs_R0.
by split; [apply: is_series_ext (h _)|apply: is_series_ext (h _)] => k; rewrite hk; case: k.
Qed.
End Exists.

(** Products of the exponentials of matrices that commute. *)
Lemma mpowE n (X : 'M[C]_n.+1) k : mpow X k = X ^+ k.
Proof. by elim: k => [|k ih] //=; rewrite ih exprS. Qed.
Lemma INR_nat k : RtoC (INR k) = k%:R.
Proof.
elim: k => [|k ih] //; rewrite S_INR -addn1 natrD -ih; by apply: C_ext => /=; lra.
Qed.
Lemma exp_add n (X Y : 'M[C]_n) : X *m Y = Y *m X -> mexp (X + Y) = mexp X *m mexp Y.
Proof.
case: n X Y => [|n] X Y h; first by rewrite [LHS]thinmx0 [RHS]thinmx0.
apply: exp_sum_unique (mexpP _) _ => i j; rewrite mxE.
apply: (csum_ext (a := fun k => \sum_l \sum_(p < k.+1) exp_term X p i l * exp_term Y (k - p) l j)); last first.
  by apply: csum_big => l; exact: (csum_mult (mexpP X i l) (mexpP Y l j) (exp_term_abs X i l) (exp_term_abs Y l j)).
move=> k; rewrite exchange_big /= /exp_term mpowE exprDn_comm // mxE summxE mulr_sumr.
rewrite [RHS](reindex_inj rev_ord_inj) /=; apply: eq_bigr => p _.
rewrite subSS (subKn (leq_ord p)) bin_sub ?leq_ord //.
rewrite mulmxnE !mpowE; set c := ('C(k, p))%:R : C.
have fE m : RtoC (/ INR (Factorial.fact m))%Re = (m`!%:R)^-1 :> C.
  rewrite RtoC_inv; last exact: INR_fact_neq_0.
  by rewrite -invCE INR_nat; congr (_%:R^-1); elim: m => //= m ->; rewrite factS mulSn.
have nz m : (m`!%:R : C) != 0.
  by rewrite -INR_nat; apply/eqP => /(congr1 fst) /=; exact: not_0_INR (Nat.neq_sym _ _ (Nat.lt_neq _ _ (elimT ltP (fact_gt0 m)))).
have hc : c = k`!%:R / (p`!%:R * (k - p)`!%:R).
  by apply: (canRL (mulfK _)); rewrite ?mulf_neq0 // -!natrM bin_fact ?leq_ord.
rewrite !fE -[X in _ = _ * X]mulr_natr -/c hc.
have -> : (X ^+ p * Y ^+ (k - p)) i j = \sum_l (X ^+ p) i l * (Y ^+ (k - p)) l j by rewrite -mulmxE mxE.
rewrite mulr_suml mulr_sumr; apply: eq_bigr => l _; rewrite !mxE.
move: (nz p) (nz (k - p)%N) (nz k); move: (p`!%:R : C) ((k - p)`!%:R : C) (k`!%:R : C) => u v w hu hv hw.
move: ((X ^+ p) i l) ((Y ^+ (k - p)) l j) => x y; move/eqP: hu => hu; move/eqP: hv => hv; move/eqP: hw => hw.
by toC; field.
Qed.

(** * Diagonal matrices *)
Lemma exp_series (x : R) : is_series (fun k => (/ INR (Factorial.fact k) * x ^ k)%Re) (exp x).
Proof.
have := is_exp_Reals x; rewrite /is_pseries.
by apply: is_series_ext => k; rewrite /scal /= /mult /= -pow_n_pow Rmult_comm.
Qed.
Lemma cos_pseries (y : R) : is_pseries (fun m => cos_n m) (y ^ 2)%Re (cos y).
Proof.
rewrite /cos; case: (exist_cos (Rsqr y)) => l; rewrite /cos_in => /is_series_Reals.
apply: is_series_ext => k; rewrite /scal /= /mult /= pow_n_pow Rmult_comm; congr (_ ^ _ * _)%Re.
by rewrite /Rsqr; ring.
Qed.
Lemma sin_pseries (y : R) : exists2 l, is_pseries (fun m => sin_n m) (y ^ 2)%Re l & sin y = (y * l)%Re.
Proof.
rewrite /sin; case: (exist_sin (Rsqr y)) => l; rewrite /sin_in => /is_series_Reals h; exists l => //.
apply: is_series_ext h => k; rewrite /scal /= /mult /= pow_n_pow Rmult_comm; congr (_ ^ _ * _)%Re.
by rewrite /Rsqr; ring.
Qed.
Lemma pseries0 x : is_pseries (fun _ : nat => 0%Re) x 0%Re.
Proof.
have [h _] := csum0; apply: is_series_ext h => k; rewrite /scal /= /mult /=; lra.
Qed.
(** The coefficients of cos and sin. *)
Definition iterm (k : nat) : C := RtoC (/ INR (Factorial.fact k))%Re * ci ^+ k.
Lemma ci_even m : ci ^+ (2 * m) = RtoC ((-1) ^ m)%Re.
Proof.
rewrite exprM; have -> : ci ^+ 2 = RtoC (-1) by rewrite expr2; apply: C_ext => /=; lra.
by elim: m => [|m ih] //=; rewrite exprS ih; apply: C_ext => /=; lra.
Qed.
Lemma iterm_even m : iterm (2 * m)%coq_nat = RtoC (cos_n m).
Proof. rewrite /iterm /cos_n multE ci_even /Rdiv; move: (/ INR _)%Re => f; apply: C_ext => /=; lra. Qed.
Lemma iterm_odd m : iterm (2 * m + 1)%coq_nat = (0%Re, sin_n m).
Proof.
rewrite /iterm /sin_n ?plusE ?multE !addn1 exprSr ci_even /Rdiv.
by move: (/ INR _)%Re => f; apply: C_ext => /=; lra.
Qed.
Lemma cis_csum (y : R) : csum (fun k => iterm k * RtoC (y ^ k)%Re) (cos y, sin y).
Proof.
split.
- have h : is_pseries (fun k => fst (iterm k)) y (cos y + y * 0)%Re.
    apply: is_pseries_odd_even.
    - by refine (is_pseries_ext _ _ _ _ _ (@cos_pseries y)) => k; rewrite iterm_even.
    - by refine (is_pseries_ext _ _ _ _ _ (@pseries0 (y ^ 2)%Re)) => k; rewrite iterm_odd.
  rewrite /= Rmult_0_r Rplus_0_r in h; apply: is_series_ext h => k.
  by rewrite /scal /= /mult /= pow_n_pow; ring.
- have [l hl ->] := sin_pseries y.
  have h : is_pseries (fun k => snd (iterm k)) y (0 + y * l)%Re.
    apply: is_pseries_odd_even.
    - by refine (is_pseries_ext _ _ _ _ _ (@pseries0 (y ^ 2)%Re)) => k; rewrite iterm_even.
    - by refine (is_pseries_ext _ _ _ _ _ hl) => k; rewrite iterm_odd.
  rewrite /= Rplus_0_l in h; apply: is_series_ext h => k.
  by rewrite /scal /= /mult /= pow_n_pow; ring.
Qed.
Lemma mpow_scalar (z : C) k : mpow (z%:M : 'M[C]_1) k = (z ^+ k)%:M.
Proof. by elim: k => [|k ih] //=; rewrite ih -scalar_mxM -exprS. Qed.
Lemma exp_scalar (z : C) : mexp (z%:M : 'M[C]_1) = (cexp z)%:M.
Proof.
have ee (z1 z2 : C) : z = z1 + z2 -> mexp (z%:M : 'M[C]_1) = mexp z1%:M *m mexp z2%:M.
  by move=> ->; rewrite -exp_add -?raddfD // -!scalar_mxM mulrC.
have z12 : z = RtoC (fst z) + ci * RtoC (snd z) by apply: C_ext => /=; lra.
rewrite (ee _ _ z12).
have -> : mexp ((RtoC (fst z))%:M : 'M[C]_1) = (RtoC (exp (fst z)))%:M.
  apply: exp_sum_unique (mexpP _) _ => i j; rewrite !ord1 !mxE eqxx mulr1n.
  have he k : exp_term ((RtoC (fst z))%:M : 'M[C]_1) k 0 0 = RtoC (/ INR (Factorial.fact k) * fst z ^ k)%Re.
    rewrite /exp_term mpow_scalar !mxE eqxx mulr1n RtoC_mult; congr (_ * _).
    by elim: k => [|k ih] //=; rewrite exprS ih RtoC_mult.
  split; first by apply: is_series_ext (@exp_series (fst z)) => k; rewrite he.
  by have [h _] := csum0; apply: is_series_ext h => k; rewrite he.
have -> : mexp ((ci * RtoC (snd z))%:M : 'M[C]_1) = ((cos (snd z), sin (snd z)) : C)%:M.
  apply: exp_sum_unique (mexpP _) _ => i j; rewrite !ord1 mxE eqxx mulr1n.
  apply: csum_ext (cis_csum (snd z)) => k; rewrite /exp_term mpow_scalar !mxE eqxx mulr1n /iterm exprMn mulrA; congr (_ * _).
  by elim: k => [|k ih] //=; rewrite exprS -ih RtoC_mult.
by rewrite -scalar_mxM; congr (_%:M); apply: C_ext => /=; ring.
Qed.
Lemma mpow_diag n (d : 'rV[C]_n) k : mpow (diag_mx d) k = diag_mx (map_mx (fun z => z ^+ k) d).
Proof.
elim: k => [|k ih] /=; first by apply/matrixP => i j; rewrite !mxE expr0.
by rewrite ih mulmx_diag; congr diag_mx; apply/rowP => i; rewrite !mxE exprS.
Qed.
Lemma exp_diag n (d : 'rV[C]_n) : mexp (diag_mx d) = diag_mx (map_mx cexp d).
Proof.
apply: exp_sum_unique (mexpP _) _ => i j; rewrite mxE mxE.
have he k : exp_term (diag_mx d) k i j = (i == j)%:R * exp_term ((d 0 i)%:M : 'M[C]_1) k 0 0.
  rewrite /exp_term mpow_diag mpow_scalar !mxE; case: (i == j); by rewrite ?mulr1n ?mulr0n ?mul1r ?mul0r ?mulr0.
apply: (csum_ext (fun k => esym (he k))).
have -> : cexp (d 0 i) *+ (i == j) = (i == j)%:R * cexp (d 0 i) by rewrite mulr_natl.
by apply: csumZ; have := mexpP ((d 0 i)%:M : 'M[C]_1) 0 0; rewrite exp_scalar mxE eqxx mulr1n.
Qed.

(** * Consequences *)
Section Laws.
Variable n : nat.
Implicit Types X Y : 'M[C]_n.
Lemma exp_inv X : mexp X *m mexp (- X) = 1%:M.
Proof. by rewrite -exp_add ?subrr ?exp0 // mulmxN mulNmx. Qed.
Lemma exp_translations X (s t : C) : mexp ((s + t) *: X) = mexp (s *: X) *m mexp (t *: X).
Proof. by rewrite scalerDl exp_add // -!scalemxAl -!scalemxAr scalerA [in RHS]scalerA mulrC. Qed.
(** A flow whose generator is skew for a bilinear or Hermitian form preserves it. *)
Lemma exp_preserves (J : 'M[C]_n) X X' : X' *m J = - (J *m X) -> mexp X' *m J *m mexp X = J.
Proof.
move=> h; have e : J *m (- X) = X' *m J by rewrite mulmxN h.
by rewrite -(exp_intertwine e) -mulmxA -{2}(opprK X) exp_inv mulmx1.
Qed.
End Laws.
