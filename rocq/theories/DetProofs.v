(** Determinants of matrices that do not increase a weighted norm, and of scattering matrices. *)
From Coq Require Import Reals String Lra.
From mathcomp Require Import all_ssreflect all_algebra all_fingroup.
From Coquelicot Require Import Complex.
From Verif Require Import SpecEnergy Base CField RField CFun ModelRedheffer RedhefferProofs ModelExpansion ModelFourier Blk ModelTmat SpecTmat TmatProofs
  ModelLattice SpecLattice LatticeProofs LookupProofs CurrentProofs FourierProofs SpecExp ExpProofs TmatTheorems
  TmatEnergyProofs ModelDevice SpecTransform ModelEz SpecBloch SpectrumProofs BlochProofs SpecLoss TmatLossProofs ReciprocalPiles FilmProofs TmatExamples LossPiles ModelEigen.
Set Implicit Arguments. Unset Strict Implicit. Unset Printing Implicit Defensive.
Import GRing.Theory.
Local Open Scope ring_scope.

Section Contraction.
Variables (m : nat) (k : 'I_m -> R).
Hypothesis k0 : forall i, (0 < k i)%Re.
Definition wnorm (x : 'cV[C]_m) : R := \sum_i (k i * sqmod (x i 0%R))%Re.
Lemma sq_ge0 z : (0 <= sqmod z)%Re. Proof. by rewrite /sqmod; exact: pow2_ge_0. Qed.
Lemma term_le (x : 'cV[C]_m) i : (k i * sqmod (x i 0%R) <= wnorm x)%Re.
Proof.
rewrite /wnorm (bigD1 i) //= -[(_ + _)]/(_ + _)%Re; set rest := (\sum_(_ | _) _).
have : (0 <= rest)%Re.
  rewrite /rest -big_filter; apply: rsum_ge0 => j; apply: Rmult_le_pos; [exact/Rlt_le|exact: sq_ge0].
lra.
Qed.
Lemma wnorm_ge0 x : (0 <= wnorm x)%Re.
Proof. by apply: rsum_ge0 => j; apply: Rmult_le_pos; [exact/Rlt_le|exact: sq_ge0]. Qed.
Definition mpow (S : 'M[C]_m) N := iter N (mulmx S) 1%:M.
Lemma mpow_det S N : \det (mpow S N) = \det S ^+ N.
Proof. by elim: N => [|N ih] /=; rewrite ?det1 ?expr0 // det_mulmx ih exprS. Qed.
Lemma Cmod_bigsum (I : finType) (f : I -> C) (b : I -> R) : (forall i, (Cmod (f i) <= b i)%Re) -> (Cmod (\sum_i f i)%R <= (\sum_i b i : R))%Re.
Proof.
move=> h; apply: (big_rec2 (fun (x : C) (y : R) => Cmod x <= y)%Re) => [|i y x _ hx]; first by rewrite Cmod_0; exact: Rle_refl.
apply: Rle_trans (Cmod_triangle _ _) _; exact: Rplus_le_compat.
Qed.
Lemma Cmod_bigprod (I : finType) (f : I -> C) (b : I -> R) : (forall i, (Cmod (f i) <= b i)%Re) -> (Cmod (\prod_i f i)%R <= (\prod_i b i : R))%Re.
Proof.
move=> h; apply: (big_rec2 (fun (x : C) (y : R) => Cmod x <= y)%Re) => [|i y x _ hx]; first by rewrite Cmod_1; exact: Rle_refl.
rewrite Cmod_mult; apply: Rmult_le_compat => //; exact: Cmod_ge_0.
Qed.
Lemma det_bound (A : 'M[C]_m) (B : 'I_m -> 'I_m -> R) : (forall i j, (Cmod (A i j) <= B i j)%Re) ->
  (Cmod (\det A)%R <= (\sum_(s : 'S_m) \prod_i B i (s i) : R))%Re.
Proof.
move=> h; apply: Cmod_bigsum => s; rewrite Cmod_mult.
have -> : Cmod ((-1) ^+ s) = 1%Re.
  case: (odd_perm s); rewrite /= ?expr0 ?expr1 ?Cmod_1 //.
  by rewrite -[(-1)]/(Copp 1) Cmod_opp Cmod_1.
by rewrite Rmult_1_l; apply: Cmod_bigprod => i.
Qed.
Lemma powers_bounded (x D : R) : (forall N, x ^ N <= D)%Re -> (x <= 1)%Re.
Proof.
move=> h; case: (Rle_dec x 1) => // /Rnot_le_lt h1; exfalso.
have [N hN] := Pow_x_infinity x (ltac:(rewrite Rabs_pos_eq; lra)) (D + 1)%Re.
have := hN N (le_n N); rewrite Rabs_pos_eq; last by apply: pow_le; lra.
have := h N; lra.
Qed.
Lemma contraction_det (S : 'M[C]_m) : (forall x, wnorm (S *m x) <= wnorm x)%Re -> (Cmod (\det S)%R <= 1)%Re.
Proof.
move=> h.
have hp N x : (wnorm (mpow S N *m x) <= wnorm x)%Re.
  elim: N => [|N ih]; first by rewrite /= mul1mx; exact: Rle_refl.
  by rewrite /= -mulmxA; apply: Rle_trans (h _) ih.
pose B i j := sqrt (wnorm (delta_mx j 0%R) / k i).
have hB N i j : (Cmod (mpow S N i j) <= B i j)%Re.
  have := Rle_trans _ _ _ (term_le (mpow S N *m delta_mx j 0) i) (hp N _).
  rewrite -colE mxE => le; rewrite /B -(sqrt_Rsqr (Cmod _)); last exact: Cmod_ge_0.
  apply: sqrt_le_1_alt; move: le; rewrite -/(sqmod _) => le.
  have ki := Rinv_0_lt_compat _ (k0 i).
  have -> : ((Cmod (mpow S N i j))² = (k i * sqmod (mpow S N i j)) * / k i)%Re.
    by rewrite /sqmod /Rsqr /=; field; have := k0 i; lra.
  by apply: Rmult_le_compat_r; [lra|exact: le].
apply: (@powers_bounded _ (\sum_(s : 'S_m) \prod_i B i (s i))) => N.
have := det_bound (hB N); rewrite mpow_det.
have -> : Cmod (\det S ^+ N) = (Cmod (\det S) ^ N)%Re.
  by elim: N => [|N ih]; rewrite ?expr0 ?Cmod_1 // exprS Cmod_mult ih.
by [].
Qed.
Lemma isometry_det (S : 'M[C]_m) : (forall x, wnorm (S *m x) = wnorm x) -> Cmod (\det S) = 1%Re.
Proof.
move=> h.
have uS : S \in unitmx.
  apply/unitmx_inj => x e; have := h x; rewrite e => z.
  have sz : sqmod (0 : C) = 0%Re by rewrite sqmodE /=; ring.
  have z0 : wnorm 0 = 0%Re by rewrite /wnorm big1 // => i _; rewrite mxE sz; exact: Rmult_0_r.
  rewrite z0 in z; apply/colP => i; rewrite mxE; have := term_le x i; rewrite -z => le.
  have s0 : sqmod (x i 0) = 0%Re.
    by case: (sq_ge0 (x i 0)) => [h1|->] //; have := Rmult_lt_0_compat _ _ (k0 i) h1; move: le => /= le h2; exfalso; lra.
  move: s0; rewrite sqmodE; move: (x i 0) => w e2; apply: C_ext; [change (fst w = 0%Re)|change (snd w = 0%Re)]; nra.
have h1 := contraction_det (fun x => Req_le _ _ (h x)).
have h2 : (Cmod (\det (invmx S))%R <= 1)%Re.
  by apply: contraction_det => x; rewrite -(h (invmx S *m x)) mulmxA mulmxV // mul1mx; exact: Rle_refl.
have := congr1 (fun A : 'M[C]_m => Cmod (\det A)) (mulmxV uS); rewrite det_mulmx det1 Cmod_mult Cmod_1 => e.
have := Cmod_ge_0 (\det S); have := Cmod_ge_0 (\det (invmx S)); move: (Cmod _) (Cmod _) h1 h2 e => a b; nra.
Qed.
End Contraction.

(** * Piles between two half-spaces of the same transparent medium *)
Section Pile.
Variables (n : nat) (L : lattice) (wl : R) (kp : vec2).
Hypothesis wl0 : (0 < wl)%Re.
Variable r : R.
Hypotheses (hi : num_val (l_incid L) = RtoC r) (all : all_propagate n L wl kp).
Let kz (g : 'I_n) := fst (compute_kz (l_incid L) wl kp (l_g L g)).
Definition order_of (i : 'I_((n + n) + (n + n))) : 'I_n :=
  let j := match split i with inl j => j | inr j => j end in match split j with inl g => g | inr g => g end.
Lemma wnormE x : wnorm (fun i => kz (order_of i)) x =
  ((\sum_g (kz g * two x 0 1 g)%Re : R) + (\sum_g (kz g * two x 2 3 g)%Re : R))%Re.
Proof.
rewrite /wnorm big_split_ord /=; congr (_ + _)%Re.
  rewrite big_split_ord /= -big_split; apply: eq_bigr => g _; rewrite /order_of !split_l ?split_r /two /quarter_of !mxE.
  exact: esym (Rmult_plus_distr_l _ _ _).
rewrite big_split_ord /= -big_split; apply: eq_bigr => g _; rewrite /order_of !split_r ?split_l ?split_r /two /quarter_of !mxE.
exact: esym (Rmult_plus_distr_l _ _ _).
Qed.
Lemma kz_gt0 g : (0 < kz g)%Re.
Proof. by have [h1 h2] := all g; case: (kz_pos wl0 h1) => // e; case: h2. Qed.
Variables (S U V E : 'M[C]_((n + n) + (n + n))).
Hypotheses (hU : lattice_U n L wl kp = Ok U) (hV : lattice_Vi n L wl kp = Ok V) (hS : matrix_s (U *m E *m V) = Ok S).
Lemma pile_norms x : exists F c, [/\ (0 < c)%Re,
  (\sum_g order_flux (E *m F) g : R) = (c * ((\sum_g (kz g * two x 0 1 g)%Re : R) - (\sum_g (kz g * two (S *m x) 2 3 g)%Re : R)))%Re &
  (\sum_g order_flux F g : R) = (c * ((\sum_g (kz g * two (S *m x) 0 1 g)%Re : R) - (\sum_g (kz g * two x 2 3 g)%Re : R)))%Re].
Proof.
have VU := mulmx1C (lattice_UV hU hV).
pose P := col_mx (usubmx x) (dsubmx (S *m x)); pose Q := col_mx (usubmx (S *m x)) (dsubmx x).
have hPQ : P = U *m E *m V *m Q.
  have : tscatters S (usubmx P) (dsubmx P) (usubmx Q) (dsubmx Q).
    by rewrite /tscatters /P /Q !(col_mxKu, col_mxKd) !vsubmxK.
  by rewrite (matrix_s_meaning _ _ _ _ hS) /transfers !vsubmxK.
have {}hPQ : V *m P = E *m (V *m Q) by rewrite hPQ !mulmxA VU mul1mx.
set c := (wl / (mu0c * twopi))%Re.
have c0 : (0 < c)%Re.
  rewrite /c; have m0 := mu0c_pos; have p0 := PI_RGT_0; apply: Rmult_lt_0_compat => //; apply: Rinv_0_lt_compat.
  by rewrite /twopi; nra.
have F0 (y : 'cV[C]_((n + n) + (n + n))) : (\sum_g order_flux (V *m y) g : R) =
  (c * ((\sum_g (kz g * two y 0 1 g)%Re : R) - (\sum_g (kz g * two y 2 3 g)%Re : R)))%Re.
  rewrite -[(_ - _)%Re]/((\sum_g (kz g * two y 0 1 g)%Re : R) - (\sum_g (kz g * two y 2 3 g)%Re : R)) -sumrB -[(c * _)%Re]/(c * _) mulr_sumr.
  apply: eq_bigr => g _; have [sg [hsg ->]] := medium_flux hV hi wl0 y g; rewrite wave_flux_real //; last by have [] := all g.
  rewrite -/(kz g) /two /c -[RHS]/(_ * (_ - _))%Re; ring.
exists (V *m Q), c; split=> //.
  by rewrite -hPQ F0 /P; congr (_ * (_ - _))%Re; apply: eq_bigr => g _; rewrite /two /quarter_of !(col_mxKu, col_mxKd).
by rewrite F0 /Q; congr (_ * (_ - _))%Re; apply: eq_bigr => g _; rewrite /two /quarter_of !(col_mxKu, col_mxKd).
Qed.
Lemma lossy_det : dissipates E -> (Cmod (\det S)%R <= 1)%Re.
Proof.
move=> hE; apply: (@contraction_det _ (fun i => kz (order_of i))) => [i|x]; first exact: kz_gt0.
rewrite !wnormE; have [F [c [c0 e1 e2]]] := pile_norms x.
have := flux_dissipated hE F; rewrite e1 e2 => /(Rmult_le_reg_l _ _ _ c0) h.
have aux (a b d e : R) : (d - e <= a - b)%Re -> (d + b <= a + e)%Re by move=> ?; lra.
exact: aux h.
Qed.
Lemma lossless_det : conserves E -> Cmod (\det S) = 1%Re.
Proof.
move=> hE; apply: (@isometry_det _ (fun i => kz (order_of i))) => [i|x]; first exact: kz_gt0.
rewrite !wnormE; have [F [c [c0 e1 e2]]] := pile_norms x.
have := flux_conserved F hE; rewrite e1 e2 => /(Rmult_eq_reg_l _ _ _) /(_ (Rgt_not_eq _ _ c0)) h.
have aux (a b d e : R) : (a - b = d - e)%Re -> (d + b = a + e)%Re.
  by move=> h'; match goal with |- @eq _ ?a ?b => change (@eq R a b) end; lra.
exact: aux h.
Qed.
End Pile.

(** * Opposite in-plane wavevectors *)
Lemma det_perm2 (F : comUnitRingType) m (s : 'S_m) (A : 'M[F]_m) : \det (\matrix_(i, j) A (s i) (s j)) = \det A.
Proof.
have -> : \matrix_(i, j) A (s i) (s j) = row_perm s (col_perm s A) by apply/matrixP => i j; rewrite !mxE.
rewrite row_permE col_permE !det_mulmx !det_perm odd_permV mulrCA -signr_addb addbb mulr1.
by [].
Qed.
Section Opposite.
Variables (n : nat) (S S' : 'M[C]_((n + n) + (n + n))) (Wi We : bool -> 'I_n -> C).
Hypotheses (Wi0 : forall a g, Wi a g != 0) (We0 : forall a g, We a g != 0).
Hypothesis refl : forall a b (g h : 'I_n), Wi a g * dlsubmx S (wave a g) (wave b h) = Wi b h * dlsubmx S' (wave b (rev_ord h)) (wave a (rev_ord g)).
Hypothesis back : forall a b (g h : 'I_n), We a g * ursubmx S (wave a g) (wave b h) = We b h * ursubmx S' (wave b (rev_ord h)) (wave a (rev_ord g)).
Hypothesis trans : forall a b (g h : 'I_n), We a g * ulsubmx S (wave a g) (wave b h) = Wi b h * drsubmx S' (wave b (rev_ord h)) (wave a (rev_ord g)).
Hypothesis trans' : forall a b (g h : 'I_n), Wi a g * drsubmx S (wave a g) (wave b h) = We b h * ulsubmx S' (wave b (rev_ord h)) (wave a (rev_ord g)).
Let tau (i : 'I_((n + n) + (n + n))) : 'I_((n + n) + (n + n)) :=
  match split i with inl j => rshift _ (revw j) | inr j => lshift _ (revw j) end.
Lemma sl (j : 'I_(n + n)) : split (lshift (n + n) j) = inl j. Proof. exact: (unsplitK (inl _ j)). Qed.
Lemma sr (j : 'I_(n + n)) : split (rshift (n + n) j) = inr j. Proof. exact: (unsplitK (inr _ j)). Qed.
Lemma tau_inj : injective tau.
Proof.
apply: inv_inj => i; rewrite /tau; case: (splitP i) => j /= e.
  by rewrite sr revwK; apply: val_inj; exact: esym e.
by rewrite sl revwK; apply: val_inj; exact: esym e.
Qed.
Let wout (i : 'I_((n + n) + (n + n))) : C := match split i with inl j => wofi We j | inr j => wofi Wi j end.
Let win (i : 'I_((n + n) + (n + n))) : C := match split i with inl j => wofi Wi j | inr j => wofi We j end.
Lemma wave_of (j : 'I_(n + n)) : exists a g, j = wave a g.
Proof. by case: (splitP j) => g e; [exists false, g|exists true, g]; apply: val_inj. Qed.
Lemma opposite_det : \det S = \det S'.
Proof.
have key i j : wout i * S i j = win j * S' (tau j) (tau i).
  rewrite /wout /win /tau; case: (split_ordP i) => i' ->; case: (split_ordP j) => j' ->; rewrite ?sl ?sr;
    have [a [g ->]] := wave_of i'; have [b [h ->]] := wave_of j'; rewrite !revw_wave !wofi_wave.
  - by have := trans a b g h; rewrite !mxE.
  - by have := back a b g h; rewrite !mxE.
  - by have := refl a b g h; rewrite !mxE.
  - by have := trans' a b g h; rewrite !mxE.
have e : diag_mx (\row_i wout i) *m S = (\matrix_(i, j) S' (perm tau_inj i) (perm tau_inj j))^T *m diag_mx (\row_i win i).
  by apply/matrixP => i j; rewrite mul_diag_mx mul_mx_diag !mxE !permE key mulrC.
have wnz W j : (forall a g, W a g != 0 :> C) -> wofi W j != 0 by move=> h; rewrite /wofi; case: (split j) => g; exact: h.
have := congr1 (fun A : 'M[C]__ => \det A) e; rewrite !det_mulmx det_tr det_perm2 !det_diag.
have -> : \prod_i (\row_i wout i) 0 i = \prod_i (\row_i win i) 0 i.
  rewrite [LHS]big_split_ord [RHS]big_split_ord /= mulrC; congr (_ * _); apply: eq_bigr => i _; rewrite !mxE /wout /win ?sl ?sr //.
rewrite [_ * \prod_i _]mulrC; apply: mulfI.
by apply/prodf_neq0 => i _; rewrite mxE /win; case: (split i) => j; exact: wnz.
Qed.
End Opposite.

(** * Statements *)
Lemma scattering_det_ok (F : fieldType) k (T S : 'M[F]_(k + k)) : matrix_s T = Ok S -> T \in unitmx -> is_ok (scattering_det S).
Proof.
move=> hS uT; apply/scattering_det_defined/unitmx_inj => v hv.
have : tscatters S 0 0 (ursubmx S *m v) v.
  by apply/tscattersE; rewrite !mulmx0 !add0r hv.
rewrite (matrix_s_meaning _ _ _ _ hS) /transfers col_mx0 => e.
have /(congr1 dsubmx) : col_mx (ursubmx S *m v) v = 0 by apply: (iffLR (unitmx_inj T)) => //; rewrite -e.
by rewrite col_mxKd linear0.
Qed.
Lemma conserves_unit n (E : 'M[C]_((n + n) + (n + n))) : conserves E -> E \in unitmx.
Proof.
move=> h; apply/unitmx_inj => x e; have := congr1 (fun A : 'M[C]__ => A *m x) h.
rewrite /= -!mulmxA e !mulmx0 => z; have := congr1 (fun y : 'cV[C]__ => fluxform n *m y) z.
by rewrite mulmxA fluxform_inv mul1mx mulmx0.
Qed.
Section Named.
Variables (J1 : R -> R) (n : nat) (expm : 'M[C]_((n + n) + (n + n)) -> 'M[C]_((n + n) + (n + n))).
Hypothesis hexp : is_expm expm.
Variables (p : nat * nat) (ei ee : num) (L : lattice) (wl : R) (kp : vec2) (recipes : string -> option recipe).
Variables (stacking : stackings) (d : nat) (name : string) (S : 'M[C]_((n + n) + (n + n))).
Hypotheses (hf : window_fits p) (wl0 : (0 < wl)%Re).
Hypothesis hS : pile_at J1 expm p L wl kp recipes stacking d name S.
Variables (eig : 'M[C]_((n + n) + (n + n)) -> 'M[C]_((n + n) + (n + n)) -> seq (C * 'cV[C]_((n + n) + (n + n)))).
Hypothesis heig : forall A B w v, List.In (w, v) (eig A B) -> eigenpair (A, B) w v.
Variable r : R.
Let results (x : R -> Prop) := exists wv dos, [/\ scattering_eigenvalues eig S true = Ok (wv, Some dos),
  forall w v, List.In (w, v) wv -> bloch_wave S w v, dos = \det S & x (Cmod dos)].
Lemma named_results (x : R -> Prop) : is_ok (scattering_det S) -> x (Cmod (\det S)) -> results x.
Proof.
case=> dos hd hx; exists (eig (scattering_splitlr S).1 (scattering_splitlr S).2), dos.
have e : dos = \det S by exact: scattering_detE hd.
split=> //; [|by move=> w v /heig h; apply/blochE|by rewrite e].
by rewrite /scattering_eigenvalues; case e2 : (scattering_splitlr S) => [A B]; rewrite hd.
Qed.
Lemma det_lossless a1 a2 : mk_lattice p a1 a2 ei ee = Ok L -> num_val ei = RtoC r -> all_propagate n L wl kp ->
  (forall layer q, recipes layer = Some q -> lossless_recipe q) -> results (fun x => x = 1%Re).
Proof.
move=> hL hi al real; have [U [V [E [hU hV hm hc]]]] := pile_lossless hexp hL hf real hS.
have mi : num_val (l_incid L) = RtoC r by have [_ _ _ _ [-> _ _ _ _]] := mk_latticeE hL.
apply: named_results; last exact: (lossless_det wl0 mi al hU hV hm hc).
apply: (scattering_det_ok hm); have UV := lattice_UV hU hV.
by have [u1 u2] := mulmx1_unit UV; rewrite !unitmx_mul u1 u2 conserves_unit.
Qed.
Lemma det_lossy Lx Ly : (0 < Lx)%Re -> (0 < Ly)%Re -> mk_lattice p (Lx, 0%Re) (0%Re, Ly) ei ee = Ok L -> num_val ei = RtoC r -> all_propagate n L wl kp ->
  (forall layer q, recipes layer = Some q -> absorbing_recipe Lx Ly q) -> results (fun x => (x <= 1)%Re).
Proof.
move=> h1 h2 hL hi al ha; have [U [V [E [hU hV hm hc uE]]]] := pile_lossy h1 h2 hL hf hexp wl0 ha hS.
have mi : num_val (l_incid L) = RtoC r by have [_ _ _ _ [-> _ _ _ _]] := mk_latticeE hL.
apply: named_results; last exact: (lossy_det wl0 mi al hU hV hm hc).
apply: (scattering_det_ok hm); have UV := lattice_UV hU hV.
by have [u1 u2] := mulmx1_unit UV; rewrite !unitmx_mul u1 u2 uE.
Qed.
End Named.
Section OppositeNamed.
Variables (p : nat * nat) (a1 a2 : vec2) (ei ee : num) (L : lattice).
Hypothesis hL : mk_lattice p a1 a2 ei ee = Ok L.
Hypothesis hf : window_fits p.
Hypothesis hp : odd p.1.
Variables (J1 : R -> R) (n : nat) (expm : 'M[C]_((n + n) + (n + n)) -> 'M[C]_((n + n) + (n + n))).
Hypothesis hexp : is_expm expm.
Variables (wl : R) (kp : vec2) (recipes : string -> option recipe) (stacking : stackings) (d : nat) (name : string).
Variables (S S' : 'M[C]_((n + n) + (n + n))).
Hypothesis hS : closed_at J1 expm p L wl kp recipes stacking d name S.
Hypothesis hS' : closed_at J1 expm p L wl (opposite kp) recipes stacking d name S'.
Hypothesis clear : no_anomaly L ee wl kp.
Let Wi := weight L (l_incid L) wl kp (n := n).
Let We := weight L (l_emerg L) wl kp (n := n).
Lemma trans_back a b (g h : 'I_n) :
  Wi a g * drsubmx S (wave a g) (wave b h) = We b h * ulsubmx S' (wave b (rev_ord h)) (wave a (rev_ord g)).
Proof.
have := closed_lorentz hL hf hp hexp hS hS' (block_scatters S 0 (delta_mx (wave b h) 0)) (block_scatters S' (delta_mx (wave a (rev_ord g)) 0) 0).
rewrite !mulmx0 !add0r !addr0 form_r form_l form_0l form_0r !subr0 !revw_wave rev_ordK !wofi_wave !col_entry.
by [].
Qed.
Lemma weight_neq0 eps a (g : 'I_n) : compute_kz eps wl kp (l_g L g) != 0 -> weight L eps wl kp a g != 0.
Proof.
move=> k0; rewrite weightE mulf_neq0 ?k0 // mulf_neq0 //.
  by case: a; apply/eqP => /(congr1 fst) /=; lra.
by destruct (Rlt_dec _ _) as [h|h]; cbn [is_left]; apply/eqP => /(congr1 fst) /=; lra.
Qed.
Lemma det_opposite : \det S = \det S'.
Proof.
have [A [B [_ /interfaceE [U [V [hU _ _]]] _]]] := hS; have [hn _ _ k0 _] := lattice_UE hU.
have me : l_emerg L = ee by have [_ _ _ _ []] := mk_latticeE hL.
apply: (@opposite_det n S S' Wi We) => [a g|a g|a b g h|a b g h|a b g h|a b g h].
- by apply: weight_neq0; exact: k0 g.
- by apply: weight_neq0; apply: kz_neq0; rewrite me; apply: clear; rewrite -hn.
- exact: (pile_reflection hL hf hp hexp hS hS').
- exact: (pile_back_reflection hL hf hp hexp hS hS').
- exact: (pile_transmission hL hf hp hexp hS hS').
exact: trans_back.
Qed.
End OppositeNamed.

(** * Examples *)
Definition pane (x : R) : recipe := ([:: (Rectangle 0 0 (/ 2) 1, (2%Re, x))], (1%Re, x), 1%Re, 2%N).
Definition pane_layer x (name : string) : option recipe := if String.eqb name "pane" then Some (pane x) else None.
Lemma pane_absorbs x layer q : (0 <= x)%Re -> pane_layer x layer = Some q -> absorbing_recipe 1 1 q.
Proof.
move=> x0; rewrite /pane_layer; case: (String.eqb layer "pane") => // -[<-]; exists [:: ((0%Re, 0%Re, (/ 2)%Re, 1%Re), (2%Re, x))]; split=> //=; try lra.
  by move=> q' [<-|[]] /=; have := PI2_3_2; rewrite /wide; repeat split; lra.
Qed.
Lemma pane_lossless layer q : pane_layer 0 layer = Some q -> lossless_recipe q.
Proof. by rewrite /pane_layer; case: (String.eqb layer "pane") => // -[<-]; split=> // s e /= [[_ <-]|[]]. Qed.
Lemma pane_example J1 x : (0 <= x)%Re -> exists L S, let expm := @mexp ((1 + 1) + (1 + 1)) in let kp := (0%Re, 0%Re) in let wl := 2%Re in
  [/\ mk_lattice (1, 1)%N (1%Re, 0%Re) (0%Re, 1%Re) (Float 1) (Float 4) = Ok L, is_expm expm,
      pile_at J1 expm (1, 1)%N L wl kp (pane_layer x) [::] 1 "pane" S & all_propagate 1 L wl kp].
Proof.
move=> x0; have [L hL] := @mk_lattice_ok (1, 1)%N (Float 1) (Float 4) erefl.
have hexp : is_expm (@mexp ((1 + 1) + (1 + 1))) by exact: mexpP.
have fits : window_fits (1, 1)%N by left.
have p0 := PI_RGT_0; have t0 : (0 < 2)%Re by lra.
have one0 : (0 < 1)%Re by lra.
have [mi me] := one_media hL.
have e1 : (1 * (2 * PI / 2) ^ 2 - (0 ^ 2 + 0 ^ 2) = PI * PI)%Re by field.
have all : all_propagate 1 L 2 (0%Re, 0%Re).
  move=> g; rewrite (ord1 g) (one_g hL) mi (@kz_value (Float 1) 1 2 (0%Re, 0%Re) (0%Re, 0%Re) PI erefl) /=; [split=> //; lra|lra|].
  by rewrite !Rplus_0_r.
have [A hA] : is_ok (scattering_matrix_islands J1 (@mexp ((1 + 1) + (1 + 1))) (1, 1)%N L (pane x).1.1.1 (pane x).1.1.2 2 (0%Re, 0%Re) (pane x).1.2 (pane x).2).
  apply: (layer_ok J1 one0 one0 hL fits hexp t0 _ _ _ _ all (r := 1%Re)) => //; [exact: (pane_absorbs (layer := "pane") x0)| |by rewrite (one_ng hL)|by rewrite mi].
  split; first by apply/eqP => /(congr1 fst) /=; lra.
  by move=> s e /= [[_ <-]|[]]; apply/eqP => /(congr1 fst) /=; lra.
exists L, A; split=> //.
exists (fun name => if String.eqb name "pane" then Some A else None); last by [].
by move=> name; rewrite /pane_layer; case: (String.eqb name "pane") => //; exists A.
Qed.
Lemma opposite_example J1 : exists L S S', let expm := @mexp ((1 + 1) + (1 + 1)) in let kp := ((5 / 4)%Re, 0%Re) in
  [/\ is_expm expm, mk_lattice (1, 1)%N (1%Re, 0%Re) (0%Re, 1%Re) (Float 1) (Float (16 / 9)) = Ok L,
      closed_at J1 expm (1, 1)%N L (2 * PI) kp air_layer [::] 1 "air" S,
      closed_at J1 expm (1, 1)%N L (2 * PI) (opposite kp) air_layer [::] 1 "air" S' & no_anomaly L (Float (16 / 9)) (2 * PI) kp].
Proof.
have [L [S [S' [h1 h2 h3 h4]]]] := closed_example J1; exists L, S, S'; split=> // g.
rewrite (one_ng h2); case: g => // _; rewrite (one_g h2) => /(congr1 fst) /=.
by have p0 := PI_RGT_0; have -> : (2 * PI / (2 * PI) = 1)%Re; [field; lra|lra].
Qed.
(** A solver that knows one pair of matrices. *)
Definition one_pair (S : 'M[C]_((1 + 1) + (1 + 1))) w v (A B : 'M[C]_((1 + 1) + (1 + 1))) : seq (C * 'cV[C]_((1 + 1) + (1 + 1))) :=
  if (A, B) == scattering_splitlr S then [:: (w, v)] else [::].
Lemma one_pairP S w v A B w' v' : eigenpair (scattering_splitlr S) w v -> List.In (w', v') (one_pair S w v A B) -> eigenpair (A, B) w' v'.
Proof. by rewrite /one_pair; case: eqP => [<-|//] h [[<- <-]|[]]. Qed.
Lemma eig_example : exists (S : 'M[C]_((1 + 1) + (1 + 1))) (eig : 'M[C]_((1 + 1) + (1 + 1)) -> 'M[C]_((1 + 1) + (1 + 1)) -> seq (C * 'cV[C]_((1 + 1) + (1 + 1)))) w v r,
  [/\ forall A B w v, List.In (w, v) (eig A B) -> eigenpair (A, B) w v, scattering_eigenvalues eig S true = Ok r & List.In (w, v) r.1].
Proof.
set a := RtoC (exp (- (3 / 4))); have a0 : a != 0 by apply/eqP => /(congr1 fst) /=; have := exp_pos (- (3 / 4)); lra.
set S : 'M[C]_((1 + 1) + (1 + 1)) := a%:M; set v : 'cV[C]_((1 + 1) + (1 + 1)) := col_mx (const_mx 1) 0.
have hv : eigenpair (scattering_splitlr S) a v by exact: scalar_bloch.
have [d hd] : is_ok (scattering_det S).
  by apply/scattering_det_defined; rewrite /mm /S scalar_mx_block block_mxKdr -scalemx1 unitmxZ ?unitmx1 ?unitfE.
exists S, (one_pair S a v), a, v, ([:: (a, v)], Some d); split; [|by rewrite /scattering_eigenvalues /one_pair; case: (scattering_splitlr S) (eqxx (scattering_splitlr S)) => A B ->; rewrite hd|by left].
by move=> A B w' v'; exact: one_pairP.
Qed.
Lemma eigen_meaning (F : fieldType) k (eig : 'M[F]_(k + k) -> 'M[F]_(k + k) -> seq (F * 'cV[F]_(k + k))) S dos wv d :
  (forall A B w v, List.In (w, v) (eig A B) -> eigenpair (A, B) w v) -> scattering_eigenvalues eig S dos = Ok (wv, d) ->
  (forall w v, List.In (w, v) wv -> bloch_wave S w v) /\ d = if dos then Some (\det S) else None.
Proof.
move=> heig; rewrite /scattering_eigenvalues; case e : (scattering_splitlr S) => [A B].
have hw w v : List.In (w, v) (eig A B) -> bloch_wave S w v by move=> /heig h; apply/blochE; rewrite e.
case: dos; first by case hd : (scattering_det S) => [x|//] /= [<- <-]; rewrite (scattering_detE hd).
by case=> <- <-.
Qed.
