(** Lemmas about ModelFourier: the convolution matrix. *)
From Coq Require Import Reals ZArith Lra Lia.
From mathcomp Require Import all_ssreflect all_algebra.
From Coquelicot Require Import Complex.
From Verif Require Import Base ZmodTac CField CFun ModelExpansion ModelFourier SpecFourier SpecEnergy EnergyAlg
  NormalProofs ExpansionProofs SpecFlux FluxProofs.
Set Implicit Arguments. Unset Strict Implicit. Unset Printing Implicit Defensive.
Import GRing.Theory.
Local Open Scope ring_scope.

(** Periodicity of the kernel. *)
Lemma cexp_cis t : cexp (- (ci * RtoC t)) = (cos t, (- sin t)%Re).
Proof.
rewrite /cexp /ci /=; apply: C_ext => /=.
  rewrite (_ : (- _ = 0)%Re); [|ring]. rewrite exp_0 (_ : (- _ = - t)%Re); [|ring].
  rewrite cos_neg; ring.
rewrite (_ : (- _ = 0)%Re); [|ring]. rewrite exp_0 (_ : (- _ = - t)%Re); [|ring].
rewrite sin_neg; ring.
Qed.
Lemma cos_2kPI (k : Z) : cos (2 * IZR k * PI) = 1%Re.
Proof.
wlog h : k / Z.le BinNums.Z0 k.
  move=> H; case: (Z.le_ge_cases BinNums.Z0 k) => h; first exact: H.
  rewrite -cos_neg (_ : (- _ = 2 * IZR (- k) * PI)%Re); first by apply: H; lia.
  by rewrite opp_IZR; ring.
rewrite -(Z2Nat.id k) // -INR_IZR_INZ.
by have := cos_period 0 (Z.to_nat k); rewrite Rplus_0_l cos_0.
Qed.
Lemma sin_2kPI (k : Z) : sin (2 * IZR k * PI) = 0%Re.
Proof.
have h := sin2_cos2 (2 * IZR k * PI); rewrite cos_2kPI /Rsqr in h.
have : (sin (2 * IZR k * PI) * sin (2 * IZR k * PI) = 0)%Re by lra.
by move/Rmult_integral; case.
Qed.
Lemma cexp_2kPI (k : Z) : cexp (- (ci * RtoC (2 * IZR k * PI)%Re)) = 1.
Proof. by rewrite cexp_cis cos_2kPI sin_2kPI Ropp_0. Qed.

Lemma waveD N d d' x : wave N (Z.add d d') x = wave N d x * wave N d' x.
Proof.
rewrite /wave -cexpD; congr cexp; rewrite plus_IZR; apply: C_ext => /=; rewrite /Rdiv; ring.
Qed.
Lemma wave0 N x : wave N BinNums.Z0 x = 1.
Proof.
rewrite /wave cexp_cis (_ : (_ / _ = 0)%Re); first by rewrite cos_0 sin_0 Ropp_0.
by rewrite /Rdiv; ring.
Qed.
Lemma waveN N d x : wave N (Z.opp d) x = Cconj (wave N d x).
Proof.
rewrite /wave cexp_conj; congr cexp; rewrite opp_IZR; apply: C_ext => /=; rewrite /Rdiv; ring.
Qed.
Lemma wave_period N k x : (0 < N)%N -> wave N (Z.mul (Z.of_nat N) k) x = 1.
Proof.
move=> hN; rewrite /wave -{}(cexp_2kPI (Z.mul k (Z.of_nat x))); congr (cexp (- (ci * RtoC _))).
rewrite !mult_IZR -!INR_IZR_INZ; field.
by apply: not_0_INR => h; rewrite h in hN.
Qed.
Lemma wave_mod N d k x : (0 < N)%N -> wave N (Z.add d (Z.mul (Z.of_nat N) k)) x = wave N d x.
Proof. by move=> hN; rewrite waveD wave_period // mulr1. Qed.
Lemma kernel_wave N k x : fft_kernel N k x = wave N (Z.of_nat k) x.
Proof. by rewrite /fft_kernel /wave -INR_IZR_INZ. Qed.

(** Where fftshift puts the order d. *)
Lemma shift_index N i (d : Z) : (0 < N)%N -> Z.of_nat i = Z.add (Z.of_nat (N %/ 2)) d ->
  exists k, Z.of_nat ((i + (N - N %/ 2)) %% N) = Z.add d (Z.mul (Z.of_nat N) k).
Proof.
move=> hN hi.
have hd : (N %/ 2 <= N)%N by rewrite leq_div.
have e := divn_eq (i + (N - N %/ 2)) N.
exists (Z.sub (Zpos xH) (Z.of_nat ((i + (N - N %/ 2)) %/ N))).
move: hd e; move: (N %/ 2)%N hi => h hi hd.
move: (_ %/ N)%N (_ %% N)%N => q r e.
have : Z.of_nat (i + (N - h)) = Z.of_nat (q * N + r) by rewrite e.
rewrite -!plusE -!multE -!minusE !Nat2Z.inj_add Nat2Z.inj_mul Nat2Z.inj_sub; last by apply/leP.
lia.
Qed.

Lemma py_index_ok N i j : py_index N i = Ok j ->
  (j < N)%N /\ (Z.of_nat j = i \/ Z.of_nat j = Z.add i (Z.of_nat N) /\ Z.lt i BinNums.Z0).
Proof.
rewrite /py_index; case: ifP => [/andP [/Z.leb_le h1 /Z.ltb_lt h2] [<-]|_].
  by split; [apply/ltP; lia | left; lia].
case: ifP => // /andP [/Z.leb_le h1 /Z.ltb_lt h2] [<-].
by split; [apply/ltP; lia | right; lia].
Qed.
Lemma py_index_in N i : Z.le BinNums.Z0 i -> Z.lt i (Z.of_nat N) -> py_index N i = Ok (Z.to_nat i).
Proof. by move=> /Z.leb_le h1 /Z.ltb_lt h2; rewrite /py_index h1 h2. Qed.
Lemma py_index_big N i : Z.le (Z.of_nat N) i -> py_index N i = Err IndexError.
Proof.
move=> h; rewrite /py_index.
have -> : Z.ltb i (Z.of_nat N) = false by apply/Z.ltb_ge.
by have -> : Z.ltb i BinNums.Z0 = false by [apply/Z.ltb_ge; lia]; rewrite !andbF.
Qed.


Lemma halves N : (N %/ 2 + (N + 1) %/ 2 = N)%N /\ ((N + 1) %/ 2 <= N %/ 2 + 1)%N.
Proof.
have e1 := divn_eq N 2; have e2 := divn_eq (N + 1) 2.
have l1 : (N %% 2 < 2)%N by rewrite ltn_mod.
have l2 : ((N + 1) %% 2 < 2)%N by rewrite ltn_mod.
move: e1 e2 l1 l2; move: (N %/ 2)%N (N %% 2)%N ((N + 1) %/ 2)%N ((N + 1) %% 2)%N => a b c d.
rewrite -!plusE -!multE => e1 e2 /ltP l1 /ltP l2; split; last (apply/leP); lia.
Qed.

(** Indices used by the code stay inside the table when the orders fit. *)
Lemma index_fits N p r c : (p <= (N + 1) %/ 2)%N -> (r < p)%N -> (c < p)%N ->
  exists i, py_index N (Z.add (Z.of_nat (N %/ 2)) (Z.sub (Z.of_nat r) (Z.of_nat c))) = Ok i /\
    Z.of_nat i = Z.add (Z.of_nat (N %/ 2)) (Z.sub (Z.of_nat r) (Z.of_nat c)).
Proof.
move=> hp hr hc; have [h1 h2] := halves N.
move: h1 h2 hp hr hc; move: (N %/ 2)%N ((N + 1) %/ 2)%N => a b; rewrite -!plusE => h1 /leP h2 /leP hp /ltP hr /ltP hc.
eexists; split; first by apply: py_index_in; lia.
by rewrite Z2Nat.id //; lia.
Qed.
Lemma index_unfit N p : ((N + 1) %/ 2 < p)%N ->
  py_index N (Z.add (Z.of_nat (N %/ 2)) (Z.sub (Z.of_nat (p - 1)) (Z.of_nat 0))) = Err IndexError.
Proof.
move=> hp; have [h1 h2] := halves N; apply: py_index_big.
move: h1 h2 hp; move: (N %/ 2)%N ((N + 1) %/ 2)%N => a b; rewrite -!plusE -!minusE => h1 /leP h2 /ltP hp; lia.
Qed.

Section Conv.
Variables (n : nat) (A : array2) (P Q : nat).
Notation Nx := (a_rows A). Notation Ny := (a_cols A).
Definition fits : bool := (P <= (Nx + 1) %/ 2)%N && (Q <= (Ny + 1) %/ 2)%N.
Definition ord_x (i : 'I_n) : Z := Z.of_nat (i %% P).
Definition ord_y (i : 'I_n) : Z := Z.of_nat (i %/ P).
Hypothesis hn : (P * Q = n)%N.
Hypotheses (hx : (0 < Nx)%N) (hy : (0 < Ny)%N).

Lemma PQ0 (i : 'I_n) : (0 < P)%N /\ (0 < Q)%N.
Proof. by apply/andP; rewrite -muln_gt0 hn; apply: leq_ltn_trans (ltn_ord i). Qed.

Lemma fft2_ok : fft2 A = Ok (Array2 Nx Ny (fun k l =>
    \sum_(x < Nx) \sum_(y < Ny) a_at A x y * fft_kernel Nx k x * fft_kernel Ny l y)).
Proof. rewrite /fft2; have -> : (Nx == 0%N) = false by apply/negbTE; rewrite -lt0n.
by have -> : (Ny == 0%N) = false by apply/negbTE; rewrite -lt0n. Qed.

Lemma shifted_coef i j d0 d1 :
  Z.of_nat i = Z.add (Z.of_nat (Nx %/ 2)) d0 -> Z.of_nat j = Z.add (Z.of_nat (Ny %/ 2)) d1 ->
  (\sum_(x < Nx) \sum_(y < Ny) a_at A x y * fft_kernel Nx ((i + (Nx - Nx %/ 2)) %% Nx) x
      * fft_kernel Ny ((j + (Ny - Ny %/ 2)) %% Ny) y) / RtoC (INR (Nx * Ny)) = fourier_coef A d0 d1.
Proof.
move=> h0 h1; have [k0 e0] := shift_index hx h0; have [k1 e1] := shift_index hy h1.
rewrite /fourier_coef; congr (_ / _); apply: eq_bigr => x _; apply: eq_bigr => y _.
by rewrite !kernel_wave e0 e1 !wave_mod.
Qed.

Lemma conv_fits : fits -> exists M, convolution_matrix n A (P, Q) = Ok M /\
  forall i j, M i j = fourier_coef A (Z.sub (ord_x i) (ord_x j)) (Z.sub (ord_y i) (ord_y j)).
Proof.
move=> /andP [fx fy]; rewrite /convolution_matrix fft2_ok /= /convolution_matrix_fourier /= hn eqxx /=.
set B := Array2 _ _ _; pose ent := conv_entry_at B P.
have key (i j : 'I_n) : ent i j = Ok (fourier_coef A (Z.sub (ord_x i) (ord_x j)) (Z.sub (ord_y i) (ord_y j))).
  have [p0 q0] := PQ0 i; rewrite /ent /conv_entry_at /=.
  have [a [-> ea]] := index_fits (r := i %% P) (c := j %% P) fx (ltn_pmod _ p0) (ltn_pmod _ p0).
  have lt (k : 'I_n) : (k %/ P < Q)%N by rewrite ltn_divLR // mulnC hn.
  have [b [-> eb]] := index_fits fy (lt i) (lt j).
  by rewrite /= (shifted_coef ea eb).
case: ifP => [_|/negbT/forallPn [i /forallPn [j]]]; last by rewrite -/(ent i j) key.
by eexists; split; first reflexivity; move=> i j; rewrite mxE -/(ent i j) key.
Qed.

Lemma conv_unfit : (0 < n)%N -> ~~ fits -> convolution_matrix n A (P, Q) = Err IndexError.
Proof.
move=> n0 nf; rewrite /convolution_matrix fft2_ok /= /convolution_matrix_fourier /= hn eqxx /=.
set B := Array2 _ _ _; pose ent := conv_entry_at B P.
case: ifP => // /forallP H; exfalso; have [p0 q0] := PQ0 (Ordinal n0).
move: nf; rewrite /fits negb_and -!ltnNge => /orP [hp|hq].
- have l : (P - 1 < n)%N.
    rewrite subn1 prednK // -hn; exact: leq_pmulr.
  have /forallP /(_ (Ordinal n0)) := H (Ordinal l).
  rewrite /conv_entry_at /= mod0n modn_small; last by rewrite subn1 prednK.
  by rewrite (index_unfit hp).
- have l : ((Q - 1) * P < n)%N.
    by rewrite -hn mulnC ltn_pmul2l // subn1 prednK.
  have /forallP /(_ (Ordinal n0)) := H (Ordinal l).
  rewrite /conv_entry_at /= modnMl mulnK // div0n (index_unfit hq).
  by case: (py_index _ _).
Qed.
End Conv.

Lemma conv_size n A pw M : convolution_matrix n A pw = Ok M ->
  [/\ (pw.1 * pw.2)%N = n, (0 < a_rows A)%N & (0 < a_cols A)%N].
Proof.
rewrite /convolution_matrix /fft2; case: ifP => // /negbT; rewrite negb_or -!lt0n => /andP [hx hy] /=.
by rewrite /convolution_matrix_fourier /=; case: eqP.
Qed.
Lemma conv_empty n A pw : a_rows A = 0%N \/ a_cols A = 0%N -> convolution_matrix n A pw = Err ValueError.
Proof. by rewrite /convolution_matrix /fft2 => -[] ->; rewrite ?eqxx ?orbT. Qed.

(** * Quadratic form of the convolution matrix *)
Section Form.
Variables (n : nat) (A : array2) (P Q : nat) (M : 'M[C]_n).
Notation Nx := (a_rows A). Notation Ny := (a_cols A).
Hypothesis hM : convolution_matrix n A (P, Q) = Ok M.

Lemma conv_entry i j :
  M i j = fourier_coef A (Z.sub (ord_x P i) (ord_x P j)) (Z.sub (ord_y P i) (ord_y P j)).
Proof.
have [/= hn hx hy] := conv_size hM.
case: (boolP (fits A P Q)) => f.
  by have [M' [hM' e]] := conv_fits hn hx hy f; move: hM; rewrite hM' => -[<-].
have n0 : (0 < n)%N by apply: leq_ltn_trans (ltn_ord i).
by move: hM; rewrite (conv_unfit hn hx hy n0 f).
Qed.
Lemma conv_fit : (0 < n)%N -> fits A P Q.
Proof.
have [/= hn hx hy] := conv_size hM => n0.
by case: (boolP (fits A P Q)) => // f; move: hM; rewrite (conv_unfit hn hx hy n0 f).
Qed.
Definition cellw (i : 'I_n) (x y : nat) : C := wave Nx (ord_x P i) x * wave Ny (ord_y P i) y.
Lemma conv_cell i j : M i j =
  (\sum_(x < Nx) \sum_(y < Ny) a_at A x y * (cellw i x y * Cconj (cellw j x y))) / RtoC (INR (Nx * Ny)).
Proof.
rewrite conv_entry /fourier_coef; congr (_ / _); apply: eq_bigr => x _; apply: eq_bigr => y _.
rewrite /cellw conjCM -!waveN.
have -> a b : Z.sub a b = Z.add a (Z.opp b) by lia.
by rewrite !waveD -!mulrA; congr (_ * _); rewrite !mulrA; congr (_ * _); rewrite -!mulrA; congr (_ * _); rewrite mulrC.
Qed.
Lemma conv_form (x : 'cV[C]_n) : (adj x *m M *m x) 0 0 =
  (\sum_(s < Nx) \sum_(t < Ny) a_at A s t * RtoC (sqmod (\sum_i Cconj (x i 0) * cellw i s t)))
   / RtoC (INR (Nx * Ny)).
Proof.
rewrite mxE.
under eq_bigr => j _ do rewrite mxE big_distrl /=.
rewrite exchange_big /=.
transitivity (\sum_i \sum_j \sum_(s < Nx) \sum_(t < Ny)
    (a_at A s t * ((Cconj (x i 0) * cellw i s t) * Cconj (Cconj (x j 0) * cellw j s t))) / RtoC (INR (Nx * Ny))).
  apply: eq_bigr => i _; apply: eq_bigr => j _; rewrite /adj !mxE conv_cell.
  rewrite big_distrl /= big_distrr /= big_distrl /=; apply: eq_bigr => s _.
  rewrite big_distrl /= big_distrr /= big_distrl /=; apply: eq_bigr => t _.
  rewrite conjCM conjCK; cring.
rewrite big_distrl /=.
under eq_bigr => i _ do rewrite exchange_big /=.
rewrite exchange_big /=; apply: eq_bigr => s _.
under eq_bigr => i _ do rewrite exchange_big /=.
rewrite exchange_big big_distrl /=; apply: eq_bigr => t _.
rewrite sqmodE [_ * \sum_i _]mulrC (rmorph_sum Cconj_rmorphism) big_distrl big_distrr big_distrl /=; apply: eq_bigr => i _.
by rewrite big_distrr /= big_distrr /= big_distrl.
Qed.
End Form.

Lemma conjC_sum (I : Type) (r : seq I) (F : I -> C) :
  Cconj (\sum_(i <- r) F i) = \sum_(i <- r) Cconj (F i).
Proof. exact: (rmorph_sum Cconj_rmorphism). Qed.
Lemma conjC_real (z : C) : snd z = 0%Re -> Cconj z = z.
Proof. by case: z => a b /= ->; apply: C_ext => //=; ring. Qed.
Lemma conjC_R (r : R) : Cconj (RtoC r) = RtoC r.
Proof. exact: conjC_real. Qed.
Lemma conjCV (z : C) : Cconj z^-1 = (Cconj z)^-1.
Proof. exact: (fmorphV Cconj_rmorphism). Qed.
Lemma snd_sum (I : Type) (r : seq I) (F : I -> C) :
  snd (\sum_(i <- r) F i) = \sum_(i <- r) snd (F i).
Proof. by elim: r => [|i r IH]; rewrite ?big_nil // !big_cons -IH. Qed.
Lemma sum_le0 (I : Type) (r : seq I) (F : I -> R) :
  (forall i, (F i <= 0)%Re) -> (\sum_(i <- r) F i <= 0)%Re.
Proof.
move=> h; elim: r => [|i r IH]; first by rewrite big_nil; apply: Rle_refl.
rewrite big_cons; apply: (Rle_trans _ (0 + 0)); last by apply: Req_le; ring.
exact: Rplus_le_compat.
Qed.

(** Linear in the picture. *)
Lemma fourier_coef_lin (A B D : array2) (a b : C) d0 d1 :
  a_rows B = a_rows A -> a_cols B = a_cols A -> a_rows D = a_rows A -> a_cols D = a_cols A ->
  (forall x y, (x < a_rows A)%N -> (y < a_cols A)%N -> a_at D x y = a * a_at A x y + b * a_at B x y) ->
  fourier_coef D d0 d1 = a * fourier_coef A d0 d1 + b * fourier_coef B d0 d1.
Proof.
move=> rB cB rD cD h; rewrite /fourier_coef rB cB rD cD !mulrA -mulrDl; congr (_ / _).
rewrite !big_distrr /= -big_split /=; apply: eq_bigr => x _.
rewrite !big_distrr /= -big_split /=; apply: eq_bigr => y _.
by rewrite h // !mulrDl !mulrA.
Qed.

Section FormConseq.
Variables (n : nat) (A : array2) (P Q : nat) (M : 'M[C]_n).
Notation Nx := (a_rows A). Notation Ny := (a_cols A).
Hypothesis hM : convolution_matrix n A (P, Q) = Ok M.
Let Np : (0 < INR (Nx * Ny))%Re.
Proof. by case: (conv_size hM) => _ hx hy; apply: lt_0_INR; apply/ltP; rewrite muln_gt0 hx. Qed.

Lemma conv_lossless : real_picture A -> lossless_op M.
Proof.
move=> hr; apply/matrixP => i j; rewrite /adj !mxE !(conv_cell hM) conjCM conjCV conjC_R; congr (_ / _).
rewrite conjC_sum; apply: eq_bigr => x _; rewrite conjC_sum; apply: eq_bigr => y _.
by rewrite conjCM (conjC_real (hr _ _ (ltn_ord x) (ltn_ord y))) conjCM conjCK [Cconj _ * _]mulrC.
Qed.
Lemma snd_divR (z : C) (r : R) : snd (z / RtoC r) = (snd z * / r)%Re.
Proof.
have -> : (RtoC r)^-1 = RtoC (/ r)%Re.
  case: (Req_EM_T r 0) => [->|h]; last first.
    rewrite RtoC_inv //.
  by rewrite invr0 Rinv_0.
rewrite /=; ring.
Qed.
Lemma conv_passive : passive_picture A -> passive_op M.
Proof.
move=> hp x; rewrite (conv_form hM) snd_divR.
have : (snd (\sum_(s < Nx) \sum_(t < Ny) a_at A s t * RtoC (sqmod (\sum_i Cconj (x i 0%R) * cellw A P i s t)))%R <= 0)%Re.
  rewrite snd_sum; apply: sum_le0 => s; rewrite snd_sum; apply: sum_le0 => t.
  have h1 := hp _ _ (ltn_ord s) (ltn_ord t); have h2 := sqmod_ge0 (\sum_i Cconj (x i 0%R) * cellw A P i s t)%R.
  move: h1 h2; rewrite /=; nra.
have := Rinv_0_lt_compat _ Np; nra.
Qed.
End FormConseq.

(** Geometric sum of the waves. *)
Lemma wave_pow N d x : wave N d x = wave N d 1 ^+ x.
Proof.
elim: x => [|x IH].
  rewrite expr0 /wave (_ : (_ / _ = 2 * IZR BinNums.Z0 * PI)%Re) ?cexp_2kPI //= /Rdiv; ring.
rewrite exprS -IH /wave -cexpD; congr cexp; apply: C_ext; rewrite ?S_INR /= /Rdiv; ring.
Qed.
Lemma cos_lt1 t : (0 < t)%Re -> (t < 2 * PI)%Re -> (cos t < 1)%Re.
Proof.
move=> h1 h2; have := cos_2a_sin (t / 2); rewrite (_ : (2 * (t / 2) = t)%Re); last by field.
have hs : (0 < sin (t / 2))%Re by apply: sin_gt_0; lra.
nra.
Qed.
Lemma wave_neq1 N d : (0 < N)%N -> d <> BinNums.Z0 -> Z.lt (Z.abs d) (Z.of_nat N) -> wave N d 1 != 1.
Proof.
move=> hN d0 dN; apply/eqP; rewrite /wave cexp_cis => -[hc _].
have Np : (0 < INR N)%Re by apply: lt_0_INR; apply/ltP.
set t := (_ / _)%Re in hc.
have hc' : cos (Rabs t) = 1%Re by rewrite /Rabs; case: Rcase_abs; rewrite ?cos_neg.
have ht : Rabs t = (2 * PI * (IZR (Z.abs d) / INR N))%Re.
  have -> : t = (2 * PI * / INR N * IZR d)%Re by rewrite /t /= /Rdiv; ring.
  rewrite Rabs_mult abs_IZR (Rabs_right (2 * PI * / INR N)) /Rdiv; first by ring.
  by have := Rinv_0_lt_compat _ Np; have := PI_RGT_0; nra.
have a0 : (0 < IZR (Z.abs d))%Re by apply: IZR_lt; lia.
have a1 : (IZR (Z.abs d) < INR N)%Re by rewrite INR_IZR_INZ; apply: IZR_lt.
have q0 : (0 < IZR (Z.abs d) / INR N)%Re by apply: Rdiv_lt_0_compat.
have q1 : (IZR (Z.abs d) / INR N < 1)%Re by apply: (Rmult_lt_reg_r (INR N)) => //; rewrite /Rdiv Rmult_assoc Rinv_l; lra.
have := PI_RGT_0 => hPI.
have := @cos_lt1 (Rabs t); rewrite ht in hc' *; rewrite hc'.
move=> H; have : (1 < 1)%Re by apply: H; nra.
lra.
Qed.
Lemma wave_sum N d : (0 < N)%N -> Z.lt (Z.abs d) (Z.of_nat N) ->
  \sum_(x < N) wave N d x = if Z.eqb d BinNums.Z0 then RtoC (INR N) else 0.
Proof.
move=> hN hd; case: Z.eqb_spec => [->|d0].
  under eq_bigr => x _ do rewrite wave0.
  rewrite sumr_const card_ord; elim: N {hN hd} => // N IH; rewrite mulrS IH S_INR RtoC_plus addrC //.
under eq_bigr => x _ do rewrite wave_pow.
have e : (wave N d 1 - 1) * (\sum_(x < N) wave N d 1 ^+ x) = 0.
  rewrite -subrX1 -wave_pow.
  have -> : wave N d N = 1; last by rewrite subrr.
  rewrite /wave (_ : (_ / _ = 2 * IZR d * PI)%Re) ?cexp_2kPI //; field.
  by apply: not_0_INR => h; rewrite h in hN.
have /eqP := e; rewrite mulf_eq0 subr_eq0 (negbTE (wave_neq1 hN d0 hd)) => /eqP //.
Qed.

Lemma coef_constant A e d0 d1 : constant_picture A e -> (0 < a_rows A)%N -> (0 < a_cols A)%N ->
  Z.lt (Z.abs d0) (Z.of_nat (a_rows A)) -> Z.lt (Z.abs d1) (Z.of_nat (a_cols A)) ->
  fourier_coef A d0 d1 = if Z.eqb d0 BinNums.Z0 && Z.eqb d1 BinNums.Z0 then e else 0.
Proof.
move=> hc hx hy h0 h1; rewrite /fourier_coef.
rewrite (_ : \sum_(x < _) _ = e * (\sum_(x < a_rows A) wave (a_rows A) d0 x) * (\sum_(y < a_cols A) wave (a_cols A) d1 y)); last first.
  rewrite -mulrA big_distrl big_distrr /=; apply: eq_bigr => x _.
  by rewrite !big_distrr /=; apply: eq_bigr => y _; rewrite hc // !mulrA.
rewrite !wave_sum //; case: ifP => _ /=; last by rewrite mulr0 !mul0r.
case: ifP => _; last by rewrite mulr0 !mul0r.
have -> : RtoC (INR (a_rows A * a_cols A)) = RtoC (INR (a_rows A)) * RtoC (INR (a_cols A)).
  by rewrite -multE mult_INR; exact: RtoC_mult.
rewrite -[e * _ * _]mulrA mulfK // mulf_neq0 //; apply/eqP => /RtoC_inj h;
  [have := INR_eq _ 0%N h|have := INR_eq _ 0%N h] => e0; [move: hx|move: hy]; by rewrite e0.
Qed.
Lemma conv_constant n A P Q M e : convolution_matrix n A (P, Q) = Ok M -> constant_picture A e -> M = e%:M.
Proof.
move=> hM hc; have [/= hn hx hy] := conv_size hM; apply/matrixP => i j.
have n0 : (0 < n)%N by apply: leq_ltn_trans (ltn_ord i).
have [p0 q0] := PQ0 hn i.
have /andP [fx fy] := conv_fit hM n0.
have lt (k : 'I_n) : (k %/ P < Q)%N by rewrite ltn_divLR // mulnC hn.
have lx (k : 'I_n) : (k %% P < P)%N by rewrite ltn_pmod.
have bd N p (a b : nat) : (0 < N)%N -> (p <= (N + 1) %/ 2)%N -> (a < p)%N -> (b < p)%N ->
    Z.lt (Z.abs (Z.sub (Z.of_nat a) (Z.of_nat b))) (Z.of_nat N).
  move=> h0 hp ha hb; have [h1 h2] := halves N.
  move: h1 h2 hp ha hb h0; move: (N %/ 2)%N ((N + 1) %/ 2)%N => u v; rewrite -!plusE.
  by move=> h1 /leP h2 /leP hp /ltP ha /ltP hb /ltP h0; lia.
have b0 : Z.lt (Z.abs (Z.sub (ord_x P i) (ord_x P j))) (Z.of_nat (a_rows A)) by apply: (bd _ P).
have b1 : Z.lt (Z.abs (Z.sub (ord_y P i) (ord_y P j))) (Z.of_nat (a_cols A)) by apply: (bd _ Q).
rewrite (conv_entry hM) (coef_constant hc hx hy b0 b1) mxE.
case: (i =P j) => [->|ne]; first by rewrite !Z.sub_diag.
case: Z.eqb_spec => [e0|] //; case: Z.eqb_spec => [e1|] //; exfalso; apply: ne; apply: val_inj.
rewrite /ord_x /ord_y in e0 e1.
by rewrite /= (divn_eq i P) (divn_eq j P); congr (_ * _ + _)%N; lia.
Qed.
