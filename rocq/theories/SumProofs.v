(** Lemmas about the direct Fourier sums dft, slow_dft, idft and idft2. *)
From Coq Require Import Reals ZArith Lra Lia.
From mathcomp Require Import all_ssreflect all_algebra.
From Coquelicot Require Import Complex.
From Verif Require Import Base ZmodTac CField CFun ModelExpansion ModelFourier SpecFourier FourierProofs SpecSums.
Set Implicit Arguments. Unset Strict Implicit. Unset Printing Implicit Defensive.
Import GRing.Theory.
Local Open Scope ring_scope.

Lemma dft_innerE row KXk KY l todo acc KYl :
  dft_inner row KXk KY l todo acc KYl = acc + \sum_(t < todo) row (l + t)%N * KXk * (KYl * KY ^+ t).
Proof.
elim: todo l acc KYl => [|todo IH] l acc KYl /=; first by rewrite big_ord0 addr0.
rewrite IH big_ord_recl /= expr0 mulr1 addn0 addrA; congr (_ + _).
by apply: eq_bigr => t _; rewrite ?/bump ?leq0n ?add1n addSnnS exprS; congr (_ * _); rewrite mulrA.
Qed.
Lemma dft_outerE field cols KX KY k todo acc KXk :
  dft_outer field cols KX KY k todo acc KXk =
  acc + \sum_(s < todo) \sum_(t < cols) field (k + s)%N t * (KXk * KX ^+ s) * KY ^+ t.
Proof.
elim: todo k acc KXk => [|todo IH] k acc KXk /=; first by rewrite big_ord0 addr0.
rewrite IH dft_innerE big_ord_recl /= expr0 mulr1 addn0 addrA; congr (_ + _ + _).
  by apply: eq_bigr => t _; rewrite add0n mul1r.
by apply: eq_bigr => s _; apply: eq_bigr => t _; rewrite ?/bump ?leq0n ?add1n addSnnS exprS; congr (_ * _ * _); rewrite mulrA.
Qed.
Lemma cexpX (z : C) k : cexp z ^+ k = cexp (z * k%:R).
Proof.
elim: k => [|k IH]; first by rewrite expr0 mulr0 cexp0.
by rewrite exprS IH -cexpD -[k.+1]add1n natrD mulrDr mulr1.
Qed.
Lemma natRtoC k : (k%:R : C) = RtoC (INR k).
Proof. by elim: k => [|k IH] //; rewrite -[k.+1]addn1 natrD IH addn1 S_INR RtoC_plus. Qed.
Lemma dft_sum A kx ky a v : dft A kx ky a = Ok v ->
  v = wave_sum2 A kx ky (a / INR (a_rows A))%Re.
Proof.
rewrite /dft; case: (a_rows A == 0%N) => // -[<-]; rewrite dft_outerE add0r /wave_sum2.
apply: eq_bigr => s _; apply: eq_bigr => t _; rewrite add0n mul1r -mulrA; congr (_ * _).
rewrite !cexpX -cexpD !natRtoC; congr cexp.
by apply: C_ext => /=; ring.
Qed.
Lemma dft_def A kx ky a : (0 < a_rows A)%N -> is_ok (dft A kx ky a).
Proof. by rewrite /dft; case: (a_rows A) => // n _; eexists. Qed.

(** Round trip on the orders of the lattice. *)
Section RoundTrip.
Variables (N : nat) (a : R) (terms : seq (C * (Z * Z))).
Hypotheses (N0 : (0 < N)%N) (a0 : a <> 0%Re).
Hypothesis distinct : resolved N terms.
Let A := sampled N a terms.
Lemma order_wave (m n : Z) (k l : nat) :
  cexp (ci * RtoC (2 * PI * IZR m / a * (a / INR N * INR k) + 2 * PI * IZR n / a * (a / INR N * INR l))%Re) =
  wave N (Z.opp m) k * wave N (Z.opp n) l.
Proof.
rewrite /wave -cexpD; congr cexp; rewrite !opp_IZR.
have n0 : INR N <> 0%Re by apply: not_0_INR; case: (N) N0.
by apply: C_ext => /=; field.
Qed.
Lemma order_waveN (m n : Z) (k l : nat) :
  cexp (- ci * RtoC (2 * PI * IZR m / a * (a / INR N * INR k) + 2 * PI * IZR n / a * (a / INR N * INR l))%Re) =
  wave N m k * wave N n l.
Proof.
rewrite /wave -cexpD; congr cexp.
have n0 : INR N <> 0%Re by apply: not_0_INR; case: (N) N0.
by apply: C_ext => /=; field.
Qed.
Lemma dft_order j v : (j < size terms)%N ->
  let o := (nth (0, (BinNums.Z0, BinNums.Z0)) terms j).2 in
  dft A (2 * PI * IZR o.1 / a)%Re (2 * PI * IZR o.2 / a)%Re a = Ok v ->
  v = RtoC (INR (N * N)) * (nth (0, (BinNums.Z0, BinNums.Z0)) terms j).1.
Proof.
move=> hj o /dft_sum /= ->; rewrite /wave_sum2 /=.
pose t k := nth (0, (BinNums.Z0, BinNums.Z0)) terms k.
under eq_bigr => k _ do under eq_bigr => l _ do
  rewrite /sample_at (big_nth (0, (BinNums.Z0, BinNums.Z0))) big_mkord order_waveN mulr_suml.
under eq_bigr => k _ do rewrite exchange_big /=.
rewrite exchange_big /=.
transitivity (\sum_(i < size terms) (t i).1 *
  ((\sum_(k < N) wave N (Z.sub o.1 (t i).2.1) k) * (\sum_(l < N) wave N (Z.sub o.2 (t i).2.2) l))).
  apply: eq_bigr => i _; rewrite big_distrl /= big_distrr /=; apply: eq_bigr => k _.
  rewrite !big_distrr /=; apply: eq_bigr => l _.
  rewrite order_wave -/(t i) -mulrA; congr (_ * _).
  rewrite -!Z.add_opp_r !waveD; move: (wave _ _ _) (wave _ _ _) (wave _ _ _) (wave _ _ _) => w x y z.
  by cring.
rewrite (bigD1 (Ordinal hj)) //= [X in _ + X]big1 ?addr0.
  have zN : Z.lt (Z.abs BinNums.Z0) (Z.of_nat N) by move/ltP: N0; lia.
  rewrite -/o !Z.sub_diag !wave_sum //=.
  by rewrite -multE mult_INR RtoC_mult mulrC.
move=> i ij; have [d1 [d2 d3]] := distinct hj (ltn_ord i).
rewrite !wave_sum //; case: Z.eqb_spec => e1; last by rewrite mul0r mulr0.
case: Z.eqb_spec => e2; last by rewrite mulr0 mulr0.
exfalso; move/eqP: ij; apply; apply: val_inj => /=; symmetry; apply: d3.
move: e1 e2; rewrite /o /t.
case: (nth _ terms j).2 => x y; case: (nth _ terms i).2 => x' y' /= e1 e2; congr pair; lia.
Qed.
End RoundTrip.

(** The inverse sums. *)
Lemma idftE coefs x y : idft coefs x y = \sum_(f <- coefs) f.1 * cexp (ci * (f.2.1 * RtoC x + f.2.2 * RtoC y)).
Proof. by rewrite /idft; elim: coefs => [|f s IH]; rewrite ?big_nil ?big_cons //= IH. Qed.
Lemma runningE z w k : running z w k = z * w ^+ k.
Proof. by elim: k => [|k IH] /=; [rewrite expr0 mulr1|rewrite IH exprSr mulrA]. Qed.
Lemma foldl_sum (T : Type) (F : T -> C) (s : seq T) acc :
  foldl (fun acc f => acc + F f) acc s = acc + \sum_(f <- s) F f.
Proof. by elim: s acc => [|f s IH] acc; [rewrite big_nil addr0|rewrite big_cons /= IH addrA]. Qed.
Lemma idft2E coefs xmin xmax ymin ymax rows cols k l :
  idft2 coefs xmin xmax ymin ymax rows cols k l =
  idft [seq (f.1, (RtoC f.2.1, RtoC f.2.2)) | f <- coefs]
    (xmin + INR k * ((xmax - xmin) / INR rows))%Re (ymin + INR l * ((ymax - ymin) / INR cols))%Re.
Proof.
rewrite idftE big_map /idft2; set dx := (_ / INR rows)%Re; set dy := (_ / INR cols)%Re.
rewrite (foldl_sum (fun f => f.1 * running (cexp (ci * RtoC f.2.1 * RtoC xmin)) (cexp (ci * RtoC f.2.1 * RtoC dx)) k *
  running (cexp (ci * RtoC f.2.2 * RtoC ymin)) (cexp (ci * RtoC f.2.2 * RtoC dy)) l)) add0r.
apply: eq_bigr => f _; rewrite -mulrA; congr (_ * _).
rewrite !runningE !cexpX -!cexpD !natRtoC; congr cexp.
by apply: C_ext => /=; ring.
Qed.
Lemma slow_dftE vals kx ky : slow_dft vals kx ky = \sum_(v <- vals) v.1 * cexp (- ci * RtoC (kx * v.2.1 + ky * v.2.2)%Re).
Proof.
by rewrite /slow_dft (foldl_sum (fun v => v.1 * cexp (- ci * RtoC (kx * v.2.1 + ky * v.2.2)%Re))) add0r.
Qed.
