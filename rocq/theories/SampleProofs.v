(** Proofs about fields sampled from their Fourier coefficients. *)
From Coq Require Import Reals ZArith Lra Lia.
From mathcomp Require Import all_ssreflect all_algebra.
From Coquelicot Require Import Complex.
From Verif Require Import Base CField CFun ModelExpansion ModelFourier SpecFourier FourierProofs ModelLattice SpecLattice LatticeProofs GridProofs ModelRest SpecRest.
Set Implicit Arguments. Unset Strict Implicit. Unset Printing Implicit Defensive.
Import GRing.Theory.
Local Open Scope ring_scope.
Delimit Scope Z_scope with Zc.

(** * fourier2direct2 *)

Section Direct.
Variable m : nat.
Lemma items_at (A : array2) g : (g < a_rows A * a_cols A)%N -> nth 0 (items A) g = a_at A (g %/ a_cols A) (g %% a_cols A).
Proof.
move=> h; have p0 : (0 < a_cols A)%N by case: (a_cols A) h; rewrite ?muln0.
rewrite {1}(divn_eq g (a_cols A)) /items nth_pairs ?ltn_pmod //.
by rewrite ltn_divLR.
Qed.
Lemma size_items A : size (items A) = (a_rows A * a_cols A)%N.
Proof. by rewrite /items size_allpairs !size_iota. Qed.
Lemma size_transposed_items A : size (transposed_items (inr A)) = (a_cols A * a_rows A)%N.
Proof. by rewrite /= size_allpairs !size_iota. Qed.
Lemma transposed_at A g : (g < a_rows A * a_cols A)%N -> nth 0 (transposed_items (inr A)) g = a_at A (g %% a_rows A) (g %/ a_rows A).
Proof.
move=> h; have p0 : (0 < a_rows A)%N by case: (a_rows A) h.
rewrite {1}(divn_eq g (a_rows A)) /= (nth_pairs 0 (fun j i => a_at A i j)) ?ltn_pmod //.
by rewrite ltn_divLR // mulnC.
Qed.

Lemma swap_lt (g : 'I_(m * m)) : (g %% m * m + g %/ m < m * m)%N.
Proof.
have p0 : (0 < m)%N by case: (m) g => [[]|//].
have h1 : (g %% m < m)%N by rewrite ltn_pmod.
have h2 : (g %/ m < m)%N by rewrite ltn_divLR.
by apply: (@leq_trans ((g %% m).+1 * m)); [rewrite mulSn addnC ltn_add2r | rewrite leq_mul2r h1 orbT].
Qed.
Definition sw (g : 'I_(m * m)) : 'I_(m * m) := Ordinal (swap_lt g).
Lemma sw_div (g : 'I_(m * m)) : (sw g %/ m = g %% m)%N /\ (sw g %% m = g %/ m)%N.
Proof.
have p0 : (0 < m)%N by case: (m) g => [[]|//].
have h2 : (g %/ m < m)%N by rewrite ltn_divLR.
by rewrite /= divnMDl // modnMDl (divn_small h2) (modn_small h2) addn0.
Qed.
Lemma swK : involutive sw.
Proof. by move=> g; apply: val_inj; rewrite [LHS]/=; have [-> ->] := sw_div g; rewrite -divn_eq. Qed.

(** Coefficients in the order of the matrices, as a square array. *)
Variables (v : nat -> C) (kx ky : array2).
Hypotheses (dx : a_rows kx = m /\ a_cols kx = m) (dy : a_rows ky = m /\ a_cols ky = m).
Lemma direct_square a res0 extent :
  let A := Array2 m m (fun i j => v (i * m + j)%N) in
  exists F, fourier2direct2 (inr A) kx ky a res0 extent = Ok F /\ forall i j,
    let: (e0, e1, (e2, e3)) := if extent is Some e then e else ((0, a), (0, a))%Re in
    F i j = \sum_(g < m * m) v g * cexp (ci * (a_at kx (g %% m) (g %/ m) * RtoC (linspace_from e0 e1 res0.1 i) +
                                              a_at ky (g %% m) (g %/ m) * RtoC (linspace_from e2 e3 res0.2 j))).
Proof.
move=> A; rewrite /fourier2direct2; case: (if extent is Some e then e else _) => [[e0 e1] [e2 e3]].
have [rx cx] := dx; have [ry cy] := dy.
rewrite !size_items size_transposed_items rx cx ry cy eqxx /=; eexists; split; first by reflexivity.
move=> i j; rewrite (reindex_inj (inv_inj swK)); apply: eq_bigr => g _; have [s1 s2] := sw_div g.
have T : nth 0 (transposed_items (inr A)) g = v (sw g) by rewrite transposed_at.
by rewrite !items_at ?rx ?cx ?ry ?cy // s1 s2; congr (_ * _).
Qed.
End Direct.

Lemma direct_lattice p a1 a2 ei ee L kp v a res0 : mk_lattice p a1 a2 ei ee = Ok L -> p.2 = p.1 ->
  exists F, fourier2direct2 (inr (reshaped p.1 v)) (kx_array L kp) (ky_array L kp) a res0 None = Ok F /\
    forall i j, F i j = wave_sum (p.1 * p.1) v (fun g => shifted kp (l_g L g)) (linspace_from 0 a res0.1 i) (linspace_from 0 a res0.2 j).
Proof.
move=> hL hp; have hf : window_fits p by left.
have hr := (window_rows hL).1; have hc := window_cols hL hf; rewrite hp in hc.
have [||F [hF eF]] := @direct_square p.1 v (kx_array L kp) (ky_array L kp) _ _ a res0 None; rewrite /= ?hr ?hc //.
exists F; split=> // i j; rewrite eF /wave_sum; apply: eq_bigr => g _; congr (_ * cexp (ci * _)).
by rewrite /kx_array /ky_array /shifted /l_g /w_flat hr; cbn [a_at fst snd]; apply: C_ext => /=; ring.
Qed.

(** A vector that is not reshaped. *)
Lemma direct_vector : exists L F (v : seq C), [/\ mk_lattice (3, 3)%N (1%Re, 0%Re) (0%Re, 1%Re) (Float 1) (Float 1) = Ok L,
  size v = 9%N, fourier2direct2 (inl v) (kx_array L (0%Re, 0%Re)) (ky_array L (0%Re, 0%Re)) 1 (3, 3)%N None = Ok F &
  exists i j, [/\ (i < 3)%N, (j < 3)%N & F i j <> wave_sum 9 (nth 0 v) (fun g => shifted (0%Re, 0%Re) (l_g L g))
    (linspace_from 0 1 3 i) (linspace_from 0 1 3 j)]].
Proof.
case hL : (mk_lattice (3, 3)%N (1%Re, 0%Re) (0%Re, 1%Re) (Float 1) (Float 1)) => [L|]; last first.
  exfalso; move: hL; rewrite /mk_lattice /reciproc; cbn [fst snd].
  by destruct (Req_EM_T (1 * 1 - 0 * 0) 0) as [h|h] => //; lra.
have hf : window_fits (3, 3)%N by left.
have hr := (window_rows hL).1; have hc := window_cols hL hf; rewrite [_.1]/= in hr; rewrite [_.2]/= in hc.
have hb : l_b L = (((2 * PI)%Re, 0%Re), (0%Re, (2 * PI)%Re)).
  have [_ _ _ hb _] := mk_latticeE hL; move: hb; rewrite /reciproc /twopi; cbn [fst snd].
  by destruct (Req_EM_T (1 * 1 - 0 * 0) 0) as [h|h] => // -[<-]; congr ((_, _), (_, _)); field.
pose v : seq C := [:: 0; 1; 0; 0; 0; 0; 0; 0; 0].
have [F hF] : exists F, fourier2direct2 (inl v) (kx_array L (0%Re, 0%Re)) (ky_array L (0%Re, 0%Re)) 1 (3, 3)%N None = Ok F.
  by rewrite /fourier2direct2 !size_items /kx_array /ky_array; cbn [a_rows a_cols]; rewrite hr hc /=; eexists.
exists L, F, v; split=> //; exists 1%N, 0%N; split=> //.
have one (n : nat) (f : 'I_n -> C) (lt : (1 < n)%N) : (forall g : 'I_n, g != 1%N :> nat -> f g = 0) -> \sum_g f g = f (Ordinal lt).
  move=> h; rewrite (bigD1 (Ordinal lt)) //= big1 ?addr0 // => g hg; apply: h; apply: contra hg => /eqP e; apply/eqP; exact: val_inj.
have vz g : g != 1%N -> nth 0 v g = 0 by case: g => [|[|[|[|[|[|[|[|[|g]]]]]]]]] //= _; rewrite nth_nil.
have lt : (1 < 9)%N by [].
rewrite /wave_sum (one _ _ lt) /=; last by move=> g /vz ->; rewrite mul0r.
move: hF; rewrite /fourier2direct2; case: ifP => // _; case: ifP => // _ [<-].
have lt' : (1 < size (items (kx_array L (0%Re, 0%Re))))%N by rewrite size_items /kx_array; cbn [a_rows a_cols]; rewrite hr hc.
rewrite (one _ _ lt') /=; last by move=> g /vz ->; rewrite mul0r.
rewrite !items_at; try by rewrite /kx_array /ky_array; cbn [a_rows a_cols]; rewrite hr hc.
rewrite /kx_array /ky_array /l_g /w_flat /shifted; cbn [a_at a_rows a_cols fst snd]; rewrite hr hc !(window_at hL) hb /order_vector /=.
rewrite !mul1r /linspace_from /=.
set k1 : C := _ + _; set k2 : C := RtoC _.
have e1 : k1 = - RtoC PI by apply: C_ext; rewrite /k1 /=; field.
have e2 : ci * k2 = 0 by apply: C_ext; rewrite /k2 /=; ring.
rewrite e1 e2 cexp0 mulrN cexp_cis cos_PI => /(congr1 fst) /=; lra.
Qed.

(** * fourier2real_fft *)

Lemma shift_sum N h (f : nat -> C) x : (0 < N)%N ->
  \sum_(k < N) f ((k + h) %% N)%N * wave N (Z.opp (Z.of_nat k)) x = \sum_(k < N) f k * wave N (Z.sub (Z.of_nat h) (Z.of_nat k)) x.
Proof.
move=> hN; pose s (k : 'I_N) : 'I_N := Ordinal (ltn_pmod (k + h) hN).
have si : injective s.
  by move=> k k' /(congr1 val) /= /eqP; rewrite eqn_modDr !modn_small // => /eqP; apply: val_inj.
rewrite [RHS](reindex_inj si); apply: eq_bigr => k _ /=; congr (_ * _).
rewrite -(@wave_mod N (Z.opp (Z.of_nat k)) (Z.of_nat ((k + h) %/ N)) x hN); congr wave.
have := congr1 Z.of_nat (divn_eq (k + h) N); move: (_ %/ N)%N (_ %% N)%N => q r.
by rewrite -!plusE -!multE !Nat2Z.inj_add Nat2Z.inj_mul; lia.
Qed.
Lemma pad_sum m b b' (f : nat -> C) (w : nat -> C) :
  \sum_(k < m + b + b') (if (b <= k)%N && (k < b + m)%N then f (k - b)%N else 0) * w k = \sum_(i < m) f i * w (b + i)%N.
Proof.
rewrite -(big_mkord xpredT (fun k => (if (b <= k)%N && (k < b + m)%N then f (k - b)%N else 0) * w k)).
rewrite (@big_cat_nat _ _ _ b) //=; last by rewrite -addnA addnCA leq_addr.
rewrite big_nat big1 ?add0r => [|k]; last by rewrite leq0n /= => h; rewrite leqNgt h /= mul0r.
rewrite (@big_cat_nat _ _ _ (b + m)) //= ?leq_addr //; last by rewrite [(m + b)%N]addnC leq_addr.
rewrite [X in _ + X]big_nat [X in _ + X]big1 ?addr0 => [|k]; last by case/andP => h _; rewrite ltnNge h andbF mul0r.
rewrite -{1}[b]add0n big_addn addKn big_mkord; apply: eq_bigr => i _.
by rewrite leq_addl addnC ltn_add2l ltn_ord addKn.
Qed.

Lemma pad_sumN N m b b' (f : nat -> C) (w : nat -> C) : N = (m + b + b')%N ->
  \sum_(k < N) (if (b <= k)%N && (k < b + m)%N then f (k - b)%N else 0) * w k = \sum_(i < m) f i * w (b + i)%N.
Proof. by move=> ->; apply: pad_sum. Qed.

Definition ekernel N k x : C := cexp (ci * RtoC (2 * PI * INR k * INR x / INR N)%Re).
Lemma ekernelE N k x : ekernel N k x = wave N (Z.opp (Z.of_nat k)) x.
Proof. by rewrite /ekernel /wave opp_IZR -INR_IZR_INZ; congr cexp; apply: C_ext => /=; rewrite /Rdiv; ring. Qed.

Section Fft.
Variables (A : array2) (m b N : nat).
Hypotheses (hr : a_rows A = m) (hc : a_cols A = m) (hN : N = (m + b + b)%N) (N0 : (0 < N)%N).
Notation half := (m %/ 2)%N.
Lemma N_half : (N %/ 2 = half + b)%N.
Proof. by rewrite hN -addnA addnn -muln2 addnC divnMDl // addnC. Qed.
Definition series_at (r c : nat) : C :=
  \sum_(i < m) \sum_(j < m) a_at A i j * wave N (Z.sub (Z.of_nat half) (Z.of_nat i)) r * wave N (Z.sub (Z.of_nat half) (Z.of_nat j)) c.
Lemma padded_sum r c : let B := ifftshift (pad A b b) in
  \sum_(k < N) \sum_(l < N) a_at B k l * ekernel N k r * ekernel N l c = series_at r c.
Proof.
pose P i j : C := if [&& b <= i, i < b + m, b <= j & j < b + m]%N then a_at A (i - b) (j - b) else 0.
have eB k l : a_at (ifftshift (pad A b b)) k l = P ((k + N %/ 2) %% N)%N ((l + N %/ 2) %% N)%N.
  by rewrite /ifftshift /pad; cbn [a_at a_rows a_cols]; rewrite hr hc -hN.
cbv zeta.
transitivity (\sum_(k < N) (\sum_(l < N) P ((k + N %/ 2) %% N)%N l * wave N (Z.sub (Z.of_nat (N %/ 2)) (Z.of_nat l)) c) * wave N (Z.opp (Z.of_nat k)) r).
  apply: eq_bigr => k _; rewrite -(shift_sum (N %/ 2) (P ((k + N %/ 2) %% N)%N) c N0) mulr_suml.
  by apply: eq_bigr => l _; rewrite eB !ekernelE mulrAC.
rewrite (shift_sum (N %/ 2) (fun k => \sum_(l < N) P k l * wave N (Z.sub (Z.of_nat (N %/ 2)) (Z.of_nat l)) c) r N0).
have e i : Z.sub (Z.of_nat (N %/ 2)) (Z.of_nat (b + i)) = Z.sub (Z.of_nat half) (Z.of_nat i).
  by rewrite N_half -!plusE !Nat2Z.inj_add; lia.
transitivity (\sum_(k < m + b + b) (if (b <= k)%N && (k < b + m)%N then
   (\sum_(j < m) a_at A (k - b)%N j * wave N (Z.sub (Z.of_nat half) (Z.of_nat j)) c) else 0) * wave N (Z.sub (Z.of_nat (N %/ 2)) (Z.of_nat k)) r).
  rewrite -hN; apply: eq_bigr => k _; congr (_ * _).
  case: ifP => h.
    under eq_bigr => l _ do rewrite /P andbA h /=.
    rewrite (pad_sumN (a_at A (k - b)%N) (fun l => wave N (Z.sub (Z.of_nat (N %/ 2)) (Z.of_nat l)) c) hN).
    by apply: eq_bigr => j _; rewrite e.
  by rewrite big1 // => l _; rewrite /P andbA h /= mul0r.
rewrite (pad_sum m b b (fun i => \sum_(j < m) a_at A i j * wave N (Z.sub (Z.of_nat half) (Z.of_nat j)) c) (fun k => wave N (Z.sub (Z.of_nat (N %/ 2)) (Z.of_nat k)) r)).
by apply: eq_bigr => i _; rewrite e mulr_suml; apply: eq_bigr => j _; rewrite mulrAC.
Qed.
End Fft.

Lemma half_exact m b : half_of (m + b + b) m = Z.of_nat b.
Proof.
rewrite /half_of -!plusE !Nat2Z.inj_add (_ : Z.sub _ _ = Z.mul (Z.of_nat b) 2); last by lia.
by rewrite Z.div_mul.
Qed.
Lemma half_odd m b : half_of (m + b + b).+1 m = Z.of_nat b.
Proof.
rewrite /half_of -!plusE Nat2Z.inj_succ !Nat2Z.inj_add (_ : Z.sub _ _ = Z.add 1 (Z.mul (Z.of_nat b) 2)); last by lia.
by rewrite Z.div_add.
Qed.
Lemma half_ok b : Z.ltb (Z.of_nat b) Z0 || Z.ltb (Z.of_nat b) Z0 = false.
Proof. by rewrite orbb; apply/Z.ltb_ge; lia. Qed.

Section Fft2.
Variables (A : array2) (m b N : nat) (a : R) (kp : C * C) (N' : nat).
Hypotheses (hr : a_rows A = m) (hc : a_cols A = m) (a0 : a <> 0%Re).
Lemma fft_value : N = (m + b + b)%N -> (0 < N)%N -> exists F, fourier2real_fft A a (N, N') kp = Ok F /\
  forall r c, (r < N)%N -> (c < N)%N -> F r c * RtoC (INR N * INR N) =
    bloch_sum m (a_at A) a (0%Re, 0%Re) (a * INR r / INR N) (a * INR c / INR N) *
    cexp (ci * (kp.1 * RtoC (linspace_from 0 a N c) + kp.2 * RtoC (linspace_from 0 a N r))).
Proof.
move=> hN N0; have n0 : INR N <> 0%Re by apply: not_0_INR => e; rewrite e in N0.
rewrite /fourier2real_fft; cbn [fst snd]; rewrite hr hc {1 2 3 4}hN half_exact half_ok Nat2Z.id.
rewrite /ifft2 /ifftshift /pad; cbn [a_rows a_cols a_at]; rewrite hr hc -hN eqn0Ngt N0 /=; cbn [bind a_rows a_cols a_at].
rewrite eqxx /=; eexists; split; first by reflexivity.
move=> r c lr lc; set ph := cexp _.
have pick i : (i < N)%N -> (if N == 1%N then 0%N else i) = i by case: eqP => // -> ; case: i.
cbn [a_rows a_cols]; rewrite !pick //.
set T := \sum_(k < N) _.
have -> : T = series_at A m N r c.
  rewrite -(padded_sum hr hc hN N0); apply: eq_bigr => k _; apply: eq_bigr => l _.
  by rewrite /ifftshift /pad; cbn [a_at a_rows a_cols]; rewrite hr hc -hN.
have -> : series_at A m N r c = bloch_sum m (a_at A) a (0%Re, 0%Re) (a * INR r / INR N) (a * INR c / INR N).
  rewrite /series_at /bloch_sum; apply: eq_bigr => i _; apply: eq_bigr => j _; rewrite -mulrA /wave -cexpD; congr (_ * cexp _).
  by rewrite !minus_IZR -!INR_IZR_INZ; apply: C_ext => /=; field.
have nn : RtoC (INR N * INR N) != 0 by apply/eqP => /(congr1 fst) /= /Rmult_integral; case.
by rewrite -multE mult_INR mulrAC divfK.
Qed.
Lemma fft_parity : N = (m + b + b).+1 -> N <> 2%N -> fourier2real_fft A a (N, N') kp = Err ValueError.
Proof.
move=> hN n2; rewrite /fourier2real_fft; cbn [fst snd]; rewrite hr hc {1 2 3 4}hN half_odd half_ok Nat2Z.id.
rewrite /ifft2 /ifftshift /pad; cbn [a_rows a_cols a_at]; rewrite hr hc.
case: eqP => [e|e] //=; rewrite hN ltn_eqF // [_ == 1%N](_ : _ = false) //.
by apply/eqP => e1; apply: n2; rewrite hN e1.
Qed.
End Fft2.

(** One order with a Bloch phase. *)
Definition one_order : array2 := Array2 3 3 (fun i j => if (i == 2%N) && (j == 1%N) then 1 else 0).
Lemma bloch_one a kp x y : bloch_sum 3 (a_at one_order) a kp x y = cexp (ci * RtoC ((kp.1 + 2 * PI / a) * x + kp.2 * y)%Re).
Proof.
rewrite /bloch_sum !big_ord_recl !big_ord0 /= !mul0r !add0r !addr0 mul1r; congr (cexp (ci * RtoC _)).
by rewrite /= /Rdiv; ring.
Qed.
Lemma fft_bloch_wrong : exists F, fourier2real_fft one_order 1 (3, 3)%N (RtoC PI, 0) = Ok F /\
  let kp : vec2 := (PI, 0%Re) in let B := bloch_sum 3 (a_at one_order) 1 kp in let v := F 2%N 0%N * RtoC 9 in
  [/\ v <> B (linspace_from 0 1 3 2) (linspace_from 0 1 3 0), v <> B (linspace_from 0 1 3 0) (linspace_from 0 1 3 2),
      v <> B (2 / 3)%Re 0%Re & v <> B 0%Re (2 / 3)%Re].
Proof.
have [F [hF eF]] := @fft_value one_order 3 0 3 1 (RtoC PI, 0) 3 erefl erefl R1_neq_R0 erefl isT.
exists F; split=> //=.
have e : F 2%N 0%N * RtoC 9 = cexp (ci * RtoC (4 * PI / 3)).
  have := eF 2%N 0%N isT isT; rewrite bloch_one (_ : (INR 3 * INR 3 = 9)%Re); last by rewrite /=; ring.
  move=> ->; rewrite -cexpD; congr cexp; rewrite /linspace_from; apply: C_ext => /=; field.
have r : fst (F 2%N 0%N * RtoC 9) = (- (1 / 2))%Re.
  rewrite e -[ci * _]opprK -mulrN (_ : - RtoC (4 * PI / 3) = RtoC (- (4 * PI / 3))%Re); last by apply: C_ext => /=; ring.
  rewrite cexp_cis /= cos_neg (_ : (4 * PI / 3 = PI / 3 + PI)%Re); last by field.
  by rewrite neg_cos cos_PI3.
rewrite !bloch_one; split=> /(congr1 fst); rewrite r.
- rewrite (_ : ci * _ = - (ci * RtoC (2 * PI - 5 * PI)%Re)); last by rewrite /linspace_from; apply: C_ext => /=; field.
  by rewrite cexp_cis /= (_ : (2 * PI - 5 * PI = - (PI + 2 * 1 * PI))%Re) ?cos_neg; [rewrite (cos_period PI 1) cos_PI; lra | ring].
- rewrite (_ : ci * _ = 0) ?cexp0 /=; [lra | by rewrite /linspace_from; apply: C_ext => /=; field].
- rewrite (_ : ci * _ = - (ci * RtoC (2 * IZR (-1) * PI)%Re)); last by apply: C_ext => /=; field.
  by rewrite cexp_2kPI /=; lra.
- rewrite (_ : ci * _ = 0) ?cexp0 /=; [lra | by apply: C_ext => /=; field].
Qed.

(** * The two discrete transforms are inverse to each other *)
Lemma kernels N x x' : (0 < N)%N -> (x < N)%N -> (x' < N)%N ->
  \sum_(k < N) fft_kernel N k x' * ekernel N k x = if x' == x then RtoC (INR N) else 0.
Proof.
move=> N0 hx hx'; have sw k y : fft_kernel N k y = wave N (Z.of_nat y) k.
  by rewrite /fft_kernel /wave -INR_IZR_INZ; congr (cexp (- (ci * RtoC _))); rewrite /Rdiv; ring.
have sw' k y : ekernel N k y = wave N (Z.opp (Z.of_nat y)) k.
  rewrite /ekernel /wave opp_IZR -INR_IZR_INZ; congr cexp; apply: C_ext => /=; rewrite /Rdiv; ring.
under eq_bigr => k _ do rewrite sw sw' -waveD.
rewrite FourierProofs.wave_sum //; last by move/ltP: hx; move/ltP: hx'; lia.
by case: eqP => [->|ne]; [rewrite Z.add_opp_diag_r|case: Z.eqb_spec => // e; case: ne; lia].
Qed.
Lemma ifft2_fft2 A F : fft2 A = Ok F -> exists B, [/\ ifft2 F = Ok B, a_rows B = a_rows A, a_cols B = a_cols A &
  forall x y, (x < a_rows A)%N -> (y < a_cols A)%N -> a_at B x y = a_at A x y].
Proof.
rewrite /fft2; case: ifP => // hz [<-]; rewrite /ifft2 /= hz; move: hz => /norP; rewrite -!lt0n => -[r0 c0].
eexists; split; [reflexivity|by []|by []|] => x y hx hy /=.
set N := a_rows A in r0 hx *; set M := a_cols A in c0 hy *.
rewrite (_ : \sum_(k < N) _ = a_at A x y * (RtoC (INR N) * RtoC (INR M))).
  have -> : RtoC (INR (N * M)) = RtoC (INR N) * RtoC (INR M) by rewrite -multE mult_INR; exact: RtoC_mult.
  rewrite mulfK // mulf_neq0 //; apply/eqP => /RtoC_inj h; have e := INR_eq _ 0%N h; by [rewrite e in r0|rewrite e in c0].
transitivity (\sum_(x' < N) \sum_(y' < M) a_at A x' y' * (\sum_(k < N) fft_kernel N k x' * ekernel N k x) * (\sum_(l < M) fft_kernel M l y' * ekernel M l y)).
  transitivity (\sum_(k < N) \sum_(l < M) \sum_(x' < N) \sum_(y' < M) a_at A x' y' * (fft_kernel N k x' * ekernel N k x) * (fft_kernel M l y' * ekernel M l y)).
    apply: eq_bigr => k _; apply: eq_bigr => l _; rewrite -mulrA mulr_suml; apply: eq_bigr => x' _; rewrite mulr_suml; apply: eq_bigr => y' _.
    by rewrite -!mulrA; congr (_ * (_ * _)); rewrite mulrCA.
  under eq_bigr => k _ do rewrite exchange_big /=.
  rewrite exchange_big /=; apply: eq_bigr => x' _.
  under eq_bigr => k _ do rewrite exchange_big /=.
  rewrite exchange_big /=; apply: eq_bigr => y' _.
  by rewrite -[RHS]mulrA mulr_suml mulr_sumr; apply: eq_bigr => k _; rewrite [RHS]mulrA mulr_sumr.
under eq_bigr => x' _ do under eq_bigr => y' _ do rewrite !kernels //.
rewrite (bigD1 (Ordinal hx)) //= (bigD1 (Ordinal hy)) //= !eqxx big1 => [|y' hy']; last first.
  by case: eqP => [e|_]; rewrite ?mulr0 //; case/eqP: hy'; apply: val_inj.
rewrite addr0 big1 ?addr0 ?mulrA // => x' hx'; rewrite big1 // => y' _.
by case: eqP => [e|_]; rewrite ?mulr0 ?mul0r //; case/eqP: hx'; apply: val_inj.
Qed.
