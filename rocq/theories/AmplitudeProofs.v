(** Lemmas about the amplitudes of a field. *)
From Coq Require Import Reals ZArith Lra Lia.
From mathcomp Require Import all_ssreflect all_algebra.
From Coquelicot Require Import Complex.
From Verif Require Import Base ZmodTac CField CFun RField ModelExpansion ModelFourier SpecFourier FourierProofs SumProofs ModelMisc ExtensionProofs
  MiscProofs ModelBeams SpecBeams.
Set Implicit Arguments. Unset Strict Implicit. Unset Printing Implicit Defensive.
Import GRing.Theory.
Local Open Scope ring_scope.

Lemma amplitudes_defined N0 N1 fields x y G kp bzs :
  is_ok (amplitudes_from_fields N0 N1 fields x y G kp bzs) <-> exists NS, square_cells N0 N1 bzs NS.
Proof.
split=> [[A]|[NS [h1 h2 h3 -> ->]]].
  rewrite /amplitudes_from_fields; case: ifP => // /norP [b1 b2].
  case: ifP => // /norP []; rewrite !negbK => /eqP d1 /eqP d2.
  case: ifP => // NS0; case: ifP => // /negbFE /eqP d3; case: ifP => // l1; case: ifP => // l2 _.
  exists (N0 %/ bzs.2)%N; rewrite -!lt0n in b1 b2; split => //.
  - by rewrite lt0n NS0.
  - by rewrite mulnC divnK // /dvdn d2.
  have {l1 l2} e : (N0 * N1 %/ (N0 %/ bzs.2 * (N0 %/ bzs.2)) = bzs.1 * bzs.2)%N.
    by apply/eqP; rewrite eqn_leq leqNgt l1 leqNgt l2.
  have : (N0 * N1 = bzs.1 * bzs.2 * (N0 %/ bzs.2 * (N0 %/ bzs.2)))%N by rewrite -e divnK // /dvdn d3.
  have {1}-> : N0 = (N0 %/ bzs.2 * bzs.2)%N by rewrite divnK // /dvdn d2.
  set NS := (N0 %/ bzs.2)%N in NS0 *.
  have p : (0 < NS * bzs.2)%N by rewrite muln_gt0 b2 lt0n NS0.
  move=> h; apply/eqP; rewrite -(eqn_pmul2l p) h; apply/eqP; natring.
rewrite /amplitudes_from_fields mulnC [(_ * NS)%N]mulnC !modnMl !mulnK // (gtn_eqF h1) (gtn_eqF h2) (gtn_eqF h3) /=.
have -> : (NS * bzs.2 * (NS * bzs.1) = bzs.1 * bzs.2 * (NS * NS))%N by natring.
rewrite modnMl /= mulnK ?muln_gt0 ?h3 // ltnn.
by eexists.
Qed.
Lemma sum_blocks (n m : nat) (f : nat -> C) : \sum_(b < n * m) f b = \sum_(q < n) \sum_(p < m) f (q * m + p)%N.
Proof.
elim: n => [|n IH]; first by rewrite mul0n !big_ord0.
rewrite big_ord_recr /= -IH mulSnr.
rewrite -(big_mkord xpredT f) (big_cat_nat _ _ _ (leq0n (n * m)) (leq_addr _ _)) /= big_mkord; congr (_ + _).
by rewrite -{1}[(n * m)%N]add0n big_addn addKn big_mkord; apply: eq_bigr => i _; rewrite addnC.
Qed.
Lemma wave_shift N m q j : (0 < N)%N -> wave N m (q * N + j) = wave N m j.
Proof.
move=> N0; have n0 : INR N <> 0%Re by apply: not_0_INR; case: (N) N0.
have e : wave N m (q * N + j) = cexp (- (ci * RtoC (2 * IZR (Z.mul m (Z.of_nat q)) * PI)%Re)) * wave N m j.
  rewrite /wave -cexpD; congr cexp; rewrite mult_IZR -INR_IZR_INZ -plusE -multE plus_INR mult_INR.
  by apply: C_ext => /=; field.
by rewrite e cexp_2kPI mul1r.
Qed.

Section Amplitudes.
Variables (bzs : nat * nat) (NS : nat) (a : R) (orders : seq (Z * Z)) (kp : vec2) (s : Z * Z) (amp : nat -> nat -> nat -> C).
Hypotheses (b0 : (0 < bzs.1)%N) (b1 : (0 < bzs.2)%N) (NS0 : (0 < NS)%N) (a0 : a <> 0%Re).
Hypothesis sep : separated NS orders.
Hypotheses (s0 : Z.lt (Z.abs s.1) (Z.of_nat bzs.1)) (s1 : Z.lt (Z.abs s.2) (Z.of_nat bzs.2)).
Let N0 := (bzs.2 * NS)%N.
Let N1 := (bzs.1 * NS)%N.
Let G := map (order_vec a) orders.
Variable fields : nat -> nat -> nat -> nat -> C.
Hypothesis sampled : forall r c al be, (r < N0)%N -> (c < N1)%N -> (al < 2)%N -> (be < 2)%N ->
  fields r c al be = plane_waves (vadd kp (zone_vec a bzs s)) G (amp al be) (grid_x a NS r c) (grid_y a NS r c).
Let n0 : INR NS <> 0%Re. Proof. by apply: not_0_INR; case: (NS) NS0. Qed.
Let m0 : INR bzs.1 <> 0%Re. Proof. by apply: not_0_INR; case: (bzs.1) b0. Qed.
Let m1 : INR bzs.2 <> 0%Re. Proof. by apply: not_0_INR; case: (bzs.2) b1. Qed.
Let o k := nth (BinNums.Z0, BinNums.Z0) orders k.

Lemma cell_x (T : Type) (A : nat -> nat -> T) p q i j : (q < bzs.1)%N -> (i < NS)%N -> (j < NS)%N ->
  cell NS (split2 N0 N1 bzs A) (p * bzs.1 + q) i j = A (p * NS + i)%N (q * NS + j)%N.
Proof.
move=> hq hi hj; rewrite /cell (@flat4E _ _ bzs.2 bzs.1 NS NS) //=; last by rewrite /split2 /N0 /N1 !mulKn.
by rewrite /N0 /N1 !mulKn.
Qed.
Lemma cell_F (T : Type) (A : nat -> nat -> T) p q i j : (p < bzs.2)%N -> (i < NS)%N -> (j < NS)%N ->
  cell NS (swap01 (split2 N0 N1 bzs A)) (q * bzs.2 + p) i j = A (p * NS + i)%N (q * NS + j)%N.
Proof.
move=> hp hi hj; rewrite /cell (@flat4E _ _ bzs.1 bzs.2 NS NS) //=; last by rewrite /split2 /N0 /N1 !mulKn.
by rewrite /N0 /N1 !mulKn.
Qed.
(** The phases of an order are the same in all cells. *)
Lemma order_phase m r c :
  cexp (- ci * RtoC ((order_vec a (o m)).1 * grid_x a NS r c + (order_vec a (o m)).2 * grid_y a NS r c)%Re) =
  wave NS (o m).1 c * wave NS (o m).2 r.
Proof.
by rewrite /wave -cexpD; congr cexp; rewrite /order_vec /grid_x /grid_y; apply: C_ext => /=; field.
Qed.
Lemma bloch_phase p q i j :
  cexp (ci * RtoC ((zone_vec a bzs s).1 * grid_x a NS (p * NS + i) (q * NS + j) + (zone_vec a bzs s).2 * grid_y a NS (p * NS + i) (q * NS + j))%Re) =
  wave bzs.1 (Z.opp s.1) q * wave bzs.2 (Z.opp s.2) p *
  cexp (ci * RtoC ((zone_vec a bzs s).1 * grid_x a NS i j + (zone_vec a bzs s).2 * grid_y a NS i j)%Re).
Proof.
rewrite /wave -!cexpD; congr cexp; rewrite /zone_vec /grid_x /grid_y !opp_IZR -!plusE -!multE !plus_INR !mult_INR.
by apply: C_ext => /=; field; repeat split.
Qed.
Lemma unphasedE p q i j al be : (p < bzs.2)%N -> (q < bzs.1)%N -> (i < NS)%N -> (j < NS)%N -> (al < 2)%N -> (be < 2)%N ->
  unphased fields (grid_x a NS) (grid_y a NS) kp (p * NS + i) (q * NS + j) al be =
  wave bzs.1 (Z.opp s.1) q * wave bzs.2 (Z.opp s.2) p *
  (cexp (ci * RtoC ((zone_vec a bzs s).1 * grid_x a NS i j + (zone_vec a bzs s).2 * grid_y a NS i j)%Re) *
   \sum_(m < size orders) amp al be m * (wave NS (Z.opp (o m).1) j * wave NS (Z.opp (o m).2) i)).
Proof.
move=> hp hq hi hj hal hbe.
have lt1 k l M (hk : (k < M)%N) (hl : (l < NS)%N) : (k * NS + l < M * NS)%N.
  by apply: leq_trans (_ : (k.+1 * NS <= _)%N); [rewrite mulSnr ltn_add2l|rewrite leq_mul2r hk orbT].
rewrite /unphased sampled ?lt1 //; set X := grid_x _ _ _ _; set Y := grid_y _ _ _ _.
rewrite mulrA -bloch_phase -/X -/Y -cexpN /plane_waves size_map mulr_suml mulr_sumr.
apply: eq_bigr => m _; rewrite (nth_map (BinNums.Z0, BinNums.Z0)) // -/(o m) [RHS]mulrCA -mulrA; congr (_ * _).
have -> : wave NS (Z.opp (o m).1) j * wave NS (Z.opp (o m).2) i =
  cexp (ci * RtoC ((order_vec a (o m)).1 * X + (order_vec a (o m)).2 * Y)%Re).
  rewrite -(wave_shift _ q j) // -(wave_shift _ p i) // !waveN -conjCM -order_phase cexp_conj.
  rewrite -/X -/Y; move: (_ + _)%Re => t; congr cexp.
  by apply: C_ext => /=; ring.
move: (order_vec _ _) (zone_vec _ _ _) => u v; clearbody X Y.
by rewrite -!cexpD; congr cexp; apply: C_ext => /=; ring.
Qed.

Lemma amplitudes_scaled A : amplitudes_from_fields N0 N1 fields (grid_x a NS) (grid_y a NS) G kp bzs = Ok A ->
  size A = 4%N /\ forall k m, (k < 4)%N -> (m < size orders)%N -> size (nth [::] A k) = size orders /\
  nth 0 (nth [::] A k) m = if Z.eqb s.1 BinNums.Z0 && Z.eqb s.2 BinNums.Z0 then NS%:R * amp (k %/ 2)%N (k %% 2)%N m else 0.
Proof.
rewrite /amplitudes_from_fields.
have eb : ((bzs.1 == 0%N) || (bzs.2 == 0%N)) = false by rewrite (gtn_eqF b0) (gtn_eqF b1).
have ec : ((N1 %% bzs.1)%N != 0%N) || ((N0 %% bzs.2)%N != 0%N) = false by rewrite /N0 /N1 !modnMr.
have eNS : (N0 %/ bzs.2)%N = NS by rewrite /N0 mulKn.
rewrite eb ec eNS (gtn_eqF NS0).
have eN : (N0 * N1 = bzs.1 * bzs.2 * (NS * NS))%N by rewrite /N0 /N1; natring.
have nsq : (0 < NS * NS)%N by rewrite muln_gt0 NS0.
have ed : ((bzs.1 * bzs.2 * (NS * NS)) %% (NS * NS) != 0)%N = false by rewrite modnMl.
rewrite eN ed mulnK // ltnn; set B := map _ (iota 0 4) => -[<-].
split=> [|k m hk hm]; first by rewrite /B size_map size_iota.
rewrite /B (nth_map 0%N) // nth_iota // add0n size_map size_map; split=> //.
rewrite (nth_map (0%Re, 0%Re)) ?size_map // (nth_map (BinNums.Z0, BinNums.Z0)) // -/(o m).
set al := (k %/ 2)%N; set be := (k %% 2)%N.
have hal : (al < 2)%N by rewrite /al ltn_divLR.
have hbe : (be < 2)%N by rewrite /be ltn_mod.
pose D i j := cexp (ci * RtoC ((zone_vec a bzs s).1 * grid_x a NS i j + (zone_vec a bzs s).2 * grid_y a NS i j)%Re).
pose W i j := wave NS (o m).1 j * wave NS (o m).2 i.
pose T i j := \sum_(m' < size orders) amp al be m' * (wave NS (Z.opp (o m').1) j * wave NS (Z.opp (o m').2) i).
pose S0 := \sum_(i < NS) \sum_(j < NS) D i j * T i j * W i j.
pose Fc b i j := cell NS (swap01 (split2 N0 N1 bzs (fun r c => unphased fields (grid_x a NS) (grid_y a NS) kp r c al be))) b i j.
have bi (f : nat -> C) : \sum_(i <- iota 0 NS) f i = \sum_(i < NS) f i.
  by rewrite -{1}(subn0 NS) -/(index_iota 0 NS) big_mkord.
transitivity (\sum_(b < bzs.1 * bzs.2) (\sum_(i < NS) \sum_(j < NS) Fc b i j * W i j) / (bzs.1 * bzs.2)%:R / NS%:R).
  apply: eq_bigr => b _; congr (_ / _ / _).
  rewrite slow_dftE big_map big_allpairs_dep /= bi; apply: eq_bigr => i _; rewrite bi; apply: eq_bigr => j _.
  congr (_ * _); rewrite [nat_of_ord b](divn_eq _ bzs.1) !cell_x ?ltn_mod //.
  by rewrite order_phase !wave_shift.
rewrite -!mulr_suml (sum_blocks bzs.1 bzs.2 (fun b => \sum_(i < NS) \sum_(j < NS) Fc b i j * W i j)).
have -> : \sum_(q < bzs.1) \sum_(p < bzs.2) \sum_(i < NS) \sum_(j < NS) Fc (q * bzs.2 + p)%N i j * W i j =
  (\sum_(q < bzs.1) wave bzs.1 (Z.opp s.1) q) * (\sum_(p < bzs.2) wave bzs.2 (Z.opp s.2) p) * S0.
  rewrite -mulrA mulr_suml; apply: eq_bigr => q _; rewrite mulrA [X in _ = X * S0]mulr_sumr mulr_suml; apply: eq_bigr => p _.
  rewrite /S0 mulr_sumr; apply: eq_bigr => i _; rewrite mulr_sumr; apply: eq_bigr => j _.
  by rewrite /Fc cell_F // unphasedE // -/(D i j) -/(T i j) !mulrA.
rewrite !wave_sum //; [|by rewrite Z.abs_opp|by rewrite Z.abs_opp].
have zopp z : Z.eqb (Z.opp z) BinNums.Z0 = Z.eqb z BinNums.Z0 by apply/idP/idP => /Z.eqb_eq h; apply/Z.eqb_eq; lia.
rewrite !zopp; case e1 : (Z.eqb s.1 _) => /=; last by rewrite !mul0r.
case e2 : (Z.eqb s.2 _) => /=; last by rewrite mulr0 !mul0r.
have eS : S0 = (NS * NS)%:R * amp al be m.
  rewrite /S0.
  have D1 i j : D i j = 1.
    move/Z.eqb_eq: e1 => e1; move/Z.eqb_eq: e2 => e2; rewrite /D /zone_vec e1 e2 -[RHS]cexp0; congr cexp.
    by apply: C_ext => /=; field; repeat split.
  under eq_bigr => i _ do under eq_bigr => j _ do rewrite D1 mul1r /T mulr_suml.
  under eq_bigr => i _ do rewrite exchange_big /=.
  rewrite exchange_big /=.
  transitivity (\sum_(m' < size orders) amp al be m' *
    ((\sum_(j < NS) wave NS (Z.sub (o m).1 (o m').1) j) * (\sum_(i < NS) wave NS (Z.sub (o m).2 (o m').2) i))).
    apply: eq_bigr => m' _; rewrite [X in _ = _ * X]mulrC big_distrl /= big_distrr /=; apply: eq_bigr => i _.
    rewrite !big_distrr /=; apply: eq_bigr => j _.
    rewrite -mulrA /W -!Z.add_opp_r !waveD; congr (_ * _); move: (wave _ _ _) (wave _ _ _) (wave _ _ _) (wave _ _ _) => w x y z.
    by cring.
  rewrite (bigD1 (Ordinal hm)) //= [X in _ + X]big1 ?addr0.
    have [d1 d2 _] := sep hm hm; rewrite !Z.sub_diag !wave_sum //=; try by move/ltP: NS0; lia.
    by rewrite natrM !natRtoC [RHS]mulrC.
  move=> m' neq; have [d1 d2 d3] := sep hm (ltn_ord m').
  rewrite !wave_sum //; case: Z.eqb_spec => f1; last by rewrite mul0r mulr0.
  case: Z.eqb_spec => f2; last by rewrite mulr0 mulr0.
  exfalso; move/eqP: neq; apply; apply: val_inj => /=; symmetry; apply: d3.
  move: f1 f2; rewrite /o; case: (nth _ orders m) => x y; case: (nth _ orders m') => x' y' /= f1 f2.
  by congr pair; lia.
rewrite eS !natrM !natRtoC.
have nz (u : R) : u <> 0%Re -> RtoC u != 0 by move=> h; apply/eqP => /RtoC_inj.
rewrite !(mulrA, invfM).
have -> : RtoC (INR bzs.1) * RtoC (INR bzs.2) * RtoC (INR NS) * RtoC (INR NS) * amp al be m / RtoC (INR bzs.1) / RtoC (INR bzs.2) / RtoC (INR NS) =
  (RtoC (INR bzs.1) / RtoC (INR bzs.1)) * (RtoC (INR bzs.2) / RtoC (INR bzs.2)) * (RtoC (INR NS) / RtoC (INR NS)) * (RtoC (INR NS) * amp al be m).
  by move: (RtoC _) (RtoC _) (RtoC _) (amp _ _ _) => u v w z; move: (u^-1) (v^-1) (w^-1) => u' v' w'; cring.
by rewrite !divff ?nz // !mul1r.
Qed.
End Amplitudes.
