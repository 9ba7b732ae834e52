(** Lemmas for C101: the first lattice vector reversed. *)
From Coq Require Import Reals ZArith Lra Lia String.
From mathcomp Require Import all_ssreflect all_fingroup all_algebra.
From Coquelicot Require Import Complex Rbar.
From Verif Require Import Base ZmodTac CField CFun Blk ModelExpansion SpecExpansion ModelFlux
  ModelFourier SpecFourier FourierProofs ModelDevice SpecDevice ExpansionProofs ExtensionProofs IslandProofs DeviceProofs ScaleProofs SpecScale SpecSym SymCore SymDevice SymProofs TableProofs
  MoveProofs TurnProofs SwapProofs.
Set Implicit Arguments. Unset Strict Implicit. Unset Printing Implicit Defensive.
Import GRing.Theory.
Local Open Scope ring_scope.

Lemma rev_lt N x : (0 < N)%N -> ((N - x) %% N < N)%N. Proof. exact: ltn_pmod. Qed.
Lemma rev_rev N x : (x < N)%N -> ((N - (N - x) %% N) %% N = x)%N.
Proof.
case: x => [|x] h; first by rewrite subn0 modnn subn0 modnn.
have h2 : (N - x.+1 < N)%N by rewrite ltn_subrL ltn0Sn /=; apply: leq_ltn_trans h.
by rewrite (modn_small h2) subKn ?(ltnW h) // modn_small.
Qed.
Lemma rev_sum N (f : nat -> C) : (0 < N)%N -> \sum_(x < N) f x = \sum_(x < N) f ((N - x) %% N)%N.
Proof.
move=> n0; pose r (x : 'I_N) := Ordinal (rev_lt x n0); have ri : involutive r by move=> x; apply: val_inj; rewrite /= rev_rev.
by rewrite (reindex_inj (inv_inj ri)).
Qed.
Lemma wave_rev N d x : (x < N)%N -> wave N d ((N - x) %% N) = wave N (Z.opp d) x.
Proof.
move=> h; have n0 : (0 < N)%N by apply: leq_ltn_trans h.
have n1 : INR N <> 0%Re by apply: not_0_INR => z; rewrite z in n0.
have h1 : wave N d (N - x) * wave N d x = 1 by rewrite -wave_addx subnK ?(ltnW h) // wave_full.
have h2 : wave N (Z.opp d) x * wave N d x = 1 by rewrite -waveD Z.add_opp_diag_l wave0.
have h3 : wave N d x != 0 by apply/eqP => z; move: h1; rewrite z mulr0 => /eqP; rewrite eq_sym oner_eq0.
by rewrite wave_modx //; apply: (mulIf h3); rewrite h1 h2.
Qed.
Lemma reversed_coef A A' d0 d1 : (0 < a_rows A)%N -> picture_reversed A A' -> fourier_coef A' d0 d1 = fourier_coef A (Z.opp d0) d1.
Proof.
move=> r0 [er ec h]; rewrite /fourier_coef er ec; congr (_ / _).
rewrite (rev_sum (fun x => \sum_(y < a_cols A) a_at A' x y * wave (a_rows A) d0 x * wave (a_cols A) d1 y)) //.
by apply: eq_bigr => x _; apply: eq_bigr => y _; rewrite h ?ltn_ord // wave_rev.
Qed.
Lemma reversed_pixels A A' w : picture_reversed A A' -> pixel_in A' w <-> pixel_in A w.
Proof.
move=> [er ec h]; split=> -[x [y [hx hy <-]]].
  rewrite er in hx; rewrite ec in hy; have r0 : (0 < a_rows A)%N by apply: leq_ltn_trans hx.
  exists ((a_rows A - x) %% a_rows A)%N, y; split=> //; first exact: rev_lt.
  by rewrite -h ?rev_lt // rev_rev.
have r0 : (0 < a_rows A)%N by apply: leq_ltn_trans hx.
by exists ((a_rows A - x) %% a_rows A)%N, y; rewrite er ec (h _ _ hx hy); split=> //; exact: rev_lt.
Qed.

Section Perm.
Variables (P Q n : nat).
Hypotheses (hn : (P * Q)%N = n) (p0 : (0 < P)%N).
Lemma back_small x : (P - 1 - x %% P < P)%N.
Proof. by rewrite -subnDA ltn_subrL p0 andbT. Qed.
Lemma back_lt (i : 'I_n) : (i %/ P * P + (P - 1 - i %% P) < n)%N.
Proof.
have h2 : (i %/ P < Q)%N by rewrite ltn_divLR // mulnC hn.
have h3 := back_small i; move: (P - 1 - i %% P)%N h3 => y h3.
apply: (@leq_trans ((i %/ P).+1 * P)%N); first by rewrite mulSn addnC ltn_add2r.
by move: (i %/ P)%N h2 => z h2; rewrite -hn mulnC leq_mul2l h2 orbT.
Qed.
Definition back_fun (i : 'I_n) : 'I_n := Ordinal (back_lt i).
Lemma back_mod i : (back_fun i %% P = P - 1 - i %% P)%N.
Proof. rewrite /= modnMDl; exact: (modn_small (back_small i)). Qed.
Lemma back_div i : (back_fun i %/ P = i %/ P)%N.
Proof. by rewrite /= divnMDl // (divn_small (back_small i)) addn0. Qed.
Lemma back_inv : involutive back_fun.
Proof.
move=> i; apply: val_inj; rewrite -[LHS]/((back_fun i %/ P * P + (P - 1 - back_fun i %% P))%N) back_div back_mod.
have h : (i %% P <= P - 1)%N by rewrite -ltnS subn1 prednK // ltn_pmod.
by rewrite subKn // -divn_eq.
Qed.
Definition back : {perm 'I_n} := perm (inv_inj back_inv).
Lemma backE i : back i = back_fun i. Proof. exact: permE. Qed.
Lemma back_same (i j : 'I_n) : opposite_order P i j -> back j = i.
Proof. by move=> [h1 h2]; apply: val_inj; rewrite backE /= (divn_eq (val i) P) h1 h2. Qed.
Lemma back_centre : odd P -> odd Q -> forall i : 'I_n, val i = ((n - 1) %/ 2)%N -> back i = i.
Proof.
move=> oP oQ i hi; apply: val_inj; rewrite backE /=.
have eP := odd_halves oP; have eQ := odd_halves oQ; move: ((P - 1) %/ 2)%N ((Q - 1) %/ 2)%N eP eQ => M N eP eQ.
have e2 : ((n - 1) %/ 2 = N * P + M)%N.
  rewrite -hn eP eQ; have -> : (M.*2.+1 * N.*2.+1 - 1 = (N * M.*2.+1 + M).*2)%N by rewrite -!addnn -minusE; natring.
  by rewrite divn2 doubleK.
have lM : (M < P)%N by rewrite eP -addnn ltnS leq_addr.
have -> : (val i %% P = M)%N by rewrite hi e2 modnMDl modn_small.
have -> : (val i %/ P = N)%N by rewrite hi e2 divnMDl // divn_small ?addn0.
by rewrite hi e2 eP; congr (_ + _)%N; rewrite -addnn subn1 /= addnK.
Qed.
End Perm.

Lemma reciproc_rev a1 a2 r : reciproc a1 a2 = Ok r -> reciproc (opp2 a1) a2 = Ok (opp2 r.1, r.2).
Proof.
case: r => b1 b2 /reciproc_ok [hd [h1 h2 h3 h4]].
have hd' : det2 (opp2 a1) a2 <> 0%Re by move: hd; rewrite /det2 /opp2 /=; lra.
have [[c1 c2] hc] := reciproc_def hd'; have [_ [g1 g2 g3 g4]] := reciproc_ok hc.
rewrite hc; congr (Ok (_, _)); apply: (dual_unique hd'); rewrite ?g1 ?g2 ?g3 ?g4 ?h4 //; move: h1 h2 h3; rewrite /dot2 /opp2 /=; lra.
Qed.
Lemma area_rev a1 a2 : unitcellarea (opp2 a1) a2 = unitcellarea a1 a2.
Proof. by rewrite /unitcellarea -Rabs_Ropp; congr Rabs; rewrite /opp2 /=; ring. Qed.

Section Reverse.
Variables (n : nat) (J1 : R -> R) (pw : nat * nat) (lat : vec2 * vec2) (e e' : expansion).
Hypotheses (he : mk_expansion pw lat = Ok e) (se : e_size e = n) (he' : mk_expansion pw (opp2 lat.1, lat.2) = Ok e').
Notation P := pw.1. Notation Q := pw.2.
Lemma rv_parts : [/\ odd P, odd Q, (P * Q)%N = n, e_pw e = pw & e_pw e' = pw].
Proof.
have [hp [sg [n0 [o1 o2]]]] := expansion_size he; have [hp' _] := expansion_size he'.
by split=> //; rewrite -se /e_size hp.
Qed.
Lemma rv_n : (P * Q)%N = n. Proof. by case: rv_parts. Qed.
Lemma rv_p : (0 < P)%N. Proof. by case: rv_parts => o _ _ _ _; exact: odd_gt0. Qed.
Definition rv : {perm 'I_n} := back rv_n rv_p.
Lemma rv_mod (i : 'I_n) : (rv i %% P = P - 1 - i %% P)%N.
Proof. rewrite /rv backE; exact: back_mod. Qed.
Lemma rv_div (i : 'I_n) : (rv i %/ P = i %/ P)%N.
Proof. rewrite /rv backE; exact: back_div. Qed.
Lemma rv_diff (i j : 'I_n) : diff (rv i %% P) (rv j %% P) = Z.opp (diff (i %% P) (j %% P)).
Proof.
rewrite !rv_mod /diff; have p0 := rv_p; have /ltP hi := ltn_pmod i p0; have /ltP hj := ltn_pmod j p0.
rewrite -!minusE; lia.
Qed.
Lemma rv_sizes : [/\ e_size e' = n, size (e_g e) = n & size (e_g e') = n].
Proof.
have [_ [sg _]] := expansion_size he; have [_ [sg' _]] := expansion_size he'; case: rv_parts => _ _ hn _ hp'.
have se' : e_size e' = n by rewrite /e_size hp'.
by rewrite sg sg' se se'.
Qed.
Lemma rv_recip : e_reciprocal e' = (opp2 (e_reciprocal e).1, (e_reciprocal e).2) /\ e_sigma e' = e_sigma e.
Proof.
have [r [idx [hr hi ->]]] := mk_expansion_ok he; have [r' [idx' [hr' hi' ->]]] := mk_expansion_ok he'.
cbn [e_reciprocal e_sigma fst snd]; cbn [fst snd] in hr'.
by move: hr'; rewrite (reciproc_rev hr) => -[<-]; rewrite area_rev.
Qed.
Lemma rv_g (i : 'I_n) : nth (0%Re, 0%Re) (e_g e') i = turn 1 0 1 (nth (0%Re, 0%Re) (e_g e) (rv i)).
Proof.
have [e1 _] := rv_recip; have [r [idx [hr hi ee]]] := mk_expansion_ok he; have [r' [idx' [hr' hi' ee']]] := mk_expansion_ok he'.
have er : r' = (opp2 r.1, r.2) by move: e1; rewrite ee ee'.
have ei : idx' = idx by move: hi'; rewrite hi => -[].
have si := indices_size hi; have hn := rv_n; have p0 := rv_p; have [o1 _] := indices_odd hi.
have li (j : 'I_n) : (j < size idx)%N by rewrite si hn.
rewrite turn1 ee ee' ei; cbn [e_g]; rewrite (nth_gvecs _ (li _)) (nth_gvecs _ (li _)).
rewrite !(indices_nth hi) ?hn // rv_mod rv_div er; cbn [fst snd].
have -> : Z.sub (Z.of_nat (P - 1 - i %% P)) (Z.of_nat ((P - 1) %/ 2)) = Z.opp (Z.sub (Z.of_nat (i %% P)) (Z.of_nat ((P - 1) %/ 2))).
  have eP := odd_halves o1; rewrite -addnn in eP; have /ltP hl := ltn_pmod i p0.
  move: ((P - 1) %/ 2)%N eP => M eP; rewrite -plusE in eP; rewrite -!minusE; move: (i %% P)%N hl => y hl; lia.
by rewrite opp_IZR /opp2; cbn [fst snd]; congr pair; ring.
Qed.
Lemma rv_pic q q' : picture_reversed q q' -> [/\ frel (fun _ : 'I_n => 1) rv e e' J1 (FFT q) (FFT q'),
  ((a_rows q' == 0%N) || (a_cols q' == 0%N)) = ((a_rows q == 0%N) || (a_cols q == 0%N)) & forall v, pixel_in q' v <-> pixel_in q v].
Proof.
move=> hq; have [er ec _] := hq; split; last by move=> v; exact: reversed_pixels.
  case: rv_parts => o1 o2 hn hp hp'.
  apply: fft_rel; last by rewrite -hn muln_gt0 rv_p odd_gt0.
  move=> M hM _ hf; have [_ h2 h3] := conv_size hM; rewrite hp' hp.
  split; rewrite ?er ?ec //.
    by move: hf; rewrite hp /fits er ec.
  move=> i j; rewrite mul1r divr1 (reversed_coef _ _ h2 hq) /ord_x /ord_y !rv_div.
  by congr (fourier_coef _ _ _); rewrite -/(diff (i %% P) (j %% P)) -rv_diff.
by rewrite er ec.
Qed.
Lemma rv_isl isl isl' host : islands_on_line pw isl isl' ->
  frel (fun _ : 'I_n => 1) rv e e' J1 (ANALYTICAL isl host) (ANALYTICAL isl' host).
Proof.
move=> [-> hw]; case: rv_parts => o1 o2 hn hp hp'; have [er es] := rv_recip.
apply: island_rel; rewrite ?hp ?hp' ?es //.
move=> i j; rewrite mul1r divr1.
have lt (k : 'I_n) : (k < pw.1 * pw.2)%N by rewrite hn.
rewrite (table_line o1 o2 (lt _) (lt _) hw hp) (table_line o1 o2 (lt _) (lt _) hw hp') rv_diff !rv_div.
rewrite /island_value er es; cbn [fst snd].
have -> (z : Z) : Z.eqb (Z.opp z) BinNums.Z0 = Z.eqb z BinNums.Z0 by case: z.
congr (_ + _); apply: eq_bigr => k _; congr (_ * shape_value _ _ _ _).
by rewrite /gof /opp2; cbn [fst snd]; rewrite opp_IZR; congr pair; ring.
Qed.
End Reverse.

Section ReverseMain.
Variables (n : nat) (eig : forall m, 'M[C]_m -> 'rV[C]_m * 'M[C]_m) (J1 : R -> R) (pw : nat * nat) (l : lattice_arg) (x : R).
Variables (void : bool) (epsi epse : C) (lat : vec2 * vec2) (ops ops' : seq op) (c0 c : crystal n).
Hypotheses (heig : eig_complete eig) (h0 : mk_crystal n pw l x void epsi epse = Ok c0)
  (hl : crystal_lattice x l = Ok lat) (hh : history eig J1 c0 ops c) (ho : all_calls outer_call ops)
  (ha : all_alike picture_reversed (islands_on_line pw) eq ops ops').
Lemma reverse_main : exists c0' c', [/\
  mk_crystal n pw (LatticeVectors (opp2 lat.1, lat.2)) x void epsi epse = Ok c0', history eig J1 c0' ops' c' &
  forall Rs Ts, poynting_flux_orders c = Ok (Rs, Ts) -> exists Rs' Ts', [/\ poynting_flux_orders c' = Ok (Rs', Ts'),
    forall i i' : 'I_n, opposite_order pw.1 i i' -> Rs' 0 i' = Rs 0 i /\ Ts' 0 i' = Ts 0 i, total Rs' = total Rs & total Ts' = total Ts]].
Proof.
have [lat' [e [hl' hx se ec]]] := mk_crystal_ok h0; have el : lat' = lat by move: hl'; rewrite hl => -[].
rewrite {}el in hx; have [hp [sg [n0 [o1 o2]]]] := expansion_size hx; rewrite se in sg n0.
have [e' hx'] : is_ok (mk_expansion pw (opp2 lat.1, lat.2)).
  have [r [idx [hr hi _]]] := mk_expansion_ok hx; rewrite /mk_expansion; cbn [fst snd].
  by rewrite (reciproc_rev hr) hi; cbn [bind]; eexists; reflexivity.
have [se' _ sg'] := rv_sizes hx se hx'.
move: hh; rewrite ec => hh'.
have hsrc ei wl (y y' : source_args) k : y = y' -> kp_of ei wl y = Ok k -> kp_of ei wl y' = Ok (turn_kp 1 0 1 k) /\
  ((fun=> True) k -> forall kz q, pol_vector y.1.1.1.1 y.1.1.1.2 (k.1, k.2, kz) true = Ok q -> exists z,
     pol_vector y'.1.1.1.1 y'.1.1.1.2 ((turn_kp 1 0 1 k).1, (turn_kp 1 0 1 k).2, kz) true =
       Ok ((turn_kp 1 0 1 q.1).1, (turn_kp 1 0 1 q.1).2, z)).
  by move=> <- hk; rewrite turn_kp1; split=> // _ kz [[q1 q2] q3] hq; exists q3; rewrite turn_kp1.
have [c' [h1 _ h3]] := main_rel (ph := fun _ : 'I_n => 1) (p := rv hx se hx') (big := fun=> True) iso1 (@unit_phase_mod n) heig se se' sg sg'
  (rv_g hx se hx') (rv_pic J1 hx se hx') (rv_isl J1 hx se hx') (back_centre _ _ o1 o2) hsrc hh' ho ha.
exists (crystal_of n e' void epsi epse), c'; split=> //.
  by rewrite /mk_crystal; cbn [crystal_lattice bind]; rewrite hx'; cbn [bind]; rewrite se' eqxx.
move=> Rs Ts /(h3 I) h; exists (renamed (rv hx se hx') Rs), (renamed (rv hx se hx') Ts); rewrite !total_renamed; split=> // i i' hs.
by rewrite !mxE (back_same _ _ hs).
Qed.
End ReverseMain.
