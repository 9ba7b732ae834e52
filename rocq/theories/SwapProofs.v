(** Lemmas for C101-C102: the lattice vectors exchanged or reversed. *)
From Coq Require Import Reals ZArith Lra Lia String.
From mathcomp Require Import all_ssreflect all_fingroup all_algebra.
From Coquelicot Require Import Complex Rbar.
From Verif Require Import Base ZmodTac CField CFun Blk ModelExpansion SpecExpansion ModelFlux
  ModelFourier SpecFourier FourierProofs ModelDevice SpecDevice ExpansionProofs ExtensionProofs IslandProofs DeviceProofs ScaleProofs SpecScale SpecSym SymCore SymDevice SymProofs TableProofs
  MoveProofs TurnProofs.
Set Implicit Arguments. Unset Strict Implicit. Unset Printing Implicit Defensive.
Import GRing.Theory.
Local Open Scope ring_scope.

(** Pictures. *)
Lemma transposed_coef A A' d0 d1 : picture_transposed A A' -> fourier_coef A' d1 d0 = fourier_coef A d0 d1.
Proof.
move=> [er ec h]; rewrite /fourier_coef er ec mulnC; congr (_ / _).
rewrite exchange_big; apply: eq_bigr => x _; apply: eq_bigr => y _.
by rewrite h ?ltn_ord // mulrAC.
Qed.
Lemma transposed_pixels A A' w : picture_transposed A A' -> pixel_in A' w <-> pixel_in A w.
Proof.
move=> [er ec h]; split=> -[x [y [hx hy <-]]]; exists y, x; rewrite ?er ?ec; last by rewrite h.
by rewrite er in hx; rewrite ec in hy; rewrite h.
Qed.

(** The renaming of orders. *)
Section Perm.
Variables (P Q n : nat).
Hypotheses (hn : (P * Q)%N = n) (p0 : (0 < P)%N) (q0 : (0 < Q)%N).
Lemma swap_lt (i : 'I_n) : ((i %% Q) * P + i %/ Q < n)%N.
Proof.
have h1 : (i %% Q < Q)%N by rewrite ltn_pmod.
have h2 : (i %/ Q < P)%N by rewrite ltn_divLR // hn.
apply: (@leq_trans ((i %% Q).+1 * P)%N); first by rewrite mulSn addnC ltn_add2r.
by move: (i %% Q)%N h1 => x h1; rewrite -hn (mulnC P) leq_mul2r h1 orbT.
Qed.
Definition swap_fun (i : 'I_n) : 'I_n := Ordinal (swap_lt i).
Lemma swap_mod i : (swap_fun i %% P = i %/ Q)%N.
Proof. by rewrite /= modnMDl modn_small // ltn_divLR // hn. Qed.
Lemma swap_div i : (swap_fun i %/ P = i %% Q)%N.
Proof. by rewrite /= divnMDl // divn_small ?addn0 // ltn_divLR // hn. Qed.
Lemma swap_inj : injective swap_fun.
Proof.
move=> i j h; apply: val_inj; rewrite /= (divn_eq i Q) (divn_eq j Q).
by rewrite -(swap_mod i) -(swap_mod j) -(swap_div i) -(swap_div j) h.
Qed.
Definition swap : {perm 'I_n} := perm swap_inj.
Lemma swapE i : swap i = swap_fun i. Proof. exact: permE. Qed.
Lemma swap_same (i j : 'I_n) : same_order P Q i j -> swap j = i.
Proof. by move=> [h1 h2]; apply: val_inj; rewrite swapE /= (divn_eq (val i) P) h1 h2. Qed.
Lemma swap_centre : odd P -> odd Q -> forall i : 'I_n, val i = ((n - 1) %/ 2)%N -> swap i = i.
Proof.
move=> oP oQ i hi; apply: val_inj; rewrite swapE /=.
have eP := odd_halves oP; have eQ := odd_halves oQ; move: ((P - 1) %/ 2)%N ((Q - 1) %/ 2)%N eP eQ => M N eP eQ.
have e1 : ((n - 1) %/ 2 = M * Q + N)%N.
  rewrite -hn eP eQ; have -> : (M.*2.+1 * N.*2.+1 - 1 = (M * N.*2.+1 + N).*2)%N by rewrite -!addnn -minusE; natring.
  by rewrite divn2 doubleK.
have e2 : ((n - 1) %/ 2 = N * P + M)%N by rewrite e1 eP eQ -!addnn; natring.
have lN : (N < Q)%N by rewrite eQ -addnn ltnS leq_addr.
have -> : (val i %% Q = N)%N by rewrite hi e1 modnMDl modn_small.
have -> : (val i %/ Q = M)%N by rewrite hi e1 divnMDl // divn_small ?addn0.
by rewrite hi e2.
Qed.
End Perm.

(** Lattices. *)
Lemma dot_sym u v : dot2 u v = dot2 v u. Proof. by rewrite /dot2; ring. Qed.
Lemma reciproc_swap a1 a2 r : reciproc a1 a2 = Ok r -> reciproc a2 a1 = Ok (r.2, r.1).
Proof.
case: r => b1 b2 /reciproc_ok [hd [h1 h2 h3 h4]].
have hd' : det2 a2 a1 <> 0%Re by move: hd; rewrite /det2; lra.
have [[c1 c2] hc] := reciproc_def hd'; have [_ [g1 g2 g3 g4]] := reciproc_ok hc.
by rewrite hc; congr (Ok (_, _)); apply: (dual_unique hd'); rewrite ?g1 ?g2 ?g3 ?g4 ?h1 ?h2 ?h3 ?h4.
Qed.
Lemma area_swap a1 a2 : unitcellarea a2 a1 = unitcellarea a1 a2.
Proof. by rewrite /unitcellarea -Rabs_Ropp; congr Rabs; ring. Qed.

Section Swap.
Variables (a b s : R) (n : nat) (J1 : R -> R) (pw : nat * nat) (lat : vec2 * vec2) (e e' : expansion).
Hypotheses (iso : isometry a b s) (he : mk_expansion pw lat = Ok e) (se : e_size e = n)
  (he' : mk_expansion (pw.2, pw.1) (turn a b s lat.2, turn a b s lat.1) = Ok e').
Notation P := pw.1. Notation Q := pw.2.
Lemma sw_parts : [/\ odd P, odd Q, (P * Q)%N = n, e_pw e = pw & e_pw e' = (Q, P)].
Proof.
have [hp [sg [n0 [o1 o2]]]] := expansion_size he; have [hp' _] := expansion_size he'.
by split=> //; rewrite -se /e_size hp.
Qed.
Lemma sw_n : (P * Q)%N = n. Proof. by case: sw_parts. Qed.
Lemma sw_p : (0 < P)%N. Proof. by case: sw_parts => o _ _ _ _; exact: odd_gt0. Qed.
Lemma sw_q : (0 < Q)%N. Proof. by case: sw_parts => _ o _ _ _; exact: odd_gt0. Qed.
Definition sw : {perm 'I_n} := swap sw_n sw_p sw_q.
Lemma sw_mod (i : 'I_n) : (sw i %% P = i %/ Q)%N.
Proof. rewrite /sw swapE; exact: swap_mod. Qed.
Lemma sw_div (i : 'I_n) : (sw i %/ P = i %% Q)%N.
Proof. rewrite /sw swapE; apply: swap_div; exact: sw_p. Qed.
Lemma sw_sizes : [/\ e_size e' = n, size (e_g e) = n & size (e_g e') = n].
Proof.
have [_ [sg _]] := expansion_size he; have [_ [sg' _]] := expansion_size he'; case: sw_parts => _ _ hn _ hp'.
have se' : e_size e' = n by rewrite /e_size hp' /= mulnC.
by rewrite sg sg' se se'.
Qed.
Lemma sw_recip : e_reciprocal e' = (turn a b s (e_reciprocal e).2, turn a b s (e_reciprocal e).1) /\ e_sigma e' = e_sigma e.
Proof.
have [r [idx [hr hi ->]]] := mk_expansion_ok he; have [r' [idx' [hr' hi' ->]]] := mk_expansion_ok he'.
cbn [e_reciprocal e_sigma fst snd]; cbn [fst snd] in hr'.
move: hr'; rewrite (reciproc_swap (reciproc_turn iso hr)); cbn [fst snd] => -[<-].
by rewrite area_swap (area_turn iso).
Qed.
Lemma sw_g (i : 'I_n) : nth (0%Re, 0%Re) (e_g e') i = turn a b s (nth (0%Re, 0%Re) (e_g e) (sw i)).
Proof.
have [e1 _] := sw_recip; have [r [idx [hr hi ee]]] := mk_expansion_ok he; have [r' [idx' [hr' hi' ee']]] := mk_expansion_ok he'.
have er : r' = (turn a b s r.2, turn a b s r.1) by move: e1; rewrite ee ee'.
have si := indices_size hi; have si' := indices_size hi'; cbn [fst snd] in si'.
have hn := sw_n; have hn' : (Q * P)%N = n by rewrite mulnC.
have li (j : 'I_n) : (j < size idx)%N by rewrite si hn.
have li' (j : 'I_n) : (j < size idx')%N by rewrite si' hn'.
rewrite ee ee'; cbn [e_g]; rewrite (nth_gvecs _ (li _)) (nth_gvecs _ (li' _)).
rewrite (indices_nth hi) ?hn // (indices_nth hi') /= ?hn' // sw_mod sw_div er turn_lin; cbn [fst snd].
by congr pair; ring.
Qed.
Lemma sw_pic q q' : picture_transposed q q' -> [/\ frel (fun _ : 'I_n => 1) sw e e' J1 (FFT q) (FFT q'),
  ((a_rows q' == 0%N) || (a_cols q' == 0%N)) = ((a_rows q == 0%N) || (a_cols q == 0%N)) & forall v, pixel_in q' v <-> pixel_in q v].
Proof.
move=> hq; have [er ec _] := hq; split; last by move=> v; exact: transposed_pixels.
  case: sw_parts => o1 o2 hn hp hp'.
  apply: fft_rel; last by rewrite -hn muln_gt0 sw_p sw_q.
  move=> M hM _ hf; have [_ h2 h3] := conv_size hM; rewrite hp' hp; cbn [fst snd].
  split; rewrite ?er ?ec //; first by rewrite mulnC.
    by move: hf; rewrite hp /fits er ec andbC.
  move=> i j; rewrite mul1r divr1 /ord_x /ord_y !sw_mod !sw_div; exact: transposed_coef.
by rewrite er ec orbC.
Qed.
Lemma sw_isl isl isl' host : pw.1 = 1%N \/ pw.2 = 1%N \/ pw.1 = pw.2 ->
  (isl <> [::] -> isl' <> [::]) ->
  ((forall i, List.In i isl -> good_shape i.1 /\ i.2 <> 0) -> forall i, List.In i isl' -> good_shape i.1 /\ i.2 <> 0) ->
  (forall m, island_value J1 e' isl' host (m.2, m.1) = island_value J1 e isl host m) ->
  frel (fun _ : 'I_n => 1) sw e e' J1 (ANALYTICAL isl host) (ANALYTICAL isl' host).
Proof.
move=> hw h1 h2 hv; case: sw_parts => o1 o2 hn hp hp'; have [_ es] := sw_recip; have hn' : (Q * P)%N = n by rewrite mulnC.
apply: island_rel; rewrite ?hp ?hp' ?es //.
move=> i j; rewrite mul1r divr1.
have lt (k : 'I_n) : (k < pw.1 * pw.2)%N by rewrite hn.
have lt' (k : 'I_n) : (k < pw.2 * pw.1)%N by rewrite hn'.
have line : pw.1 = 1%N \/ pw.2 = 1%N -> island_value J1 e' isl' host (table_index e' i j) =
   island_value J1 e isl host (table_index e (sw i) (sw j)).
  move=> hl; rewrite (table_line o1 o2 (lt _) (lt _) hl hp).
  rewrite (@table_line (Q, P) i j o2 o1 (lt' _) (lt' _) _ e' hp') /=; last by case: hl; [right | left].
  by rewrite -hv !sw_mod !sw_div.
case: hw => [hl|[hl|hl]]; [by apply: line; left | by apply: line; right|].
rewrite (table_square o1 (lt _) (lt _) hl hp) (@table_square (Q, P) i j o2 (lt' _) (lt' _) (esym hl) e' hp').
by cbn [fst snd]; rewrite -hv !sw_mod !sw_div.
Qed.
End Swap.

Section SwapMain.
Variables (a b s : R) (n : nat) (eig : forall m, 'M[C]_m -> 'rV[C]_m * 'M[C]_m) (J1 : R -> R) (pw : nat * nat) (l : lattice_arg) (x : R).
Variables (void : bool) (epsi epse : C) (lat : vec2 * vec2) (ops ops' : seq op) (c0 c : crystal n).
Variables (isl : seq (shape * C) -> seq (shape * C) -> Prop) (src : source_args -> source_args -> Prop) (big : C * C -> Prop).
Hypotheses (iso : isometry a b s) (heig : eig_complete eig) (h0 : mk_crystal n pw l x void epsi epse = Ok c0)
  (hl : crystal_lattice x l = Ok lat) (hh : history eig J1 c0 ops c) (ho : all_calls outer_call ops)
  (ha : all_alike picture_transposed isl src ops ops').
Hypothesis hisl : forall e e' i i' host, c_exp c0 = e -> e_reciprocal e' = (turn a b s (e_reciprocal e).2, turn a b s (e_reciprocal e).1) ->
  e_sigma e' = e_sigma e -> isl i i' -> [/\ line_or_square pw, i <> [::] -> i' <> [::],
  (forall k, List.In k i -> good_shape k.1 /\ k.2 <> 0) -> forall k, List.In k i' -> good_shape k.1 /\ k.2 <> 0 &
  forall m, island_value J1 e' i' host (m.2, m.1) = island_value J1 e i host m].
Hypothesis hsrc : forall epsi wl x x' k, src x x' -> kp_of epsi wl x = Ok k ->
  kp_of epsi wl x' = Ok (turn_kp a b s k) /\
  (big k -> forall kz q, pol_vector x.1.1.1.1 x.1.1.1.2 (k.1, k.2, kz) true = Ok q -> exists z,
     pol_vector x'.1.1.1.1 x'.1.1.1.2 ((turn_kp a b s k).1, (turn_kp a b s k).2, kz) true =
       Ok ((turn_kp a b s q.1).1, (turn_kp a b s q.1).2, z)).
Lemma swap_main : exists c0' c', [/\
  mk_crystal n (pw.2, pw.1) (LatticeVectors (turn a b s lat.2, turn a b s lat.1)) x void epsi epse = Ok c0',
  history eig J1 c0' ops' c', c_kp c' = turn_kp a b s (c_kp c) &
  big (c_kp c) -> forall Rs Ts, poynting_flux_orders c = Ok (Rs, Ts) -> exists Rs' Ts', [/\ poynting_flux_orders c' = Ok (Rs', Ts'),
    forall i i' : 'I_n, same_order pw.1 pw.2 i i' -> Rs' 0 i' = Rs 0 i /\ Ts' 0 i' = Ts 0 i, total Rs' = total Rs & total Ts' = total Ts]].
Proof.
have [lat' [e [hl' hx se ec]]] := mk_crystal_ok h0; have el : lat' = lat by move: hl'; rewrite hl => -[].
rewrite {}el in hx; have [hp [sg [n0 [o1 o2]]]] := expansion_size hx; rewrite se in sg n0.
have [e' hx'] : is_ok (mk_expansion (pw.2, pw.1) (turn a b s lat.2, turn a b s lat.1)).
  have [r [idx [hr hi _]]] := mk_expansion_ok hx; rewrite /mk_expansion; cbn [fst snd].
  rewrite (reciproc_swap (reciproc_turn iso hr)); cbn [bind].
  have [idx' ->] : is_ok (generate_expansion_indices (pw.2, pw.1)) by apply: indices_def.
  by eexists; reflexivity.
have [se' _ sg'] := sw_sizes hx se hx'; have [er es] := sw_recip iso hx hx'.
move: hh; rewrite ec => hh'.
have hi' i i' h : isl i i' -> frel (fun _ : 'I_n => 1) (sw hx se hx') e e' J1 (ANALYTICAL i h) (ANALYTICAL i' h).
  by move=> hi; have [w1 w2 w3 w4] := hisl h (congr1 (@c_exp n) ec) er es hi; exact: sw_isl.
have [c' [h1 h2 h3]] := main_rel (ph := fun _ : 'I_n => 1) (p := sw hx se hx') iso (@unit_phase_mod n) heig se se' sg sg' (sw_g iso hx se hx')
  (sw_pic J1 hx se hx') hi' (swap_centre _ _ _ o1 o2) hsrc hh' ho ha.
exists (crystal_of n e' void epsi epse), c'; split=> //.
  by rewrite /mk_crystal; cbn [crystal_lattice bind]; rewrite hx'; cbn [bind]; rewrite se' eqxx.
move=> hb Rs Ts /(h3 hb) h; exists (renamed (sw hx se hx') Rs), (renamed (sw hx se hx') Ts); rewrite !total_renamed; split=> // i i' hs.
by rewrite !mxE (swap_same _ _ _ hs).
Qed.
End SwapMain.
