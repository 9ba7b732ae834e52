(** Averages of products of field maps over the unit cell. *)
From Coq Require Import Reals ZArith Lra Lia String.
From mathcomp Require Import all_ssreflect all_algebra.
From Coquelicot Require Import Complex Rbar.
From Verif Require Import Base ZmodTac CField CFun ModelExpansion SpecExpansion ExpansionProofs ModelFlux SpecFlux
  ModelFourier SpecFourier FourierProofs ModelDevice SpecDevice ModelFields SpecFields SpecPlane ModelVolume SpecCell FilmDevice.
Set Implicit Arguments. Unset Strict Implicit. Unset Printing Implicit Defensive.
Import GRing.Theory.
Local Open Scope ring_scope.

Section Cell.
Variables (pw : nat * nat) (lat : (R * R) * (R * R)) (e : expansion) (he : mk_expansion pw lat = Ok e).
Variables (N1 N2 : nat) (h1 : (pw.1 <= N1)%N) (h2 : (pw.2 <= N2)%N).
Notation n := (e_size e).
Variables (kp : C * C) (hx : snd kp.1 = 0%Re) (hy : snd kp.2 = 0%Re).
Variables (wl : R) (eps : C) (kx ky kz : 'rV[C]_n) (hk : krows n e kp wl eps = Ok (kx, ky, kz)).
Notation pt r s := (cell_point lat.1 lat.2 N1 N2 r s).
Notation k0 := (RtoC (2 * PI / wl)%Re).

Lemma N1_pos : (0 < N1)%N.
Proof.
by have [b [idx [_ hi _]]] := mk_expansion_ok he; have [o _] := indices_odd hi; apply: leq_trans (odd_gt0 o) h1.
Qed.
Lemma N2_pos : (0 < N2)%N.
Proof.
by have [b [idx [_ hi _]]] := mk_expansion_ok he; have [_ o] := indices_odd hi; apply: leq_trans (odd_gt0 o) h2.
Qed.
Definition ord_of (j : nat) : Z * Z := if generate_expansion_indices pw is Ok idx then nth (BinNums.Z0, BinNums.Z0) idx j else (BinNums.Z0, BinNums.Z0).

Lemma cell_wave (j : 'I_n) r s :
  cexp (ci * ((k0 *: kx) 0 j * RtoC (pt r s).1 + (k0 *: ky) 0 j * RtoC (pt r s).2)) =
  cexp (ci * (kp.1 * RtoC (pt r s).1 + kp.2 * RtoC (pt r s).2)) *
  (wave N1 (Z.opp (ord_of j).1) r * wave N2 (Z.opp (ord_of j).2) s).
Proof.
have [e1 e2] := kvec_inplane (mk_wf he) hk j.
rewrite !mxE e1 e2 /wave -!cexpD; congr cexp.
have [b [idx [hb hi ee]]] := mk_expansion_ok he.
have eg : e_g e = gvecs b idx by rewrite ee.
have hj : (j < size idx)%N by rewrite (indices_size hi); have -> : (pw.1 * pw.2)%N = n by rewrite ee.
rewrite {e1 e2} /gth eg (nth_gvecs _ hj) /ord_of hi /=; move: (nth _ idx j) => [m k] /=.
have n1 : INR N1 <> 0%Re by apply: not_0_INR; move/ltP: N1_pos; lia.
have n2 : INR N2 <> 0%Re by apply: not_0_INR; move/ltP: N2_pos; lia.
move: hb; rewrite /reciproc; case: Req_EM_T => // hd [<-] /=.
rewrite !opp_IZR /twopi; apply: C_ext => /=.
  ring.
move: hd n1 n2; move: (INR N1) (INR N2) (INR r) (INR s) (IZR m) (IZR k) (fst kp.1) (snd kp.1) (fst kp.2) (snd kp.2).
case: (lat) => -[a1x a1y] [a2x a2y] /= *.
by field.
Qed.

Lemma ord_of_inj (j l : 'I_n) : ord_of j = ord_of l -> j = l.
Proof.
have [b [idx [hb hi ee]]] := mk_expansion_ok he.
have hs (i : 'I_n) : (i < size idx)%N by rewrite (indices_size hi); have -> : (pw.1 * pw.2)%N = n by rewrite ee.
rewrite /ord_of hi => h; apply: val_inj => /=.
have [b1 b2] := indices_bound hi (hs j).
have [i [_ u]] := indices_once hi b1 b2.
rewrite -(u j) ?(u l) //; split=> //; rewrite ?hs //; last by case: (nth _ _ _).
by rewrite -h; case: (nth _ _ _).
Qed.
Lemma ord_of_dist (j l : 'I_n) : let d := (Z.sub (ord_of l).1 (ord_of j).1, Z.sub (ord_of l).2 (ord_of j).2) in
  Z.lt (Z.abs d.1) (Z.of_nat N1) /\ Z.lt (Z.abs d.2) (Z.of_nat N2).
Proof.
have [b [idx [hb hi ee]]] := mk_expansion_ok he.
have hs (i : 'I_n) : (i < size idx)%N by rewrite (indices_size hi); have -> : (pw.1 * pw.2)%N = n by rewrite ee.
rewrite /ord_of hi /=.
have [b1 b2] := indices_bound hi (hs j); have [b3 b4] := indices_bound hi (hs l).
have [p1 p2] := indices_pw hi.
move: h1 h2; rewrite {1}p1 {1}p2 => /ltP q1 /ltP q2; rewrite -!muln2 -!multE in q1 q2.
by split; lia.
Qed.

(** The average of the product of a map and the conjugate of another. *)
Lemma parseval (f g : 'cV[C]_n) :
  cell_mean lat.1 lat.2 N1 N2 (fun x y => idft f (k0 *: kx) (k0 *: ky) x y * Cconj (idft g (k0 *: kx) (k0 *: ky) x y)) =
  \sum_j f j 0 * Cconj (g j 0).
Proof.
have c0 : RtoC (INR N1 * INR N2)%Re != 0.
  by apply: RtoC_neq0; apply: Rmult_integral_contrapositive_currified; apply: not_0_INR; [move/ltP: N1_pos|move/ltP: N2_pos]; lia.
rewrite /cell_mean; apply: (mulIf c0); rewrite divfK //.
pose W r s := cexp (ci * (kp.1 * RtoC (pt r s).1 + kp.2 * RtoC (pt r s).2)).
have W1 r s : W r s * Cconj (W r s) = 1.
  rewrite /W cexp_conj -cexpD (_ : _ + _ = 0) ?cexp0 //; apply: C_ext => /=; rewrite hx hy; ring.
transitivity (\sum_(j < n) \sum_(l < n) f j 0 * Cconj (g l 0) *
   ((\sum_(r < N1) wave N1 (Z.sub (ord_of l).1 (ord_of j).1) r) * (\sum_(s < N2) wave N2 (Z.sub (ord_of l).2 (ord_of j).2) s))).
  transitivity (\sum_(r < N1) \sum_(s < N2) \sum_(j < n) \sum_(l < n) f j 0 * Cconj (g l 0) *
     (wave N1 (Z.sub (ord_of l).1 (ord_of j).1) r * wave N2 (Z.sub (ord_of l).2 (ord_of j).2) s)).
    apply: eq_bigr => r _; apply: eq_bigr => s _; rewrite /idft conjC_sum mulr_suml; apply: eq_bigr => j _.
    rewrite mulr_sumr; apply: eq_bigr => l _; rewrite !cell_wave -/(W r s) !conjCM -!waveN !Z.opp_involutive.
    rewrite -!Z.add_opp_r !waveD; have := W1 r s.
    move: (wave _ _ _) (wave _ _ _) (wave _ _ _) (wave _ _ _) (W r s) (Cconj (W r s)) => a b c d w w' hw.
    transitivity (f j 0 * Cconj (g l 0) * (w * w') * (c * a * (d * b))); first by cring.
    by rewrite hw; cring.
  under eq_bigr => r _ do rewrite exchange_big /=.
  rewrite exchange_big /=; apply: eq_bigr => j _.
  under eq_bigr => r _ do rewrite exchange_big /=.
  rewrite exchange_big /=; apply: eq_bigr => l _.
  rewrite big_distrl /= big_distrr /=; apply: eq_bigr => r _.
  by rewrite big_distrr /= big_distrr.
rewrite mulr_suml; apply: eq_bigr => j _.
rewrite (bigD1 j) //= [X in _ + X]big1 ?addr0.
  rewrite !Z.sub_diag !wave_sum ?N1_pos ?N2_pos //=; try (move/ltP: N1_pos; move/ltP: N2_pos; lia).
  by rewrite RtoC_mult.
move=> l lj; have [d1 d2] := ord_of_dist j l.
rewrite !wave_sum ?N1_pos ?N2_pos //; case: Z.eqb_spec => e1; last by rewrite mul0r mulr0.
case: Z.eqb_spec => e2; last by rewrite !mulr0.
exfalso; move/eqP: lj; apply; apply: ord_of_inj; move: e1 e2; case: (ord_of l) (ord_of j) => a b [a' b'] /= e1 e2.
by congr pair; lia.
Qed.
End Cell.

Lemma parseval_n n pw lat e N1 N2 (kp : C * C) wl eps (kx ky kz : 'rV[C]_n) (f g : 'cV[C]_n) :
  mk_expansion pw lat = Ok e -> (pw.1 <= N1)%N -> (pw.2 <= N2)%N -> snd kp.1 = 0%Re -> snd kp.2 = 0%Re ->
  krows n e kp wl eps = Ok (kx, ky, kz) ->
  let k0 := RtoC (2 * PI / wl)%Re in
  cell_mean lat.1 lat.2 N1 N2 (fun x y => idft f (k0 *: kx) (k0 *: ky) x y * Cconj (idft g (k0 *: kx) (k0 *: ky) x y)) =
  \sum_j f j 0 * Cconj (g j 0).
Proof.
move=> he h1 h2 hx hy hk; have hn : e_size e = n.
  by clear -hk; move: hk; rewrite /krows; destruct (Req_EM_T wl 0) => //; case: (eqVneq (e_size e) n).
by subst n; apply: (parseval he h1 h2 hx hy hk).
Qed.
Lemma cell_meanB a1 a2 N1 N2 f g :
  cell_mean a1 a2 N1 N2 (fun x y => f x y - g x y) = cell_mean a1 a2 N1 N2 f - cell_mean a1 a2 N1 N2 g.
Proof.
rewrite /cell_mean -mulrBl -sumrB; congr (_ / _); apply: eq_bigr => r _; by rewrite -sumrB.
Qed.
Lemma mean_poynting n (c : crystal n) pw lat N1 N2 z inc v :
  mk_expansion pw lat = Ok (c_exp c) -> (pw.1 <= N1)%N -> (pw.2 <= N2)%N ->
  snd (c_kp c).1 = 0%Re -> snd (c_kp c).2 = 0%Re -> fourier_fields c z inc = Ok v ->
  exists E H : R -> R -> C * C * C,
  (forall x y, fields_coords_xy c x y z (Some inc) = Ok (E x y, H x y)) /\
  let mean f := cell_mean lat.1 lat.2 N1 N2 (fun x y => f (poynting_vector (E x y) (H x y))) in
  let total f := \sum_(j < n) f (energy_cross (order_E v.1 v.2 j) (order_H v.1 v.2 j)) in
  [/\ mean (fun p => p.1.1) = total (fun p => p.1.1), mean (fun p => p.1.2) = total (fun p => p.1.2) &
      mean (fun p => p.2) = total (fun p => p.2)].
Proof.
move=> he h1 h2 hx hy hf.
have [sol hsol] : exists sol, c_solution c = Some sol.
  by move: hf; rewrite /fourier_fields /locate_layer; case: (c_solution c) => // s _; exists s.
have [src [kk [hs hk]]] : exists src kk, c_source c = Some src /\ krows n (c_exp c) (c_kp c) (s_wl src) 1 = Ok kk.
  move: hf; rewrite /fourier_fields; case: (locate_layer c z) => [[[x k] [zr||]]|] //=.
  rewrite /fourier_fields_at; case: ifP => // _; case: (x.2) => [s|] //=; case: (sl_modes s) => [m|] //=.
  by case: (c_source c) => [src|] //=; case hk : (krows _ _ _ _ _) => [kk|] //= _; exists src, kk.
case: kk hk => -[kx ky] kz hk.
have P f g := parseval_n f g he h1 h2 hx hy hk.
do 2 eexists; split.
  by move=> x y; rewrite /fields_coords_xy hsol hs /= hk /= hf /=; reflexivity.
by split; rewrite /= cell_meanB !P -sumrB; apply: eq_bigr => j _; rewrite /energy_cross /order_E /order_H /= !mxE.
Qed.
Lemma plane_flux_cross n (v : 'cV[C]_((n + n) + (n + n))) w :
  plane_flux v = snd (\sum_(j < n) (energy_cross (order_E v w j) (order_H v w j)).2).
Proof.
rewrite /plane_flux /poynting_z snd_sum; apply: eq_bigr => j _ /=.
move: (usubmx v _ _) (usubmx v _ _) (dsubmx v _ _) (dsubmx v _ _) => a b c d /=; ring.
Qed.

(** * fields_volume *)
Lemma mapM_ok (A B : Type) (f : A -> res B) (l : seq A) r : mapM f l = Ok r ->
  size r = size l /\ forall a b i, (i < size l)%N -> f (nth a l i) = Ok (nth b r i).
Proof.
elim: l r => [|x l IH] r /=; first by case=> <-.
case hx : (f x) => [y|//] /=; case hl : (mapM f l) => [r'|//] /= [<-]; have [s h] := IH _ hl.
by split=> [/=|a b [|i] hi /=]; rewrite ?s //; apply: h.
Qed.
Lemma mapM_def (A B : Type) (f : A -> res B) (l : seq A) : (forall a i, (i < size l)%N -> is_ok (f (nth a l i))) -> is_ok (mapM f l).
Proof.
elim: l => [|x l IH] /= h; first by eexists.
have [y ->] := h x 0%N isT; have [|r ->] := IH; last by eexists.
by move=> a i hi; apply: (h a i.+1).
Qed.
Section Volume.
Variables (n : nat) (c : crystal n) (x y : R) (z : seq R) (inc : option 'cV[C]_((n + n) + (n + n))).
Lemma map_some zi inc' : match inc with Some f => Ok f | None => source_fields c end = Ok inc' ->
  is_ok (fields_coords_xy c x y zi inc) \/ c_solution c <> None ->
  fields_coords_xy c x y zi inc = fields_coords_xy c x y zi (Some inc').
Proof.
rewrite /fields_coords_xy => ->; by case: (c_solution c) => //=; case=> // -[].
Qed.
Lemma volume_ok Es Hs : fields_volume c x y z inc = Ok (Es, Hs) ->
  [/\ (0 < size z)%N, size Es = size z, size Hs = size z &
      forall i, (i < size z)%N -> fields_coords_xy c x y (nth 0%Re z i) inc = Ok (nth (0, 0, 0) Es i, nth (0, 0, 0) Hs i)].
Proof.
rewrite /fields_volume; case hi : (match inc with Some f => _ | None => _ end) => [inc'|//] /=.
case hm : (mapM _ z) => [l|//] /=; have [sl hl] := mapM_ok hm.
case: z sl hl hm => // z0 z' sl hl hm [<- <-]; split=> //; rewrite ?size_map // => i hi'.
have := hl 0%Re ((0, 0, 0), (0, 0, 0)) i hi' => hz.
rewrite (map_some hi); last first.
  by right; move: hz; rewrite /fields_coords_xy; case: (c_solution c).
by rewrite hz; congr Ok; rewrite /unzip1 /unzip2 !(nth_map ((0, 0, 0), (0, 0, 0))) ?sl //; case: (nth _ l i).
Qed.
Lemma volume_def : is_ok (fields_volume c x y z inc) <->
  (0 < size z)%N /\ forall i, (i < size z)%N -> is_ok (fields_coords_xy c x y (nth 0%Re z i) inc).
Proof.
split.
  case=> -[Es Hs] /volume_ok [h0 _ _ h]; split=> // i hi; rewrite (h i hi); by eexists.
case=> h0 h; have [inc' hi] : is_ok (match inc with Some f => Ok f | None => source_fields c end).
  have [r] := h 0%N h0; rewrite /fields_coords_xy; case: (c_solution c) => //= s; case: inc => [f|]; first by eexists.
  by case: (source_fields c) => // f _; eexists.
have hm : is_ok (mapM (fun zi => fields_coords_xy c x y zi (Some inc')) z).
  apply: mapM_def => a i hi'; rewrite (set_nth_default 0%Re) // -(map_some hi); last by left; apply: h.
  exact: h.
case: hm => l hm; rewrite /fields_volume hi /= hm /=; case: (z) h0 => // *; by eexists.
Qed.
End Volume.
