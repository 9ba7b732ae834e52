(** Lemmas for C99-C102: two descriptions of a device, from the constructor to the fluxes. *)
From Coq Require Import Reals ZArith Lra Lia String.
From mathcomp Require Import all_ssreflect all_fingroup all_algebra.
From Coquelicot Require Import Complex Rbar.
From Verif Require Import Base ZmodTac CField CFun Blk ModelRedheffer ModelLayer SpecEig ModelExpansion SpecExpansion ModelFlux
  ModelFourier SpecFourier FourierProofs ModelDevice SpecDevice StringEq ExpansionProofs DeviceProofs SpecSym SymCore SymDevice.
Set Implicit Arguments. Unset Strict Implicit. Unset Printing Implicit Defensive.
Import GRing.Theory.
Local Open Scope ring_scope.

Lemma mod_neq0 (z : C) : Cmod z = 1%Re -> z != 0.
Proof. by move=> h; apply/eqP => e; move: h; rewrite e Cmod_0; lra. Qed.

(** Two pictures with the same set of pixels. *)
Definition pixel_in (q : array2) (v : C) : Prop := exists x y, [/\ (x < a_rows q)%N, (y < a_cols q)%N & a_at q x y = v].
Lemma all_equalP q v : reflect (forall w, pixel_in q w -> w = v) (all_equal q v).
Proof.
apply: (iffP forallP) => [h w [x [y [hx hy <-]]]|h x].
  by move/forallP: (h (Ordinal hx)) => /(_ (Ordinal hy)) /eqP.
by apply/forallP => y; apply/eqP; apply: h; exists x, y; split=> //; exact: ltn_ord.
Qed.
Lemma empty_pixels q : ((a_rows q == 0%N) || (a_cols q == 0%N)) = false -> pixel_in q (a_at q 0 0).
Proof. by move=> /negbT; rewrite negb_or -!lt0n => /andP [h1 h2]; exists 0%N, 0%N. Qed.

Section Generic.
Variable n : nat.
Variables (a b s : R) (ph : 'I_n -> C) (p : {perm 'I_n}) (e e' : expansion).
Variables (eig : forall m, 'M[C]_m -> 'rV[C]_m * 'M[C]_m) (J1 : R -> R).

Lemma fft_rel q q' :
  (forall M, convolution_matrix n q (e_pw e) = Ok M -> (0 < n)%N -> fits q (e_pw e).1 (e_pw e).2 ->
    [/\ ((e_pw e').1 * (e_pw e').2)%N = n, (0 < a_rows q')%N, (0 < a_cols q')%N, fits q' (e_pw e').1 (e_pw e').2 &
    forall i j : 'I_n, fourier_coef q' (Z.sub (ord_x (e_pw e').1 i) (ord_x (e_pw e').1 j)) (Z.sub (ord_y (e_pw e').1 i) (ord_y (e_pw e').1 j)) =
      ph i * fourier_coef q (Z.sub (ord_x (e_pw e).1 (p i)) (ord_x (e_pw e).1 (p j)))
               (Z.sub (ord_y (e_pw e).1 (p i)) (ord_y (e_pw e).1 (p j))) / ph j]) ->
  (0 < n)%N -> frel ph p e e' J1 (FFT q) (FFT q').
Proof.
move=> h n0; split=> // M; rewrite /form_matrix => hM.
have hM1 : convolution_matrix n q ((e_pw e).1, (e_pw e).2) = Ok M by rewrite -surjective_pairing.
have hf := conv_fit hM1 n0; have [h1 h2 h3 h4 h5] := h M hM n0 hf.
have [M' [hM' e1]] := conv_fits h1 h2 h3 h4.
move: hM'; rewrite -surjective_pairing => ->; congr Ok; apply/matrixP => i j.
by rewrite e1 h5 !mxE (conv_entry hM1).
Qed.

Lemma pou_rel q q' d l : frel ph p e e' J1 (FFT q) (FFT q') ->
  ((a_rows q' == 0%N) || (a_cols q' == 0%N)) = ((a_rows q == 0%N) || (a_cols q == 0%N)) ->
  (forall v, pixel_in q' v <-> pixel_in q v) ->
  pixmap_or_uniform e q d = Ok l -> exists l', pixmap_or_uniform e' q' d = Ok l' /\ lrel ph p e e' J1 l l'.
Proof.
move=> hf h0 hv; rewrite /pixmap_or_uniform h0; case: ifP => // hz.
have p0 := empty_pixels hz; have p0' : pixel_in q' (a_at q' 0 0) by apply: empty_pixels; rewrite h0.
case: (all_equalP q (a_at q 0 0)) => hq [<-].
  have e0 : a_at q' 0 0 = a_at q 0 0 by apply: hq; apply/hv.
  case: (all_equalP q' (a_at q' 0 0)) => hq'.
    by rewrite e0; eexists; split; [reflexivity | split].
  by case: hq' => w /hv /hq ->.
case: (all_equalP q' (a_at q' 0 0)) => hq'.
  by case: hq => w /hv /hq' ->; symmetry; apply: hq'; apply/hv.
by eexists; split; [reflexivity | split].
Qed.

Lemma start_rel void epsi epse big : crel a b s ph p e e' J1 big (crystal_of n e void epsi epse) (crystal_of n e' void epsi epse).
Proof.
by split=> //=; rewrite /turn_kp /= !mulr0 addr0.
Qed.

Lemma total_renamed (t : 'rV[R]_n) : total (renamed p t) = total t.
Proof. by rewrite /total [RHS](reindex_inj (@perm_inj _ p)); apply: eq_bigr => i _; rewrite mxE. Qed.
End Generic.

Lemma renamed1 n (t : 'rV[R]_n) : renamed 1%g t = t.
Proof. by apply/rowP => i; rewrite mxE perm1. Qed.

Lemma mk_crystal_ok n pw l x void epsi epse c : mk_crystal n pw l x void epsi epse = Ok c ->
  exists lat e, [/\ crystal_lattice x l = Ok lat, mk_expansion pw lat = Ok e, e_size e = n & c = crystal_of n e void epsi epse].
Proof.
rewrite /mk_crystal => h; unb h lat h1; unb h e h2; move: h; case: eqP => //= h3 [<-]; by exists lat, e.
Qed.
Lemma expansion_size pw lat e : mk_expansion pw lat = Ok e -> e_pw e = pw /\ size (e_g e) = e_size e /\ (0 < e_size e)%N /\ odd pw.1 /\ odd pw.2.
Proof.
move=> h; have [w1 _ _ _] := mk_wf h; have [b [idx [_ hi ->]]] := mk_expansion_ok h; have [o1 o2] := indices_odd hi.
do !split=> //; last by rewrite /e_size /= muln_gt0 !odd_gt0.
by rewrite /= size_gvecs (indices_size hi).
Qed.

Section Main.
Variable n : nat.
Variables (a b s : R) (ph : 'I_n -> C) (p : {perm 'I_n}) (e e' : expansion).
Variables (eig : forall m, 'M[C]_m -> 'rV[C]_m * 'M[C]_m) (J1 : R -> R).
Variables (pic : array2 -> array2 -> Prop) (isl : seq (shape * C) -> seq (shape * C) -> Prop)
  (src : source_args -> source_args -> Prop) (big : C * C -> Prop).
Hypotheses (iso : isometry a b s) (hmod : forall i, Cmod (ph i) = 1%Re) (heig : eig_complete eig).
Hypotheses (se : e_size e = n) (se' : e_size e' = n) (sg : size (e_g e) = n) (sg' : size (e_g e') = n)
  (hg : forall i : 'I_n, nth (0%Re, 0%Re) (e_g e') i = turn a b s (nth (0%Re, 0%Re) (e_g e) (p i))).
Hypothesis hpic : forall q q', pic q q' -> [/\ frel ph p e e' J1 (FFT q) (FFT q'),
  ((a_rows q' == 0%N) || (a_cols q' == 0%N)) = ((a_rows q == 0%N) || (a_cols q == 0%N)) & forall v, pixel_in q' v <-> pixel_in q v].
Hypothesis hisl : forall i i' h, isl i i' -> frel ph p e e' J1 (ANALYTICAL i h) (ANALYTICAL i' h).
Hypothesis centre : forall i : 'I_n, val i = ((n - 1) %/ 2)%N -> p i = i.
Hypothesis hsrc : forall epsi wl x x' k, src x x' -> kp_of epsi wl x = Ok k ->
  kp_of epsi wl x' = Ok (turn_kp a b s k) /\
  (big k -> forall kz q, pol_vector x.1.1.1.1 x.1.1.1.2 (k.1, k.2, kz) true = Ok q -> exists z,
     pol_vector x'.1.1.1.1 x'.1.1.1.2 ((turn_kp a b s k).1, (turn_kp a b s k).2, kz) true =
       Ok ((turn_kp a b s q.1).1, (turn_kp a b s q.1).2, z)).

Lemma main_rel void epsi epse ops ops' c :
  history eig J1 (crystal_of n e void epsi epse) ops c -> all_calls outer_call ops -> all_alike pic isl src ops ops' ->
  exists c', [/\ history eig J1 (crystal_of n e' void epsi epse) ops' c', c_kp c' = turn_kp a b s (c_kp c) &
    big (c_kp c) -> forall Rs Ts, poynting_flux_orders c = Ok (Rs, Ts) ->
      poynting_flux_orders c' = Ok (renamed p Rs, renamed p Ts)].
Proof.
move=> hh hc ha; have hph i : ph i != 0 by exact: mod_neq0.
have hpic' q q' : pic q q' -> frel ph p e e' J1 (FFT q) (FFT q') /\
  forall d l, pixmap_or_uniform e q d = Ok l -> exists l', pixmap_or_uniform e' q' d = Ok l' /\ lrel ph p e e' J1 l l'.
  by move=> /hpic [h1 h2 h3]; split=> // d l; exact: pou_rel.
have hsrc' ei wl x x' k : src x x' -> kp_of ei wl x = Ok k ->
  kp_of ei wl x' = Ok (turn_kp a b s k) /\ amp a b s ph p big x.1.1.1.1 x.1.1.1.2 k x'.1.1.1.1 x'.1.1.1.2.
  by move=> h1 h2; have [h3 h4] := hsrc h1 h2; split=> //; apply: amp_pol.
have [c' [h1 h2]] := history_rel iso hph heig se se' sg sg' hg hpic' hisl hsrc'
  (start_rel a b s ph p e e' J1 void epsi epse big) ha hc hh.
exists c'; split=> //; first exact: cr_kp h2.
by move=> hb Rs Ts h; apply: (orders_rel iso hph se se' sg sg' hg hmod h2 hb h).
Qed.
End Main.
