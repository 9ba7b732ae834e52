(** Lemmas for C112-C114: turned piles (T-matrix API). *)
From Coq Require Import Reals ZArith Lra Lia String.
From mathcomp Require Import all_ssreflect all_fingroup all_algebra.
From Coquelicot Require Import Complex.
From Verif Require Import Base CField CFun ModelRedheffer SpecScatter ModelExpansion SpecExpansion ModelFourier SpecFourier FourierProofs Blk ModelDevice ModelTmat SpecTmat TmatProofs ModelLattice SpecLattice LatticeProofs LookupProofs
  SpecExp ExpProofs ModelEz TableProofs SpecScale SpecSym TurnProofs SpecBloch PolConj SpecTurn TmatTurn TmatTurn2 TmatTurn3.
Set Implicit Arguments. Unset Strict Implicit. Unset Printing Implicit Defensive.
Import GRing.Theory.
Local Open Scope ring_scope.

Section Lat.
Variables a b s : R.
Hypothesis iso : isometry a b s.
Notation tn := (turn a b s).
Variables (t : naming) (p : nat * nat) (a1 a2 : vec2) (ei ee : num) (L : lattice).
Hypothesis ht : nameable t p.
Hypothesis hf : window_fits p.
Hypothesis hL : mk_lattice p a1 a2 ei ee = Ok L.
Let a' := renamed t (tn a1, tn a2).
Lemma lattice_turned : exists L', mk_lattice p a'.1 a'.2 ei ee = Ok L'.
Proof.
have [_ _ _ hb _] := mk_latticeE hL; move: hL; rewrite /mk_lattice hb; cbn [bind].
rewrite (reciproc_renamed t (reciproc_turn iso hb)); cbn [bind]; case: (grid_size p) => [nq|//]; cbn [bind].
by rewrite /gvectors; case: (grid_center _) => [c|//]; cbn [bind] => _; eexists.
Qed.
Variable L' : lattice.
Hypothesis hL' : mk_lattice p a'.1 a'.2 ei ee = Ok L'.
Lemma turned_b : l_b L' = renamed t (tn (l_b L).1, tn (l_b L).2).
Proof.
have [_ _ _ hb _] := mk_latticeE hL; have [_ _ _ hb' _] := mk_latticeE hL'.
have e := reciproc_renamed t (reciproc_turn iso hb); rewrite -/a' hb' in e; exact: (Ok_inj e).
Qed.
Lemma turned_area : l_area L' = l_area L.
Proof.
have [_ _ _ _ [_ _ -> _ _]] := mk_latticeE hL; have [_ _ _ _ [_ _ -> _ _]] := mk_latticeE hL'.
by rewrite /a' area_renamed area_turn.
Qed.
Lemma vector_turned m1 m2 : order_vector (l_b L') (if swapped t then zsigned (rev2 t) m2 else zsigned (rev1 t) m1)
   (if swapped t then zsigned (rev1 t) m1 else zsigned (rev2 t) m2) = tn (order_vector (l_b L) m1 m2).
Proof. by rewrite turned_b place_vector; exact: (@gof_turn a b s (l_b L) (m1, m2)). Qed.
Notation pl i j := (place t (qof p.1, qof p.2) i j).
Lemma at_place i j : (i < qof p.1)%N -> (j < qof p.2)%N -> w_at (l_G L') (pl i j).1 (pl i j).2 = tn (w_at (l_G L) i j).
Proof.
move=> hi hj; have [_ _ _ _ [_ _ _ _ ->]] := mk_latticeE hL; have [_ _ _ _ [_ _ _ _ ->]] := mk_latticeE hL'.
rewrite -vector_turned -(reversed_q (@odd1 _ _ ht) hi) -(reversed_q (@odd2 _ _ ht) hj) /place.
by case hs : (swapped t) => //=; rewrite (ht.2 hs).
Qed.
Lemma l_g_place g : (g < p.1 * p.2)%N -> l_g L' (new_place t p g) = tn (l_g L g).
Proof.
move=> hg; have [e _] := place_coords ht hg; have e1 := congr1 fst e; have e2 := congr1 snd e; cbn [fst snd] in e1, e2; have [h1 h2 _] := coords_lt hg.
rewrite /l_g /w_flat !(window_rows hL').1 !(window_rows hL).1 e1 e2 (window_at hL) (window_at hL') -vector_turned.
rewrite -(reversed_z (@odd1 _ _ ht) h1) -(reversed_z (@odd2 _ _ ht) h2) /place.
by case hs : (swapped t) => //=; rewrite (ht.2 hs).
Qed.

(** Tables. *)
Definition carried (T T' : array2) : Prop := [/\ a_rows T' = a_rows T, a_cols T' = a_cols T &
  forall i j, (i < qof p.1)%N -> (j < qof p.2)%N -> a_at T' (pl i j).1 (pl i j).2 = a_at T i j].
Lemma pl_lt i j : (i < qof p.1)%N -> (j < qof p.2)%N -> ((pl i j).1 < qof p.1)%N /\ ((pl i j).2 < qof p.2)%N.
Proof.
move=> hi hj; have l1 := reversed_lt (rev1 t) hi; have l2 := reversed_lt (rev2 t) hj; rewrite /place /=.
case hs : (swapped t) => //=; have e := congr1 qof (ht.2 hs); split; [exact: leq_trans l2 (eq_leq (esym e))|exact: leq_trans l1 (eq_leq e)].
Qed.
Lemma grid_val J1 sh M t0 : w_rows (l_G M) = qof p.1 -> w_cols (l_G M) = qof p.2 -> grid_transform J1 sh (l_G M) (l_area M) = Ok t0 ->
  [/\ l_area M <> 0%Re, good_shape sh, a_rows t0 = qof p.1, a_cols t0 = qof p.2 & forall i j, (i < qof p.1)%N -> (j < qof p.2)%N -> a_at t0 i j = shape_value J1 sh (l_area M) (w_at (l_G M) i j)].
Proof.
move=> hr hc; rewrite /grid_transform; case h : (transform _ _ _ _) => [l|//]; cbn [bind] => -[<-].
have [s0 gs] := transform_ok h; move: h; rewrite (transform_good _ _ s0 gs) => -[<-]; split=> //= x y hx hy.
have lt : (x * w_cols (l_G M) + y < w_ng (l_G M))%N.
  rewrite /w_ng hr hc; apply: leq_trans (_ : (x.+1 * qof p.2 <= _)%N); last by rewrite leq_mul2r hx orbT.
  by rewrite mulSn addnC ltn_add2r.
rewrite (nth_map (0%Re, 0%Re)) ?size_map ?size_iota // (nth_map 0%N) ?size_iota // nth_iota // add0n.
have c0 : (0 < w_cols (l_G M))%N by rewrite hc; exact: leq_ltn_trans hy.
by rewrite divnMDl // modnMDl divn_small ?modn_small ?addn0 // hc.
Qed.
Lemma grid_def J1 sh M : l_area M <> 0%Re -> good_shape sh -> exists t0, grid_transform J1 sh (l_G M) (l_area M) = Ok t0.
Proof. by move=> s0 gs; rewrite /grid_transform (transform_good _ _ s0 gs); cbn [bind]; eexists. Qed.
Lemma grid_turned J1 sh sh' t0 : image a b s sh sh' -> (if sh is Disc _ _ _ then a = 0%Re \/ b = 0%Re \/ (resolved (l_b L) /\ resolved (tn (l_b L).1, tn (l_b L).2)) else True) ->
  grid_transform J1 sh (l_G L) (l_area L) = Ok t0 -> exists2 t1, grid_transform J1 sh' (l_G L') (l_area L') = Ok t1 & carried t0 t1.
Proof.
move=> im hd h; have [_ _ hq _ [_ _ _ hG at_]] := mk_latticeE hL; have [_ _ hq' _ [_ _ _ hG' _]] := mk_latticeE hL'.
rewrite hq in hG; rewrite hq' in hG'; case: hG => hr hc; case: hG' => hr' hc'.
have [s0 gs r0 c0 v0] := grid_val hr hc h.
have s1 : l_area L' <> 0%Re by rewrite turned_area.
have [t1 h1] := grid_def J1 s1 (image_good im gs); exists t1 => //.
have [_ _ r1 c1 v1] := grid_val hr' hc' h1; split; rewrite ?r0 ?r1 ?c0 ?c1 // => i j hi hj.
have [p1 p2] := pl_lt hi hj; rewrite v1 // v0 // at_place // turned_area at_; exact: (image_value iso J1 (l_area L) (_, _) im hd).
Qed.
Lemma data_turned J1 isl isl' data : discs_turned a b s (l_b L) isl -> List.Forall2 (fun i i' => image a b s i.1 i'.1 /\ i'.2 = i.2) isl isl' ->
  mapM (fun i => do t0 <- grid_transform J1 i.1 (l_G L) (l_area L); Ok (t0, i.2)) isl = Ok data ->
  exists2 data', mapM (fun i => do t0 <- grid_transform J1 i.1 (l_G L') (l_area L'); Ok (t0, i.2)) isl' = Ok data' &
  List.Forall2 (fun x y => carried x.1 y.1 /\ y.2 = x.2) data data'.
Proof.
move=> hd hF; elim: hF data hd => [|[sh e] [sh' e'] l l' [im /= ->] _ IH] data /= hd; first by case=> <-; exists [::].
case h0 : (grid_transform _ _ _ _) => [t0|//]; cbn [bind].
have [|t1 -> st] := grid_turned im _ h0; first by case: (sh) hd => // x y z hd; apply: hd.
case hm : (mapM _ _) => [ys|//]; cbn [bind] => -[<-].
have [|data' -> hF'] := IH _ _ hm; first by move=> h; apply: hd; rewrite /has_disc /= in h *; rewrite h orbT.
by eexists; first by []; constructor.
Qed.
Lemma tables_turned inverse host data data' acc acc' T : List.Forall2 (fun x y => carried x.1 y.1 /\ y.2 = x.2) data data' -> carried acc acc' ->
  add_tables inverse host data acc = Ok T -> exists2 T', add_tables inverse host data' acc' = Ok T' & carried T T'.
Proof.
move=> hF; elim: hF acc acc' => [|[t0 e] [t1 e'] l l' [st /= ->] _ IH] acc acc' /= sa; first by case=> <-; exists acc'.
case: (mask_trsf inverse e) => [te|//]; cbn [bind]; case: (mask_trsf inverse host) => [th|//]; cbn [bind].
have [r1 c1 h1] := st; have [r2 c2 h2] := sa; rewrite r1 c1 r2 c2 /=; case: ifP => // _; apply: IH; split=> // i j hi hj.
by cbn [a_at]; rewrite h1 // h2.
Qed.
Lemma epsilon_turned data data' host inverse T : List.Forall2 (fun x y => carried x.1 y.1 /\ y.2 = x.2) data data' ->
  epsilon_g (l_q L) data host inverse = Ok T -> exists2 T', epsilon_g (l_q L') data' host inverse = Ok T' & carried T T'.
Proof.
have [_ _ hq _ _] := mk_latticeE hL; have [_ _ hq' _ _] := mk_latticeE hL'; rewrite hq hq'.
move=> hF; rewrite /epsilon_g; case: (mask_trsf _ _) => [th|//]; cbn [bind]; case: ifP => // _; apply: tables_turned => //.
split=> // i j hi hj; cbn [a_at fst snd].
suff -> : ((pl i j).1 == qof p.1 %/ 2)%N && ((pl i j).2 == qof p.2 %/ 2)%N = (i == qof p.1 %/ 2)%N && (j == qof p.2 %/ 2)%N by [].
have half q : (qof q %/ 2 = 2 * (q %/ 2))%N by rewrite /qof div4_2.
have main (r : bool) q k : (r -> odd q) -> (k < qof q)%N -> (reversed r (qof q) k == qof q %/ 2)%N = (k == qof q %/ 2)%N.
  rewrite half /qof /reversed; case: r => // /(_ isT) ->; rewrite -[nat_of_bool true]/1%N; move: (q %/ 2)%N => h hk.
  by apply/eqP/eqP; nlia.
have m1 := main _ _ _ (@odd1 _ _ ht) hi; have m2 := main _ _ _ (@odd2 _ _ ht) hj.
rewrite /place; case hs : (swapped t) => /=; last by rewrite m1 m2.
by have e := ht.2 hs; rewrite {1}e m2 -{2}e m1 andbC.
Qed.
Variable n : nat.
Hypothesis hn : n = (p.1 * p.2)%N.
Lemma new_lt (g : 'I_n) : (new_place t p g < n)%N.
Proof. have [_ h] := place_coords ht (leq_trans (ltn_ord g) (eq_leq hn)); exact: leq_trans h (eq_leq (esym hn)). Qed.
Definition rn (g : 'I_n) : 'I_n := Ordinal (new_lt g).
Lemma rn_inj : injective rn.
Proof.
move=> g h /(congr1 val) /= e; apply: val_inj; apply: (new_place_inj ht) e; exact: leq_trans (ltn_ord _) (eq_leq hn).
Qed.
Lemma rn_g (g : 'I_n) : l_g L' (rn g) = tn (l_g L g).
Proof. exact: l_g_place (leq_trans (ltn_ord _) (eq_leq hn)). Qed.
Lemma hn' : n = l_ng L'. Proof. by rewrite hn (window_ng hL' hf). Qed.
Lemma incid' : l_incid L' = l_incid L /\ l_emerg L' = l_emerg L.
Proof. by have [_ _ _ _ [-> -> _ _ _]] := mk_latticeE hL; have [_ _ _ _ [-> -> _ _ _]] := mk_latticeE hL'. Qed.
Lemma lookups_turned l l' T T' : standard_orders p.1 p.2 l -> standard_orders p.1 p.2 l' -> carried T T' -> a_rows T = (l_q L).1 -> a_cols T = (l_q L).2 ->
  forall e, order_lookups l (w_rows (window L) %/ 2) (w_cols (window L) %/ 2) n T = Ok e ->
   exists2 e', order_lookups l' (w_rows (window L') %/ 2) (w_cols (window L') %/ 2) n T' = Ok e' & forall i j : 'I_n, looked e' (rn i) (rn j) = looked e i j.
Proof.
move=> hs hs' [h1 h2 h3] hr hc e; have [_ _ hq _ _] := mk_latticeE hL; rewrite hq /= in hr hc.
rewrite (window_rows hL).1 (window_cols hL hf) (window_rows hL').1 (window_cols hL' hf).
have [s0 -> lk] := order_lookupsE hs hr hc hn => h; rewrite -(Ok_inj h) => {h}.
have hr' : a_rows T' = qof p.1 by rewrite h1. have hc' : a_cols T' = qof p.2 by rewrite h2.
have [s' -> lk'] := order_lookupsE hs' hr' hc' hn.
exists s' => // i j; rewrite lk // lk' // /entry.
have hi : (i < p.1 * p.2)%N := leq_trans (ltn_ord i) (eq_leq hn). have hj : (j < p.1 * p.2)%N := leq_trans (ltn_ord j) (eq_leq hn).
have [i1 i2 _] := coords_lt hi; have [j1 j2 _] := coords_lt hj; have [d1 _] := dif_lt i1 j1; have [d2 _] := dif_lt i2 j2.
rewrite -(h3 _ _ d1 d2).
have [ci _] := place_coords ht hi; have ci1 := congr1 fst ci; have ci2 := congr1 snd ci; cbn [fst snd] in ci1, ci2.
have [cj _] := place_coords ht hj; have cj1 := congr1 fst cj; have cj2 := congr1 snd cj; cbn [fst snd] in cj1, cj2.
rewrite -[nat_of_ord (rn i)]/(new_place t p i) -[nat_of_ord (rn j)]/(new_place t p j) ci1 ci2 cj1 cj2.
have e1 := dif_reversed (@odd1 _ _ ht) i1 j1; have e2 := dif_reversed (@odd2 _ _ ht) i2 j2.
rewrite /place; case hsw : (swapped t); cbn [fst snd]; rewrite -e1 -e2 //.
by congr (a_at _ (dif _ _ _) (dif _ _ _)); have e0 := ht.2 hsw; rewrite e0.
Qed.
Notation D := (Dm a b s L _ rn).
Lemma layer_carried J1 expm isl isl' host wl kp d pow S : is_expm expm -> turnable b L wl kp ->
  (forall data, mapM (fun i => do t0 <- grid_transform J1 i.1 (l_G L) (l_area L); Ok (t0, i.2)) isl = Ok data ->
   exists2 data', mapM (fun i => do t0 <- grid_transform J1 i.1 (l_G L') (l_area L'); Ok (t0, i.2)) isl' = Ok data' &
   List.Forall2 (fun x y => carried x.1 y.1 /\ y.2 = x.2) data data') ->
  @scattering_matrix_islands J1 n expm p L isl host wl kp d pow = Ok S ->
  @scattering_matrix_islands J1 n expm p L' isl' host wl (tn kp) d pow = Ok (Dm a b s L kp rn *m S *m (Dm a b s L kp rn)^T).
Proof.
move=> hexp htn hF; rewrite /scattering_matrix_islands; have [hi' he'] := incid'.
have [_ _ hq _ _] := mk_latticeE hL; have [_ _ hq' _ _] := mk_latticeE hL'.
case hg : (grid_size _) => [nq|//]; cbn [bind]; have [_ e] := grid_sizeE hg.
have eq1 : nq.2 = l_q L by rewrite hq e.
have eq2 : l_q L = l_q L' by rewrite hq hq'.
rewrite eq1.
case hm : (mapM _ _) => [data|//]; cbn [bind]; have [data' -> hD] := hF _ hm; cbn [bind].
case hT : (epsilon_g _ _ _ false) => [T|//]; cbn [bind]; have [T' hT' sT] := epsilon_turned hD hT; rewrite -eq2 in hT'; rewrite hT'; cbn [bind].
case hTi : (epsilon_g _ _ _ true) => [Ti|//]; cbn [bind]; have [Ti' hTi' sTi] := epsilon_turned hD hTi; rewrite -eq2 in hTi'; rewrite hTi'; cbn [bind].
case hU : (lattice_U _ _ _ kp) => [U|//]; cbn [bind]; have [U' -> cU] := waves_U iso rn_inj rn_g hn' hi' htn hU; cbn [bind].
case hV : (lattice_Vi _ _ _ kp) => [V|//]; cbn [bind]; have [V' hV' cV] := waves_VE iso rn_inj rn_g hn' htn (or_introl erefl) hV.
rewrite /lattice_Vi hi' hV'; cbn [bind].
rewrite (window_rows hL).1 (window_cols hL hf) (window_rows hL').1 (window_cols hL' hf).
case hl : (mapM _ _) => [l|//]; cbn [bind].
have sl : standard_orders p.1 p.2 l by apply: coords_standard; rewrite -hl; case: (p) => ? ?.
case hA : (matrix_a _ _ _ _ _ _ _) => [A|//]; cbn [bind] => hS.
have [r1 c1 _] := epsilon_gE hT; have [r2 c2 _] := epsilon_gE hTi.
have [A' -> cA] := matrix_a_turn iso rn_inj rn_g hn' (lookups_turned sl sl sT r1 c1) (lookups_turned sl sl sTi r2 c2) hA; cbn [bind].
rewrite D_halves in cU cV.
rewrite (sliced_conj2 _ _ hexp (half_ortho iso L kp rn_inj true) (half_ortho iso L kp rn_inj false) (P_ortho iso rn_inj) cU cA cV) hS /=.
by rewrite conE.
Qed.
Lemma layer_turned J1 expm isl isl' host wl kp d pow S : is_expm expm -> turnable b L wl kp ->
  recipe_turned a b s (l_b L) (isl, host, d, pow) (isl', host, d, pow) ->
  @scattering_matrix_islands J1 n expm p L isl host wl kp d pow = Ok S ->
  @scattering_matrix_islands J1 n expm p L' isl' host wl (tn kp) d pow = Ok (Dm a b s L kp rn *m S *m (Dm a b s L kp rn)^T).
Proof. move=> hexp htn [_ _ _ hd hF]; apply: layer_carried => // data hm; exact: data_turned hd hF hm. Qed.
End Lat.
