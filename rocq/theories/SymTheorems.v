(** C99-C102: the forms in which the symmetries are stated. *)
From Coq Require Import Reals ZArith Lra Lia String.
From mathcomp Require Import all_ssreflect all_fingroup all_algebra.
From Coquelicot Require Import Complex Rbar.
From Verif Require Import Base ZmodTac CField CFun Blk ModelExpansion SpecExpansion ModelFlux
  ModelFourier SpecFourier FourierProofs ModelDevice SpecDevice ExpansionProofs ExtensionProofs IslandProofs DeviceProofs HistoryProofs ScaleProofs SpecScale SpecSym SymCore SymDevice SymProofs TableProofs
  MoveProofs TurnProofs SwapProofs ReverseProofs.
Set Implicit Arguments. Unset Strict Implicit. Unset Printing Implicit Defensive.
Import GRing.Theory.
Local Open Scope ring_scope.

Section Th.
Variables (n : nat) (eig : forall m, 'M[C]_m -> 'rV[C]_m * 'M[C]_m) (J1 : R -> R) (pw : nat * nat) (l : lattice_arg) (x : R).
Variables (void : bool) (epsi epse : C) (lat : vec2 * vec2) (ops ops' : seq op) (c0 c : crystal n).
Hypotheses (heig : eig_complete eig) (h0 : mk_crystal n pw l x void epsi epse = Ok c0)
  (hl : crystal_lattice x l = Ok lat) (hh : history eig J1 c0 ops c) (ho : all_calls outer_call ops).

(** Axes turned or reflected. *)
Section Axes.
Variables (a b s : R).
Hypothesis iso : isometry a b s.
Lemma turn_oblique : oblique (c_kp c) ->
  all_alike eq (islands_turned a b s (e_reciprocal (c_exp c0))) (source_turned a b s) ops ops' ->
  exists c0' c', [/\ mk_crystal n pw (LatticeVectors (turn a b s lat.1, turn a b s lat.2)) x void epsi epse = Ok c0',
  history eig J1 c0' ops' c', c_kp c' = turn_kp a b s (c_kp c) &
  forall Rs Ts, poynting_flux_orders c = Ok (Rs, Ts) -> poynting_flux_orders c' = Ok (Rs, Ts)].
Proof.
move=> hb ha; have [c0' [c' [h1 h2 h3 h4]]] := axes_main iso heig h0 hl hh ho ha (source_oblique iso).
by exists c0', c'; split=> //; exact: h4.
Qed.
Lemma turn_normal : near_normal (c_kp c) ->
  all_alike eq (islands_turned a b s (e_reciprocal (c_exp c0))) (source_turned_normal a b s) ops ops' ->
  exists c0' c', [/\ mk_crystal n pw (LatticeVectors (turn a b s lat.1, turn a b s lat.2)) x void epsi epse = Ok c0',
  history eig J1 c0' ops' c', c_kp c' = turn_kp a b s (c_kp c) &
  forall Rs Ts, poynting_flux_orders c = Ok (Rs, Ts) -> poynting_flux_orders c' = Ok (Rs, Ts)].
Proof.
move=> hb ha; have [c0' [c' [h1 h2 h3 h4]]] := axes_main iso heig h0 hl hh ho ha (source_normal iso).
by exists c0', c'; split=> //; exact: h4.
Qed.

(** Turned, with the two vectors of the lattice exchanged. *)
Lemma mirror_isl e e' i i' host : c_exp c0 = e -> e_reciprocal e' = (turn a b s (e_reciprocal e).2, turn a b s (e_reciprocal e).1) ->
  e_sigma e' = e_sigma e -> islands_mirrored a b s pw (e_reciprocal (c_exp c0)) i i' -> [/\ line_or_square pw, i <> [::] -> i' <> [::],
  (forall k, List.In k i -> good_shape k.1 /\ k.2 <> 0) -> forall k, List.In k i' -> good_shape k.1 /\ k.2 <> 0 &
  forall m, island_value J1 e' i' host (m.2, m.1) = island_value J1 e i host m].
Proof.
move=> ee er es [ht hw]; rewrite ee in ht; have [ei _ _ _] := ht; split=> //.
- by rewrite ei; case: (i).
- by rewrite ei; exact: turned_good.
move=> m; pose q := Expansion_ (e_pw e) (turn a b s (e_reciprocal e).1, turn a b s (e_reciprocal e).2) (e_g e) (e_sigma e) None.
rewrite -(island_value_turn iso J1 (e' := q) host m ht erefl erefl) /island_value er es /q; cbn [e_reciprocal e_sigma fst snd].
rewrite andbC; congr (_ + _); apply: eq_bigr => k _; congr (_ * shape_value _ _ _ _).
by rewrite /gof; cbn [fst snd]; congr pair; ring.
Qed.
Let swapped (c' : crystal n) := forall Rs Ts, poynting_flux_orders c = Ok (Rs, Ts) -> exists Rs' Ts', [/\ poynting_flux_orders c' = Ok (Rs', Ts'),
    forall i i' : 'I_n, same_order pw.1 pw.2 i i' -> Rs' 0 i' = Rs 0 i /\ Ts' 0 i' = Ts 0 i, total Rs' = total Rs & total Ts' = total Ts].
Lemma mirror_oblique : oblique (c_kp c) ->
  all_alike picture_transposed (islands_mirrored a b s pw (e_reciprocal (c_exp c0))) (source_turned a b s) ops ops' ->
  exists c0' c', [/\ mk_crystal n (pw.2, pw.1) (LatticeVectors (turn a b s lat.2, turn a b s lat.1)) x void epsi epse = Ok c0',
  history eig J1 c0' ops' c', c_kp c' = turn_kp a b s (c_kp c) & swapped c'].
Proof.
move=> hb ha; have [c0' [c' [h1 h2 h3 h4]]] := swap_main iso heig h0 hl hh ho ha mirror_isl (source_oblique iso).
by exists c0', c'; split=> //; exact: h4.
Qed.
Lemma mirror_normal : near_normal (c_kp c) ->
  all_alike picture_transposed (islands_mirrored a b s pw (e_reciprocal (c_exp c0))) (source_turned_normal a b s) ops ops' ->
  exists c0' c', [/\ mk_crystal n (pw.2, pw.1) (LatticeVectors (turn a b s lat.2, turn a b s lat.1)) x void epsi epse = Ok c0',
  history eig J1 c0' ops' c', c_kp c' = turn_kp a b s (c_kp c) & swapped c'].
Proof.
move=> hb ha; have [c0' [c' [h1 h2 h3 h4]]] := swap_main iso heig h0 hl hh ho ha mirror_isl (source_normal iso).
by exists c0', c'; split=> //; exact: h4.
Qed.
End Axes.

(** The two vectors of the lattice exchanged, nothing turned. *)
Lemma kept_isl e e' i i' host : c_exp c0 = e -> e_reciprocal e' = (turn 1 0 1 (e_reciprocal e).2, turn 1 0 1 (e_reciprocal e).1) ->
  e_sigma e' = e_sigma e -> islands_kept pw i i' -> [/\ line_or_square pw, i <> [::] -> i' <> [::],
  (forall k, List.In k i -> good_shape k.1 /\ k.2 <> 0) -> forall k, List.In k i' -> good_shape k.1 /\ k.2 <> 0 &
  forall m, island_value J1 e' i' host (m.2, m.1) = island_value J1 e i host m].
Proof.
move=> _; rewrite !turn1 => er es [-> hw]; split=> // m.
rewrite /island_value er es; cbn [fst snd]; rewrite andbC; congr (_ + _); apply: eq_bigr => k _; congr (_ * shape_value _ _ _ _).
by rewrite /gof; cbn [fst snd]; congr pair; ring.
Qed.
Lemma exchange : all_alike picture_transposed (islands_kept pw) eq ops ops' ->
  exists c0' c', [/\ mk_crystal n (pw.2, pw.1) (LatticeVectors (lat.2, lat.1)) x void epsi epse = Ok c0', history eig J1 c0' ops' c' &
  forall Rs Ts, poynting_flux_orders c = Ok (Rs, Ts) -> exists Rs' Ts', [/\ poynting_flux_orders c' = Ok (Rs', Ts'),
    forall i i' : 'I_n, same_order pw.1 pw.2 i i' -> Rs' 0 i' = Rs 0 i /\ Ts' 0 i' = Ts 0 i, total Rs' = total Rs & total Ts' = total Ts]].
Proof.
move=> ha.
have hsrc ei wl (y y' : source_args) k : y = y' -> kp_of ei wl y = Ok k -> kp_of ei wl y' = Ok (turn_kp 1 0 1 k) /\
  ((fun=> True) k -> forall kz q, pol_vector y.1.1.1.1 y.1.1.1.2 (k.1, k.2, kz) true = Ok q -> exists z,
     pol_vector y'.1.1.1.1 y'.1.1.1.2 ((turn_kp 1 0 1 k).1, (turn_kp 1 0 1 k).2, kz) true =
       Ok ((turn_kp 1 0 1 q.1).1, (turn_kp 1 0 1 q.1).2, z)).
  by move=> <- hk; rewrite turn_kp1; split=> // _ kz [[q1 q2] q3] hq; exists q3; rewrite turn_kp1.
have [c0' [c' [h1 h2 h3 h4]]] := swap_main iso1 heig h0 hl hh ho ha kept_isl hsrc.
by rewrite !turn1 in h1; exists c0', c'; split=> //; exact: h4.
Qed.
End Th.

(** Devices that are their own mirror image. *)
Lemma turn_diag v : turn 0 1 (-1) v = (v.2, v.1).
Proof. by rewrite /turn; congr pair; ring. Qed.
Lemma turn_kp_diag k : turn_kp 0 1 (-1) k = (k.2, k.1).
Proof. by case: k => x y; rewrite /turn_kp; cbn [fst snd]; congr pair; apply: C_ext => /=; ring. Qed.
Lemma iso_diag : isometry 0 1 (-1). Proof. by split; [ring|right]. Qed.

Lemma kplanar0 eps wl ph k : compute_kplanar eps wl 0 ph = Ok k -> k = (0, 0).
Proof.
rewrite /compute_kplanar; destruct (Req_EM_T wl 0) as [h|h] => //.
have -> : sin (deg2rad 0) = 0%Re by rewrite (_ : deg2rad 0 = 0%Re) ?sin_0 // /deg2rad; field.
by rewrite !mulr0 ?mul0r => -[<-].
Qed.
Lemma kp_zero n eig J1 pic isl (c0 c : crystal n) ops ops' : history eig J1 c0 ops c ->
  all_alike pic isl source_exchanged ops ops' -> c_kp c0 = (0, 0) -> c_kp c = (0, 0).
Proof.
move=> h; elim: h ops' => {c0 ops c} [//|c0 o ops c1 c2 hs _ IH] [//|o' ops'] [ha ht] h0; apply: (IH _ ht).
case: hs ha => /=.
- by move=> name eps d _.
- by move=> name p d _.
- by move=> name p d c' h _; move: h; rewrite /add_pixmap_or_uniform; case: (pixmap_or_uniform _ _ _) => [q|//] [<-].
- by move=> name i h d _.
- by move=> name q; case: o'.
- by move=> name who q c' _; case: o'.
- by move=> st m c' h _; move: h; rewrite /set_device; case: (enable_fields _ _) => [q|//] [<-].
- move=> wl te tm th ph kp c' h; case: o' => // wl' te' tm' th' ph' kp' [_ [_ _ [_ eth] [ek _]]]; move: h.
  rewrite /set_source ek eth; case hk : (compute_kplanar _ _ _ _) => [k|//]; cbn [bind].
  by destruct (Req_EM_T wl 0) as [h|h] => // -[<-]; exact: (kplanar0 hk).
by move=> od c' _ /solve_parts [src [dev [q1 [q2 [q3 [q4 [q5 [_ _ _ _ ->]]]]]]]] _.
Qed.

Section Degenerate.
Variables (n : nat) (eig : forall m, 'M[C]_m -> 'rV[C]_m * 'M[C]_m) (J1 : R -> R) (pw : nat * nat) (l : lattice_arg) (x : R).
Variables (void : bool) (epsi epse : C) (lat : vec2 * vec2) (ops ops' : seq op) (c0 c : crystal n).
Hypotheses (heig : eig_complete eig) (h0 : mk_crystal n pw l x void epsi epse = Ok c0)
  (hl : crystal_lattice x l = Ok lat) (hh : history eig J1 c0 ops c) (ho : all_calls outer_call ops)
  (hp : pw.1 = pw.2) (hd : lat.2 = (lat.1.2, lat.1.1)).
Lemma symmetric_isl i i' : islands_symmetric pw (e_reciprocal (c_exp c0)) i i' -> islands_mirrored 0 1 (-1) pw (e_reciprocal (c_exp c0)) i i'.
Proof.
move=> [-> hs hw hr]; split=> //; split=> //.
- rewrite -[LHS]map_id; elim: i hs => [//|[sh z] i IH] hs; rewrite !map_cons; congr (_ :: _); last by apply: IH => k hk; apply: hs; right.
  move: (hs (sh, z) (or_introl erefl)); case: sh {hs} => //= y1 y2 y3 ->.
  by congr (Disc _ _ _, _); ring.
- by move=> k /hs; case: (k.1).
move=> y1 y2 h; rewrite !turn_diag; cbn [fst snd]; case: (hr y1 y2 h) => h'; [right|left]; exact: h'.
Qed.
Lemma exchanged_src ei wl (y y' : source_args) k : source_exchanged y y' -> kp_of ei wl y = Ok k -> kp_of ei wl y' = Ok (turn_kp 0 1 (-1) k) /\
  ((fun k => k = (0, 0)) k -> forall kz q, pol_vector y.1.1.1.1 y.1.1.1.2 (k.1, k.2, kz) true = Ok q -> exists z,
     pol_vector y'.1.1.1.1 y'.1.1.1.2 ((turn_kp 0 1 (-1) k).1, (turn_kp 0 1 (-1) k).2, kz) true =
       Ok ((turn_kp 0 1 (-1) q.1).1, (turn_kp 0 1 (-1) q.1).2, z)).
Proof.
case: y y' => [[[[te tm] th] phi] kp] [[[[te' tm'] th'] phi'] kp'] [-> -> [-> ->] [-> ->]]; rewrite /kp_of; cbn [fst snd] => hk.
have ek := kplanar0 hk; rewrite ek turn_kp_diag; cbn [fst snd]; split.
  move: hk; rewrite /compute_kplanar; destruct (Req_EM_T wl 0) as [h|h] => // _.
  have -> : sin (deg2rad 0) = 0%Re by rewrite (_ : deg2rad 0 = 0%Re) ?sin_0 // /deg2rad; field.
  by rewrite !mulr0.
move=> _ kz q hq.
have z0 : near_normal (0, 0) by rewrite /near_normal /in_plane /= !Rmult_0_l !Rplus_0_r sqrt_0; lra.
have [z] := pol_normal iso_diag z0 hq; rewrite !turn_kp_diag; cbn [fst snd] => h.
by exists z; rewrite h.
Qed.
Lemma degenerate : all_alike picture_symmetric (islands_symmetric pw (e_reciprocal (c_exp c0))) source_exchanged ops ops' ->
  exists c', history eig J1 c0 ops' c' /\
  forall Rs Ts, poynting_flux_orders c = Ok (Rs, Ts) -> exists Rs' Ts', [/\ poynting_flux_orders c' = Ok (Rs', Ts'),
    forall i i' : 'I_n, same_order pw.1 pw.2 i i' -> Rs' 0 i' = Rs 0 i /\ Ts' 0 i' = Ts 0 i, total Rs' = total Rs & total Ts' = total Ts].
Proof.
move=> ha.
have k0 : c_kp c = (0, 0).
  by apply: (kp_zero hh ha); have [lat' [e [_ _ _ ->]]] := mk_crystal_ok h0.
have ha' : all_alike picture_transposed (islands_mirrored 0 1 (-1) pw (e_reciprocal (c_exp c0))) source_exchanged ops ops'.
  by apply: all_alike_impl ha => [q q' [-> //]|i i']; exact: symmetric_isl.
have [c0' [c' [h1 h2 _ h4]]] := swap_main iso_diag heig h0 hl hh ho ha' (mirror_isl J1 iso_diag) exchanged_src.
exists c'; split; last exact: h4.
suff -> : c0 = c0' by [].
move: h0 h1; rewrite /mk_crystal; cbn [crystal_lattice]; rewrite hl; cbn [bind].
have -> : (turn 0 1 (-1) lat.2, turn 0 1 (-1) lat.1) = lat.
  by rewrite !turn_diag hd /=; case: (lat) hd => [[y1 y2] y3] /= ->.
have -> : (pw.2, pw.1) = pw by rewrite hp; case: (pw) hp => a b /= ->.
by move=> -> [].
Qed.
End Degenerate.
