(** Lemmas for C100-C102: sources and lattices turned or reflected. *)
From Coq Require Import Reals ZArith Lra Lia String.
From mathcomp Require Import all_ssreflect all_fingroup all_algebra.
From Coquelicot Require Import Complex Rbar.
From Verif Require Import Base ZmodTac CField CFun Blk ModelExpansion SpecExpansion ModelFlux
  ModelFourier SpecFourier FourierProofs ModelDevice SpecDevice ExpansionProofs IslandProofs DeviceProofs ScaleProofs SpecScale SpecSym SymCore SymDevice SymProofs TableProofs.
Set Implicit Arguments. Unset Strict Implicit. Unset Printing Implicit Defensive.
Import GRing.Theory.
Local Open Scope ring_scope.

Section Turn.
Variables (a b s : R).
Hypothesis iso : isometry a b s.
Notation A := (RtoC a). Notation B := (RtoC b). Notation S := (RtoC s).
Notation tk := (turn_kp a b s).

Definition turn3 (v : C * C * C) : C * C * C := (tk v.1, v.2).
Definition scale3 (x : C) (v : C * C * C) : C * C * C := (x * v.1.1, x * v.1.2, x * v.2).
Lemma hA : Cmult A A = Cminus (RtoC 1) (Cmult B B).
Proof. by case: iso => h _; apply: C_ext => /=; lra. Qed.
Lemma hS : Cmult S S = RtoC 1.
Proof. by case: iso => _ [->|->]; apply: C_ext => /=; ring. Qed.
Lemma S_mod : Cmod S = 1%Re.
Proof. by rewrite Cmod_R; case: iso => _ [->|->]; [rewrite Rabs_R1 | rewrite Rabs_left; lra]. Qed.
Lemma plane_norm k : Rplus (abs2 (tk k).1) (abs2 (tk k).2) = Rplus (abs2 k.1) (abs2 k.2).
Proof. exact: (abs2_turn iso). Qed.
Lemma norm_turn v : norm3 (turn3 v) = norm3 v.
Proof. by rewrite /norm3 plane_norm. Qed.
Lemma norm_scale v : norm3 (scale3 S v) = norm3 v.
Proof. by rewrite /norm3 /scale3; cbn [fst snd]; rewrite !(abs2_unit _ S_mod). Qed.
Lemma div_turn v x : div3 (turn3 v) x = turn3 (div3 v x).
Proof. by rewrite /div3 /turn3 /turn_kp; cbn [fst snd]; congr (_, _, _); rewrite mulrDl !mulrA. Qed.
Lemma div_scale v x : div3 (scale3 S v) x = scale3 S (div3 v x).
Proof. by rewrite /div3 /scale3; cbn [fst snd]; rewrite !mulrA. Qed.
Lemma cross_z v : neg3 (np_cross (0, 0, -1) (turn3 v)) = scale3 S (turn3 (neg3 (np_cross (0, 0, -1) v))).
Proof.
rewrite /neg3 /np_cross /scale3 /turn3 /turn_kp; cbn [fst snd]; have h := hS.
move: (v.1.1) (v.1.2) (v.2) => x y z.
by congr (_, _, _); rewrite ?mul0r ?mulr0; toC; ring [h].
Qed.
Lemma cross_turn u v : np_cross (scale3 S (turn3 u)) (turn3 v) = turn3 (np_cross u v).
Proof.
rewrite /np_cross /scale3 /turn3 /turn_kp; cbn [fst snd]; have h := hS; have h' := hA.
move: (u.1.1) (u.1.2) (u.2) (v.1.1) (v.1.2) (v.2) => x y z x' y' z'.
by congr (_, _, _); toC; ring [h h'].
Qed.

Lemma in_planeE k : sqrt (abs2 k.1 + abs2 k.2) = in_plane k. Proof. by []. Qed.
Lemma frame_turn k f : oblique k.1 -> pol_frame k = Ok f -> pol_frame (turn3 k) = Ok (scale3 S (turn3 f.1), turn3 f.2).
Proof.
move=> hk; have hk' : ~ (Rabs (sqrt (abs2 k.1.1 + abs2 k.1.2)) < 1 / 100000000)%Re.
  by rewrite in_planeE Rabs_pos_eq; [move: hk; rewrite /oblique; lra | exact: sqrt_pos].
rewrite /pol_frame plane_norm; case: (Rlt_dec _ _) => [//|d0].
rewrite norm_turn div_turn cross_z norm_scale norm_turn; case: (Req_EM_T _ _) => // d2.
rewrite div_scale div_turn cross_turn norm_turn; case: (Req_EM_T _ _) => // d3 [<-].
by rewrite div_turn.
Qed.
Lemma pol_oblique te tm k kz q : oblique k -> pol_vector te tm (k.1, k.2, kz) true = Ok q ->
  exists z, pol_vector (S * te) tm ((tk k).1, (tk k).2, kz) true = Ok ((tk q.1).1, (tk q.1).2, z).
Proof.
move=> hk; rewrite /pol_vector (abs2_unit _ S_mod); set nr := sqrt _; case: (Req_EM_T nr 0) => // n0 h; unb h fr hf.
have hk3 : oblique (k.1, k.2, kz).1 by rewrite -surjective_pairing.
move: h => [<-]; rewrite -[(_, _, kz)]/(turn3 (k.1, k.2, kz)) (frame_turn hk3 hf); cbn [bind].
rewrite -(mulrA S te); exists (lin3 (S * (te / RtoC nr)) (tm / RtoC nr) (scale3 S (turn3 fr.1)) (turn3 fr.2)).2; rewrite /lin3 /scale3 /turn3 /turn_kp; cbn [fst snd]; have h := hS.
move: (te / RtoC nr) (tm / RtoC nr) (fr.1.1.1) (fr.1.1.2) (fr.2.1.1) (fr.2.1.2) => t1 t2 f1 f2 f3 f4.
by congr (Ok (_, _, _)); toC; ring [h].
Qed.
Lemma pol_normal te tm k kz q : near_normal k -> pol_vector te tm (k.1, k.2, kz) true = Ok q ->
  exists z, pol_vector (tk (te, tm)).1 (tk (te, tm)).2 ((tk k).1, (tk k).2, kz) true = Ok ((tk q.1).1, (tk q.1).2, z).
Proof.
move=> hk; rewrite /pol_vector plane_norm; cbn [fst snd]; set nr := sqrt _; case: (Req_EM_T nr 0) => // n0.
have hk' : (Rabs (sqrt (abs2 k.1 + abs2 k.2)) < 1 / 100000000)%Re.
  by rewrite in_planeE Rabs_pos_eq //; exact: sqrt_pos.
rewrite /pol_frame; cbn [fst snd]; rewrite plane_norm; case: (Rlt_dec _ _) => // d0 [<-].
exists (lin3 ((tk (te, tm)).1 / RtoC nr) ((tk (te, tm)).2 / RtoC nr) (1, 0, 0) (0, 1, 0)).2; rewrite /lin3 /turn_kp; cbn [fst snd].
move: (RtoC nr)^-1 => w; congr (Ok (_, _, _)); cring.
Qed.

(** Directions. *)
Lemma kplanar_turn epsi wl th phi phi' k :
  (cos (deg2rad phi'), sin (deg2rad phi')) = turn a b s (cos (deg2rad phi), sin (deg2rad phi)) ->
  compute_kplanar epsi wl th phi = Ok k -> compute_kplanar epsi wl th phi' = Ok (tk k).
Proof.
rewrite /compute_kplanar; case: (Req_EM_T wl 0) => // w0 [-> ->] [<-]; cbn [fst snd].
rewrite /turn_kp; cbn [fst snd]; rewrite !RtoC_plus !RtoC_mult RtoC_opp RtoC_mult; congr (Ok (_, _)).
  rewrite -[Cplus _ _]/(A * RtoC (cos (deg2rad phi)) + B * RtoC (sin (deg2rad phi))); move: (RtoC wl)^-1 => w; cring.
rewrite -[Cplus _ _]/(- (S * B) * RtoC (cos (deg2rad phi)) + S * A * RtoC (sin (deg2rad phi))); move: (RtoC wl)^-1 => w; cring.
Qed.
Lemma direction_kp epsi wl te tm th phi kp te' tm' th' phi' kp' k : direction_turned a b s th phi kp th' phi' kp' ->
  kp_of epsi wl (te, tm, th, phi, kp) = Ok k -> kp_of epsi wl (te', tm', th', phi', kp') = Ok (tk k).
Proof.
rewrite /kp_of; case: kp => [k1|]; case: kp' => [k2|] //=; first by move=> -> [->].
by move=> [->]; exact: kplanar_turn.
Qed.
Lemma source_oblique epsi wl x x' k : source_turned a b s x x' -> kp_of epsi wl x = Ok k ->
  kp_of epsi wl x' = Ok (tk k) /\
  (oblique k -> forall kz q, pol_vector x.1.1.1.1 x.1.1.1.2 (k.1, k.2, kz) true = Ok q -> exists z,
     pol_vector x'.1.1.1.1 x'.1.1.1.2 ((tk k).1, (tk k).2, kz) true = Ok ((tk q.1).1, (tk q.1).2, z)).
Proof.
case: x x' => [[[[te tm] th] phi] kp] [[[[te' tm'] th'] phi'] kp'] [-> -> hd] hk.
by split; [exact: (direction_kp _ _ hd hk) | move=> ho kz q; exact: pol_oblique].
Qed.
Lemma source_normal epsi wl x x' k : source_turned_normal a b s x x' -> kp_of epsi wl x = Ok k ->
  kp_of epsi wl x' = Ok (tk k) /\
  (near_normal k -> forall kz q, pol_vector x.1.1.1.1 x.1.1.1.2 (k.1, k.2, kz) true = Ok q -> exists z,
     pol_vector x'.1.1.1.1 x'.1.1.1.2 ((tk k).1, (tk k).2, kz) true = Ok ((tk q.1).1, (tk q.1).2, z)).
Proof.
case: x x' => [[[[te tm] th] phi] kp] [[[[te' tm'] th'] phi'] kp'] [[-> ->] hd] hk.
by split; [exact: (direction_kp _ _ hd hk) | move=> ho kz q; exact: pol_normal].
Qed.

(** Lattices. *)
Lemma det_turn u v : det2 (turn a b s u) (turn a b s v) = (s * det2 u v)%Re.
Proof.
case: iso => h hs; have h1 : (a * a = 1 - b * b)%Re by lra.
by rewrite /det2 /turn /=; ring [h1].
Qed.
Lemma dot_turn2 u v : dot2 (turn a b s u) (turn a b s v) = dot2 u v.
Proof.
case: iso => h hs; have h1 : (a * a = 1 - b * b)%Re by lra.
have s2 : (s * s = 1)%Re by case: hs => ->; ring.
by rewrite /dot2 /turn /=; ring [h1 s2].
Qed.
Lemma reciproc_turn a1 a2 r : reciproc a1 a2 = Ok r -> reciproc (turn a b s a1) (turn a b s a2) = Ok (turn a b s r.1, turn a b s r.2).
Proof.
case: r => b1 b2 /reciproc_ok [hd [h1 h2 h3 h4]]; have s0 : s <> 0%Re by case: iso => _ []; lra.
have hd' : det2 (turn a b s a1) (turn a b s a2) <> 0%Re by rewrite det_turn; apply: Rmult_integral_contrapositive.
have [[c1 c2] hc] := reciproc_def hd'; have [_ [g1 g2 g3 g4]] := reciproc_ok hc.
rewrite hc; congr (Ok (_, _)); apply: (dual_unique hd'); by rewrite dot_turn2 ?g1 ?g2 ?g3 ?g4 ?h1 ?h2 ?h3 ?h4.
Qed.
Lemma area_turn a1 a2 : unitcellarea (turn a b s a1) (turn a b s a2) = unitcellarea a1 a2.
Proof.
rewrite /unitcellarea; have := det_turn a1 a2; rewrite /det2 => ->; rewrite Rabs_mult.
by have := S_mod; rewrite Cmod_R => ->; rewrite Rmult_1_l.
Qed.

Lemma turn_lin x y u v : turn a b s ((x * u.1 + y * v.1)%Re, (x * u.2 + y * v.2)%Re) =
  ((x * (turn a b s u).1 + y * (turn a b s v).1)%Re, (x * (turn a b s u).2 + y * (turn a b s v).2)%Re).
Proof. by rewrite /turn /=; congr pair; ring. Qed.
Lemma gof_turn r m : gof (turn a b s r.1, turn a b s r.2) m = turn a b s (gof r m).
Proof. by rewrite /gof turn_lin. Qed.
Lemma gvecs_turn r idx : gvecs (turn a b s r.1, turn a b s r.2) idx = map (turn a b s) (gvecs r idx).
Proof. by rewrite /gvecs -map_comp; apply: eq_map => m /=; rewrite turn_lin. Qed.
Lemma expansion_turn pw lat e : mk_expansion pw lat = Ok e ->
  mk_expansion pw (turn a b s lat.1, turn a b s lat.2) =
    Ok (Expansion_ pw (turn a b s (e_reciprocal e).1, turn a b s (e_reciprocal e).2) (map (turn a b s) (e_g e)) (e_sigma e) None).
Proof.
move=> h; have [r [idx [hr hi ->]]] := mk_expansion_ok h; rewrite /mk_expansion; cbn [fst snd].
rewrite (reciproc_turn hr) hi; cbn [bind e_reciprocal e_g e_sigma]; by rewrite gvecs_turn area_turn.
Qed.

(** Discs. *)
Lemma turn0 : turn a b s (0%Re, 0%Re) = (0%Re, 0%Re).
Proof. by rewrite /turn /=; congr pair; ring. Qed.
Lemma shape_value_turn J1 sh sg r m : round sh -> resolved r -> resolved (turn a b s r.1, turn a b s r.2) ->
  shape_value J1 (shape_turned a b s sh) sg (turn a b s (gof r m)) = shape_value J1 sh sg (gof r m).
Proof.
case: sh => [//|x y d| //|//] _ h1 h2; cbn [shape_turned shape_value].
have ec : isclose0 (turn a b s (gof r m)).1 && isclose0 (turn a b s (gof r m)).2 = isclose0 (gof r m).1 && isclose0 (gof r m).2.
  have [em|hm] : m = (BinNums.Z0, BinNums.Z0) \/ m <> (BinNums.Z0, BinNums.Z0).
  by case: m => -[|p|p] [|q|q]; (by left) || (by right).
  by rewrite em (_ : gof r _ = (0%Re, 0%Re)) ?turn0 // /gof /=; congr pair; ring.
  have f1 : isclose0 (gof r m).1 && isclose0 (gof r m).2 = false.
    by apply/negbTE/negP => /isclose_zero; apply; apply: (h1 m.1 m.2); rewrite -surjective_pairing.
  rewrite f1 -gof_turn; apply/negbTE/negP => /isclose_zero; apply; apply: (h2 m.1 m.2); by rewrite -surjective_pairing.
move: (gof r m) ec => g ec; rewrite /transform_disc ec; case: ifP => // _.
have := dot_turn2 g g; rewrite {1}/dot2 => ->; have := dot_turn2 (x, y) g; rewrite {1}/dot2 => ->; by [].
Qed.
Lemma island_value_turn J1 e e' isl isl' host m : islands_turned a b s (e_reciprocal e) isl isl' ->
  e_reciprocal e' = (turn a b s (e_reciprocal e).1, turn a b s (e_reciprocal e).2) -> e_sigma e' = e_sigma e ->
  island_value J1 e' isl' host m = island_value J1 e isl host m.
Proof.
move=> [-> hr r1 r2] er es; rewrite /island_value er es gof_turn; congr (_ + _).
elim: isl hr => [|[sh x] isl IH] hr; first by rewrite !big_nil.
rewrite map_cons !big_cons IH; last by move=> i hi; apply: hr; right.
by congr (_ * _ + _); apply: shape_value_turn => //; exact: (hr (sh, x) (or_introl erefl)).
Qed.
Lemma turned_good isl : (forall i, List.In i isl -> good_shape i.1 /\ i.2 <> 0) ->
  forall i : shape * C, List.In i [seq (shape_turned a b s i.1, i.2) | i <- isl] -> good_shape i.1 /\ i.2 <> 0.
Proof. by move=> h i /List.in_map_iff [q [<- /h]]; case: q => -[]. Qed.
End Turn.

Lemma unit_phase_mod n (i : 'I_n) : Cmod ((fun=> 1) i) = 1%Re.
Proof. exact: Cmod_1. Qed.

(** Axes turned or reflected. *)
Section Axes.
Variables (a b s : R) (n : nat) (J1 : R -> R) (pw : nat * nat) (lat : vec2 * vec2) (e e' : expansion).
Hypotheses (iso : isometry a b s) (he : mk_expansion pw lat = Ok e) (se : e_size e = n)
  (he' : e' = Expansion_ pw (turn a b s (e_reciprocal e).1, turn a b s (e_reciprocal e).2) (map (turn a b s) (e_g e)) (e_sigma e) None).
Lemma axes_pw : e_pw e = pw. Proof. by case: (expansion_size he). Qed.
Lemma axes_pic q q' : q = q' -> [/\ frel (fun _ : 'I_n => 1) 1 e e' J1 (FFT q) (FFT q'),
  ((a_rows q' == 0%N) || (a_cols q' == 0%N)) = ((a_rows q == 0%N) || (a_cols q == 0%N)) & forall v, pixel_in q' v <-> pixel_in q v].
Proof.
move=> <-; split=> //; split=> // M; rewrite /form_matrix he' axes_pw; cbn [e_pw] => ->; congr Ok.
by apply/matrixP => i j; rewrite mxE !perm1 mul1r divr1.
Qed.
Lemma axes_isl isl isl' host : islands_turned a b s (e_reciprocal e) isl isl' ->
  frel (fun _ : 'I_n => 1) 1 e e' J1 (ANALYTICAL isl host) (ANALYTICAL isl' host).
Proof.
move=> hi; have [hp [sg [n0 [o1 o2]]]] := expansion_size he; have hn : (pw.1 * pw.2)%N = n by rewrite -se /e_size hp.
apply: island_rel; rewrite ?he' ?hp //.
- by case: hi => -> _ _ _; case: (isl).
- by case: hi => -> _ _ _; exact: turned_good.
move=> i j; rewrite !perm1 mul1r divr1 /table_index hp; cbn [e_pw].
by apply: (island_value_turn iso _ _ _ hi).
Qed.
Lemma axes_g : size (e_g e') = n /\ forall i : 'I_n,
  nth (0%Re, 0%Re) (e_g e') i = turn a b s (nth (0%Re, 0%Re) (e_g e) ((1%g : {perm 'I_n}) i)).
Proof.
have [_ [sg _]] := expansion_size he; rewrite se in sg; rewrite he'; cbn [e_g]; rewrite size_map; split=> // i.
by rewrite perm1 (nth_map (0%Re, 0%Re)) // sg.
Qed.
End Axes.

Section AxesMain.
Variables (a b s : R) (n : nat) (eig : forall m, 'M[C]_m -> 'rV[C]_m * 'M[C]_m) (J1 : R -> R) (pw : nat * nat) (l : lattice_arg) (x : R).
Variables (void : bool) (epsi epse : C) (lat : vec2 * vec2) (ops ops' : seq op) (c0 c : crystal n).
Variables (src : source_args -> source_args -> Prop) (big : C * C -> Prop).
Hypotheses (iso : isometry a b s) (heig : eig_complete eig) (h0 : mk_crystal n pw l x void epsi epse = Ok c0)
  (hl : crystal_lattice x l = Ok lat) (hh : history eig J1 c0 ops c) (ho : all_calls outer_call ops)
  (ha : all_alike eq (islands_turned a b s (e_reciprocal (c_exp c0))) src ops ops').
Hypothesis hsrc : forall epsi wl x x' k, src x x' -> kp_of epsi wl x = Ok k ->
  kp_of epsi wl x' = Ok (turn_kp a b s k) /\
  (big k -> forall kz q, pol_vector x.1.1.1.1 x.1.1.1.2 (k.1, k.2, kz) true = Ok q -> exists z,
     pol_vector x'.1.1.1.1 x'.1.1.1.2 ((turn_kp a b s k).1, (turn_kp a b s k).2, kz) true =
       Ok ((turn_kp a b s q.1).1, (turn_kp a b s q.1).2, z)).
Lemma axes_main : exists c0' c', [/\
  mk_crystal n pw (LatticeVectors (turn a b s lat.1, turn a b s lat.2)) x void epsi epse = Ok c0',
  history eig J1 c0' ops' c', c_kp c' = turn_kp a b s (c_kp c) &
  big (c_kp c) -> forall Rs Ts, poynting_flux_orders c = Ok (Rs, Ts) -> poynting_flux_orders c' = Ok (Rs, Ts)].
Proof.
have [lat' [e [hl' hx se ec]]] := mk_crystal_ok h0; have el : lat' = lat by move: hl'; rewrite hl => -[].
rewrite {}el in hx; have [hp [sg [n0 _]]] := expansion_size hx; rewrite se in sg n0.
have hx' := expansion_turn iso hx; set e' := Expansion_ _ _ _ _ _ in hx'.
have se' : e_size e' = n by rewrite -se /e_size hp.
have [sg' hg] := axes_g hx se (erefl e').
move: hh ha; rewrite ec; cbn [c_exp crystal_of] => hh' ha'.
have [c' [h1 h2 h3]] := main_rel (ph := fun _ : 'I_n => 1) (p := 1%g) iso (@unit_phase_mod n) heig se se' sg sg' hg
  (axes_pic n J1 hx (erefl e')) (fun i i' h => axes_isl J1 iso hx se (erefl e') h) (fun i _ => perm1 i) hsrc hh' ho ha'.
exists (crystal_of n e' void epsi epse), c'; split=> //.
  by rewrite /mk_crystal; cbn [crystal_lattice bind]; rewrite hx'; cbn [bind]; rewrite se' eqxx.
by move=> hb Rs Ts /(h3 hb); rewrite !renamed1.
Qed.
End AxesMain.
