(** Lemmas for C99: a device displaced in its plane. *)
From Coq Require Import Reals ZArith Lra Lia String.
From mathcomp Require Import all_ssreflect all_fingroup all_algebra.
From Coquelicot Require Import Complex Rbar.
From Verif Require Import Base ZmodTac CField CFun Blk ModelRedheffer ModelLayer SpecEig ModelExpansion SpecExpansion ModelFlux
  ModelFourier SpecFourier FourierProofs ModelDevice SpecDevice StringEq ExpansionProofs IslandProofs DeviceProofs ScaleProofs SpecScale SpecSym SymCore SymDevice SymProofs TableProofs.
Set Implicit Arguments. Unset Strict Implicit. Unset Printing Implicit Defensive.
Import GRing.Theory.
Local Open Scope ring_scope.

(** Phases. *)
Definition ph_at (x y : R) : C := cexp (- (ci * RtoC (2 * PI * (x + y))%Re)).
Lemma ph_D x y x' y' : ph_at (x + x') (y + y') = ph_at x y * ph_at x' y'.
Proof. by rewrite /ph_at -cexpD; congr cexp; rewrite -opprD -mulrDr; congr (- (_ * _)); apply: C_ext => /=; ring. Qed.
Lemma ph_mod x y : Cmod (ph_at x y) = 1%Re.
Proof.
rewrite /ph_at cexp_cis /Cmod [fst _]/= [snd _]/=; have := sin2_cos2 (2 * PI * (x + y)); rewrite /Rsqr => h.
by rewrite (_ : (_ + _)%Re = 1%Re) ?sqrt_1 //; move: h; move: (sin _) (cos _) => S0 C0 h; rewrite /pow; lra.
Qed.
Lemma ph_0 : ph_at 0 0 = 1.
Proof. by rewrite /ph_at; apply: etrans cexp0; congr cexp; apply: C_ext => /=; ring. Qed.
Lemma ph_N x y : ph_at (- x) (- y) = (ph_at x y)^-1.
Proof.
have h : ph_at (- x) (- y) * ph_at x y = 1 by rewrite -ph_D !Rplus_opp_l ph_0.
by have n0 := mod_neq0 (ph_mod x y); apply: (mulIf n0); rewrite h mulVf.
Qed.
Lemma ph_B x y x' y' : ph_at (x - x') (y - y') = ph_at x y / ph_at x' y'.
Proof. by rewrite /Rminus ph_D ph_N. Qed.

(** Pictures. *)
Lemma wave_addx N d x y : wave N d (x + y) = wave N d x * wave N d y.
Proof. by rewrite wave_pow (wave_pow _ _ x) (wave_pow _ _ y) -exprD. Qed.
Lemma wave_full N d : (0 < N)%N -> wave N d N = 1.
Proof.
move=> n0; have n1 : INR N <> 0%Re by apply: not_0_INR => e0; rewrite e0 in n0.
rewrite /wave (_ : (_ / _ = 2 * IZR d * PI)%Re) ?cexp_2kPI //; field => //.
Qed.
Lemma wave_modx N d x : (0 < N)%N -> wave N d (x %% N) = wave N d x.
Proof.
move=> n0; rewrite {2}(divn_eq x N) wave_addx wave_pow (wave_pow _ _ (_ * N)) mulnC exprM.
by rewrite -(wave_pow _ _ N) wave_full // expr1n mul1r.
Qed.
Lemma wave_ph N d i u : (0 < N)%N -> INR i = (u * INR N)%Re -> wave N d i = ph_at (IZR d * u) 0.
Proof.
move=> n0 h; have n1 : INR N <> 0%Re by apply: not_0_INR => e0; rewrite e0 in n0.
by rewrite /wave /ph_at; congr cexp; congr (- (_ * RtoC _)); rewrite h; field.
Qed.
Lemma shift_inj N i (n0 : (0 < N)%N) : injective (fun x : 'I_N => Ordinal (ltn_pmod (x + i) n0)).
Proof.
move=> x y /(congr1 val) /= /eqP; rewrite eqn_modDr => /eqP h; apply: val_inj.
by move: h; rewrite !modn_small.
Qed.
Lemma shift_sum N i (f : nat -> C) : (0 < N)%N -> \sum_(x < N) f x = \sum_(x < N) f ((x + i) %% N)%N.
Proof. by move=> n0; rewrite (reindex_inj (@shift_inj N i n0)). Qed.

Lemma moved_coef u v A A' d0 d1 : (0 < a_rows A)%N -> (0 < a_cols A)%N -> picture_moved u v A A' ->
  fourier_coef A' d0 d1 = ph_at (IZR d0 * u) (IZR d1 * v) * fourier_coef A d0 d1.
Proof.
move=> r0 c0 [er ec [i [j [hi hj h]]]]; rewrite /fourier_coef er ec mulrA; congr (_ / _).
have -> : ph_at (IZR d0 * u) (IZR d1 * v) = wave (a_rows A) d0 i * wave (a_cols A) d1 j.
  rewrite (wave_ph _ r0 hi) (wave_ph _ c0 hj) -ph_D /ph_at; congr cexp; congr (- (_ * RtoC _)); ring.
rewrite (shift_sum i (fun x => \sum_(y < a_cols A) a_at A' x y * wave (a_rows A) d0 x * wave (a_cols A) d1 y)) // big_distrr /=.
apply: eq_bigr => x _; set x' := ((x + i) %% a_rows A)%N.
rewrite (shift_sum j (fun y => a_at A' x' y * wave (a_rows A) d0 x' * wave (a_cols A) d1 y)) // big_distrr /=; apply: eq_bigr => y _; rewrite /x'.
rewrite h ?ltn_ord // !wave_modx // !wave_addx.
move: (a_at A x y) (wave _ _ _) (wave _ _ _) (wave _ _ _) (wave _ _ _) => z1 z2 z3 z4 z5; cring.
Qed.
Lemma moved_pixels u v A A' w : picture_moved u v A A' -> pixel_in A' w <-> pixel_in A w.
Proof.
move=> [er ec [i [j [hi hj h]]]]; split=> -[x [y [hx hy <-]]]; last first.
  have r0 : (0 < a_rows A)%N by apply: leq_ltn_trans hx. have c0 : (0 < a_cols A)%N by apply: leq_ltn_trans hy.
  by exists ((x + i) %% a_rows A)%N, ((y + j) %% a_cols A)%N; rewrite er ec !ltn_pmod ?h.
rewrite er in hx; rewrite ec in hy.
have r0 : (0 < a_rows A)%N by apply: leq_ltn_trans hx. have c0 : (0 < a_cols A)%N by apply: leq_ltn_trans hy.
have sur N k (n0 : (0 < N)%N) (z : nat) : (z < N)%N -> exists z', (z' < N)%N /\ z = ((z' + k) %% N)%N.
  move=> hz; have := injF_bij (@shift_inj N k n0); case=> g _ gK.
  by exists (g (Ordinal hz)); split; [exact: ltn_ord | have := congr1 val (gK (Ordinal hz))].
have [x' [hx' ->]] := sur _ i r0 x hx; have [y' [hy' ->]] := sur _ j c0 y hy.
by exists x', y'; split=> //; rewrite h.
Qed.

Section Move.
Variables (n : nat) (u v : R) (e : expansion) (J1 : R -> R).
Hypotheses (se : e_size e = n) (n0 : (0 < n)%N).
Definition phase (j : 'I_n) : C := ph_at (INR (j %% (e_pw e).1) * u) (INR (j %/ (e_pw e).1) * v).
Lemma phase_mod i : Cmod (phase i) = 1%Re. Proof. exact: ph_mod. Qed.
Lemma of_ord_x (i : 'I_n) : IZR (ord_x (e_pw e).1 i) = INR (i %% (e_pw e).1). Proof. by rewrite /ord_x -INR_IZR_INZ. Qed.
Lemma of_ord_y (i : 'I_n) : IZR (ord_y (e_pw e).1 i) = INR (i %/ (e_pw e).1). Proof. by rewrite /ord_y -INR_IZR_INZ. Qed.

Lemma move_pic q q' : picture_moved u v q q' -> [/\ frel phase 1 e e J1 (FFT q) (FFT q'),
  ((a_rows q' == 0%N) || (a_cols q' == 0%N)) = ((a_rows q == 0%N) || (a_cols q == 0%N)) & forall v, pixel_in q' v <-> pixel_in q v].
Proof.
move=> hm; have [er ec _] := hm; split; [|by rewrite er ec | by move=> w; exact: (moved_pixels _ hm)].
apply: fft_rel => // M hM _ hf; have [h1 h2 h3] := conv_size hM.
split; rewrite ?er ?ec //; first by move: hf; rewrite /fits er ec.
move=> i j; rewrite (moved_coef _ _ h2 h3 hm) !perm1 !minus_IZR !of_ord_x !of_ord_y /phase.
by rewrite !Rmult_minus_distr_r ph_B mulrAC.
Qed.
End Move.

Lemma turn1 g : turn 1 0 1 g = g.
Proof. by case: g => x y; rewrite /turn /=; congr pair; ring. Qed.
Lemma turn_kp1 k : turn_kp 1 0 1 k = k.
Proof. by case: k => x y; rewrite /turn_kp; cbn [fst snd]; congr pair; cring. Qed.
Lemma iso1 : isometry 1 0 1.
Proof. by split; [ring | left]. Qed.

Lemma move_source n eig J1 (e : expansion) ph (isl : seq (shape * C) -> seq (shape * C) -> Prop) (pic : array2 -> array2 -> Prop) void epsi epse ops ops' c :
  (forall i : 'I_n, Cmod (ph i) = 1%Re) -> eig_complete eig -> e_size e = n -> size (e_g e) = n ->
  (forall q q', pic q q' -> [/\ frel ph 1 e e J1 (FFT q) (FFT q'),
    ((a_rows q' == 0%N) || (a_cols q' == 0%N)) = ((a_rows q == 0%N) || (a_cols q == 0%N)) & forall v, pixel_in q' v <-> pixel_in q v]) ->
  (forall i i' h, isl i i' -> frel ph 1 e e J1 (ANALYTICAL i h) (ANALYTICAL i' h)) ->
  history eig J1 (crystal_of n e void epsi epse) ops c -> all_calls outer_call ops -> all_alike pic isl eq ops ops' ->
  exists c', history eig J1 (crystal_of n e void epsi epse) ops' c' /\
    forall Rs Ts, poynting_flux_orders c = Ok (Rs, Ts) -> poynting_flux_orders c' = Ok (Rs, Ts).
Proof.
move=> hm he se sg hp hi hh ho ha.
have hg (i : 'I_n) : nth (0%Re, 0%Re) (e_g e) i = turn 1 0 1 (nth (0%Re, 0%Re) (e_g e) ((1%g : {perm 'I_n}) i)) by rewrite turn1 perm1.
have hsrc ei wl (x x' : source_args) k : x = x' -> kp_of ei wl x = Ok k -> kp_of ei wl x' = Ok (turn_kp 1 0 1 k) /\
  ((fun=> True) k -> forall kz q, pol_vector x.1.1.1.1 x.1.1.1.2 (k.1, k.2, kz) true = Ok q -> exists z,
     pol_vector x'.1.1.1.1 x'.1.1.1.2 ((turn_kp 1 0 1 k).1, (turn_kp 1 0 1 k).2, kz) true =
       Ok ((turn_kp 1 0 1 q.1).1, (turn_kp 1 0 1 q.1).2, z)).
  by move=> <- hk; rewrite turn_kp1; split=> // _ kz [[q1 q2] q3] hq; exists q3; rewrite turn_kp1.
have [c' [h1 _ h3]] := main_rel (big := fun=> True) iso1 hm he se se sg sg hg hp hi (fun i _ => perm1 i) hsrc hh ho ha.
by exists c'; split=> // Rs Ts /(h3 I); rewrite !renamed1.
Qed.

Lemma move_pictures n eig J1 pw l x void epsi epse u v ops ops' c0 c :
  eig_complete eig -> mk_crystal n pw l x void epsi epse = Ok c0 ->
  history eig J1 c0 ops c -> all_calls outer_call ops -> all_alike (picture_moved u v) no_islands eq ops ops' ->
  exists c', history eig J1 c0 ops' c' /\
    forall Rs Ts, poynting_flux_orders c = Ok (Rs, Ts) -> poynting_flux_orders c' = Ok (Rs, Ts).
Proof.
move=> he /mk_crystal_ok [lat [e [_ hx se ->]]]; have [_ [sg [n0 _]]] := expansion_size hx; rewrite se in sg n0.
by apply: (move_source (ph := phase u v e)) => // [i|q q' hq]; [exact: ph_mod | exact: move_pic].
Qed.

(** Islands. *)
Lemma gof0 b : gof b (BinNums.Z0, BinNums.Z0) = (0%Re, 0%Re).
Proof. by rewrite /gof /=; congr pair; ring. Qed.
Lemma disc_at0 J1 x y r s : transform_disc J1 x y r 0 0 s = RtoC (PI * (r * r) / s)%Re.
Proof.
have h : isclose0 0 = true by rewrite /isclose0; case: Rle_dec => // h; exfalso; apply: h; rewrite Rabs_R0; lra.
by rewrite /transform_disc h.
Qed.
Lemma resolved_disc b m : resolved b -> m <> (BinNums.Z0, BinNums.Z0) -> isclose0 (gof b m).1 && isclose0 (gof b m).2 = false.
Proof.
move=> hr hm; apply/negbTE/negP => h; have h1 := hr m.1 m.2; apply: (proj1 (isclose_zero _ _) h); apply: h1.
by rewrite -surjective_pairing.
Qed.
Lemma shape_value_moved J1 sh s r b m : (if sh is Disc _ _ _ then resolved b else True) ->
  shape_value J1 (shape_moved r sh) s (gof b m) = cexp (- (ci * RtoC (dot2 r (gof b m)))) * shape_value J1 sh s (gof b m).
Proof.
case: sh => [x0 y0 x1 y1 _|x y d hr| | ]; cbn [shape_moved shape_value]; rewrite ?mulr0 //.
  rewrite /transform_rectangle; move: (gof b m) => g.
  have -> : (x1 + r.1 - (x0 + r.1) = x1 - x0)%Re by ring.
  have -> : (y1 + r.2 - (y0 + r.2) = y1 - y0)%Re by ring.
  have -> : cexp (- ci * RtoC ((x0 + r.1) * g.1 + (y0 + r.2) * g.2)) = cexp (- (ci * RtoC (dot2 r g))) * cexp (- ci * RtoC (x0 * g.1 + y0 * g.2)).
    by rewrite -cexpD; congr cexp; rewrite /dot2; apply: C_ext => /=; ring.
  by rewrite [RHS]mulrCA.
have [em|hm] : m = (BinNums.Z0, BinNums.Z0) \/ m <> (BinNums.Z0, BinNums.Z0).
  by case: m => -[|p|p] [|q|q]; (by left) || (by right).
  rewrite em gof0 /= !disc_at0 (_ : dot2 r _ = 0%Re) ?mulr0 ?oppr0 ?cexp0 ?mul1r //; first by rewrite /dot2 /=; ring.
rewrite /transform_disc (resolved_disc hr hm); move: (gof b m) => g.
have -> : cexp (- ci * RtoC ((x + r.1) * g.1 + (y + r.2) * g.2)) = cexp (- (ci * RtoC (dot2 r g))) * cexp (- ci * RtoC (x * g.1 + y * g.2)).
  by rewrite -cexpD; congr cexp; rewrite /dot2; apply: C_ext => /=; ring.
by rewrite [RHS]mulrA; congr (_ * _); rewrite mulrCA.
Qed.
Lemma island_value_moved J1 e isl isl' host r m : islands_moved (e_reciprocal e) r isl isl' ->
  island_value J1 e isl' host m = cexp (- (ci * RtoC (dot2 r (gof (e_reciprocal e) m)))) * island_value J1 e isl host m.
Proof.
move=> [-> hr]; rewrite /island_value mulrDr; congr (_ + _).
  case: (boolP (Z.eqb m.1 _ && _)) => [/andP [/Z.eqb_spec e1 /Z.eqb_spec e2]|_]; last by rewrite mulr0.
  rewrite (surjective_pairing m) e1 e2 gof0 (_ : dot2 r _ = 0%Re) ?mulr0 ?oppr0 ?cexp0 ?mul1r //; rewrite /dot2 /=; ring.
rewrite big_map big_distrr /=; elim: isl hr => [|[sh x] isl IH] hr; first by rewrite !big_nil.
rewrite !big_cons IH; last by move=> h; apply: hr => /=; rewrite h orbT.
congr (_ + _); cbn [fst snd]; rewrite shape_value_moved; first by rewrite mulrCA.
by case: sh hr => // y z d hr; apply: hr.
Qed.
Lemma on_lattice_dot lat b x y m : reciproc lat.1 lat.2 = Ok b -> dot2 (on_lattice lat x y) (gof b m) = (2 * PI * (IZR m.1 * x + IZR m.2 * y))%Re.
Proof.
case: b => b1 b2 /reciproc_ok [_ [h1 h2 h3 h4]]; rewrite /on_lattice /gof /dot2 /=.
transitivity (x * IZR m.1 * dot2 lat.1 b1 + x * IZR m.2 * dot2 lat.1 b2 + y * IZR m.1 * dot2 lat.2 b1 + y * IZR m.2 * dot2 lat.2 b2)%Re.
  by rewrite /dot2; ring.
by rewrite h1 h2 h3 h4 /twopi; ring.
Qed.
Lemma moved_good r isl : (forall i, List.In i isl -> good_shape i.1 /\ i.2 <> 0) ->
  forall i : shape * C, List.In i [seq (shape_moved r i.1, i.2) | i <- isl] -> good_shape i.1 /\ i.2 <> 0.
Proof. by move=> h i /List.in_map_iff [q [<- /h]]; case: q => -[]. Qed.

Section MoveIslands.
Variables (n : nat) (u v : R) (pw : nat * nat) (lat : vec2 * vec2) (e : expansion) (J1 : R -> R).
Hypotheses (he : mk_expansion pw lat = Ok e) (se : e_size e = n).
Lemma move_isl r isl isl' host : islands_moved (e_reciprocal e) r isl isl' ->
  ((pw.1 = 1%N \/ pw.2 = 1%N) /\ r = on_lattice lat u v) \/ (pw.1 = pw.2 /\ r = on_lattice lat v u) ->
  frel (@phase n u v e) 1 e e J1 (ANALYTICAL isl host) (ANALYTICAL isl' host).
Proof.
move=> hm hr; have [hp [sg [n0 [o1 o2]]]] := expansion_size he; have hn : ((e_pw e).1 * (e_pw e).2)%N = n by [].
have [b [idx [hb _ ee]]] := mk_expansion_ok he; have eb : e_reciprocal e = b by rewrite ee.
have o1' : odd (e_pw e).1 by rewrite hp. have o2' : odd (e_pw e).2 by rewrite hp.
apply: island_rel => //.
- by case: hm => -> _; case: (isl).
- by case: hm => -> _; exact: moved_good.
move=> i j; rewrite !perm1 (island_value_moved J1 host _ hm) mulrAC; congr (_ * _).
have hpi (k : 'I_n) : (k < pw.1 * pw.2)%N by rewrite -hp hn.
rewrite /phase -ph_B /ph_at; congr cexp; congr (- (_ * RtoC _)).
rewrite hp; case: hr => [[hl ->]|[hl ->]]; rewrite eb (on_lattice_dot _ _ _ hb).
  rewrite (table_line o1 o2 (hpi i) (hpi j) hl hp) /diff; cbn [fst snd]; rewrite !minus_IZR -!INR_IZR_INZ; ring.
rewrite (table_square o1 (hpi i) (hpi j) hl hp) /diff; cbn [fst snd]; rewrite !minus_IZR -!INR_IZR_INZ; ring.
Qed.
End MoveIslands.

Lemma lattice_coordinates lat r : det2 lat.1 lat.2 <> 0%Re -> exists x y, r = on_lattice lat x y.
Proof.
case: lat r => [[a1 a2] [b1 b2]] [r1 r2]; rewrite /det2 /= => d.
exists ((r1 * b2 - r2 * b1) / (a1 * b2 - a2 * b1))%Re, ((a1 * r2 - a2 * r1) / (a1 * b2 - a2 * b1))%Re.
by rewrite /on_lattice /=; congr pair; field.
Qed.

Lemma move_device n eig J1 pw l x void epsi epse lat u v r ops ops' c0 c :
  eig_complete eig -> mk_crystal n pw l x void epsi epse = Ok c0 -> crystal_lattice x l = Ok lat ->
  ((pw.1 = 1%N \/ pw.2 = 1%N) /\ r = on_lattice lat u v) \/ (pw.1 = pw.2 /\ r = on_lattice lat v u) ->
  history eig J1 c0 ops c -> all_calls outer_call ops ->
  all_alike (picture_moved u v) (islands_moved (e_reciprocal (c_exp c0)) r) eq ops ops' ->
  exists c', history eig J1 c0 ops' c' /\
    forall Rs Ts, poynting_flux_orders c = Ok (Rs, Ts) -> poynting_flux_orders c' = Ok (Rs, Ts).
Proof.
move=> he /mk_crystal_ok [lat' [e [hl hx se ->]]] hl' hr; have el : lat' = lat by move: hl; rewrite hl' => -[].
rewrite el in hx; have [_ [sg [n0 _]]] := expansion_size hx; rewrite se in sg n0; cbn [c_exp crystal_of].
apply: (move_source (ph := phase u v e)) => // [i|q q' hq|i i' h hi]; [exact: ph_mod | exact: move_pic|].
exact: (move_isl J1 hx se _ hi hr).
Qed.

Lemma all_alike_impl (pic pic' : array2 -> array2 -> Prop) (isl isl' : seq (shape * C) -> seq (shape * C) -> Prop) (src : source_args -> source_args -> Prop) l l' :
  (forall q q', pic q q' -> pic' q q') -> (forall q q', isl q q' -> isl' q q') ->
  all_alike pic isl src l l' -> all_alike pic' isl' src l l'.
Proof.
move=> h1 h2; elim: l l' => [|o l IH] [|o' l'] //= [ho hl]; split; last exact: IH.
by move: ho; case: o; case: o' => //=; intros;
  try match goal with H : [/\ _, _ & _] |- _ => case: H => *; split; auto | H : [/\ _, _, _ & _] |- _ => case: H => *; split; auto end.
Qed.

Lemma move_islands n eig J1 pw l x void epsi epse r ops ops' c0 c :
  eig_complete eig -> mk_crystal n pw l x void epsi epse = Ok c0 ->
  pw.1 = 1%N \/ pw.2 = 1%N \/ pw.1 = pw.2 ->
  history eig J1 c0 ops c -> all_calls outer_call ops ->
  all_alike no_pictures (islands_moved (e_reciprocal (c_exp c0)) r) eq ops ops' ->
  exists c', history eig J1 c0 ops' c' /\
    forall Rs Ts, poynting_flux_orders c = Ok (Rs, Ts) -> poynting_flux_orders c' = Ok (Rs, Ts).
Proof.
move=> he hc hp hh ho ha; have [lat [e [hl hx se _]]] := mk_crystal_ok hc.
have [[b1 b2] [_ [/reciproc_ok [hd _] _ _]]] := mk_expansion_ok hx; have [y [z hr]] := lattice_coordinates r hd.
have [u [v hr']] : exists u v, ((pw.1 = 1%N \/ pw.2 = 1%N) /\ r = on_lattice lat u v) \/ (pw.1 = pw.2 /\ r = on_lattice lat v u).
  by case: hp => [h|[h|h]]; [exists y, z; left; split=> //; left | exists y, z; left; split=> //; right | exists z, y; right].
by apply: (move_device he hc hl hr' hh ho); apply: all_alike_impl ha.
Qed.
