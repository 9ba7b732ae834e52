(** Examples for C99-C102: a patterned film seen at normal incidence by its mean, and a
    plane wave at oblique incidence. *)
From Coq Require Import Reals ZArith Lra Lia String ClassicalEpsilon.
From mathcomp Require Import all_ssreflect all_fingroup all_algebra.
From Coquelicot Require Import Complex Rbar.
From Verif Require Import Base ZmodTac CField CFun Blk ModelRedheffer SpecScatter ModelLayer SpecLayer SpecEig SpecEnergy
  RedhefferProofs ScalarProofs NormalProofs SpecThinFilm ThinFilmProofs ModelExpansion SpecExpansion ExpansionProofs ModelFlux FluxProofs
  ModelFourier SpecFourier FourierProofs ModelExtension ModelDevice SpecDevice StringEq DeviceProofs DeviceEnergy FilmDevice
  HistoryProofs LayerRoutes DeviceExamples SpecScale ScaleExamples SpecSym SymDevice SymProofs TableProofs TurnProofs ObliqueProofs FieldsTheorems.
Set Implicit Arguments. Unset Strict Implicit. Unset Printing Implicit Defensive.
Import GRing.Theory.
Local Open Scope ring_scope.

(** * An eigensolver that finds a basis whenever there is one. *)
Definition full_eig (m : nat) (M : 'M[C]_m) : 'rV[C]_m * 'M[C]_m :=
  if is_scalar_mx M then scalar_eig M else
  match excluded_middle_informative (exists lW, diagonalises M lW) with
  | left h => proj1_sig (constructive_indefinite_description _ h)
  | right _ => (0, 0)
  end.
Lemma full_eig_ok : eig_complete full_eig.
Proof.
split=> [m M|m M lW hW]; rewrite /full_eig.
  case: ifP => _; first exact: scalar_eig_ok.
  case: excluded_middle_informative => h; last by rewrite mulmx0 mul0mx.
  by case: constructive_indefinite_description => q [_ /= hq].
case: is_scalar_mxP => [[a ->]|_]; first by rewrite scalar_eigE unitmx1.
case: excluded_middle_informative => h; last by case: h; exists lW.
by case: constructive_indefinite_description => q [/= hq _].
Qed.
Lemma full_eigE m (a : C) : full_eig (a%:M : 'M[C]_m) = (const_mx a, 1%:M).
Proof.
rewrite /full_eig scalar_eigE; case: is_scalar_mxP => // h; by case: h; exists a.
Qed.
Lemma full_scalar n (x : R) : (0 < x)%Re ->
  solve_structured_layer (@full_eig _) (0 : 'rV[C]_n) 0 (RtoC x * RtoC x)%:M
  = Ok (1%:M, RtoC x *: V0n n, twof (fun _ => ci * RtoC x)).
Proof.
move=> hx; rewrite -(structured_normal n hx) /solve_structured_layer.
case hi : (inv _) => [IC|//] /=.
have eI : IC = invmx (RtoC x * RtoC x)%:M by move: hi; rewrite /inv; case: ifP => // _ [<-].
by rewrite eI structured_M_normal // full_eigE.
Qed.

(** * A patterned film of mean permittivity x^2 on a substrate of index 2. *)
Section Film.
Variables (J1 : R -> R) (e : expansion) (f : formulation) (x : R) (te tm : C).
Hypotheses (hpw : e_pw e = (1%N, 1%N)) (hg : e_g e = [:: (0%Re, 0%Re)]) (hx : (0 < x)%Re) (pf : ~~ plain f)
  (hf : form_matrix 1 J1 e f = Ok (RtoC x * RtoC x)%:M) (hp : (te, tm) <> (0, 0)).
Notation w := (RtoC x). Notation wl := 1%Re. Notation d := 1%Re. Notation n1 := 1%Re. Notation n3 := 2%Re.
Notation k0 := (2 * PI / wl)%Re.
Notation phi := (cexp (- (ci * w * RtoC (d * k0)%Re))).
Notation S_film := (scS (1 + 1) (airy_r (RtoC n1) w (RtoC n3) phi) (airy_t (RtoC n3) w (RtoC n1) phi)
                  (airy_t (RtoC n1) w (RtoC n3) phi) (airy_r (RtoC n3) w (RtoC n1) phi)).
Lemma pw1 : (0 < n1)%Re. Proof. lra. Qed.
Lemma pw2 : (0 < n3)%Re. Proof. lra. Qed.
Lemma pw0 : (0 <= d)%Re. Proof. lra. Qed.
Lemma px : (0 < fst w)%Re. Proof. exact: hx. Qed.
Lemma px' : (snd w <= 0)%Re. Proof. by rewrite /=; lra. Qed.
Lemma patt_layer : exists s, layer_solve full_eig J1 1 (Layer e f d true) (0, 0) wl = Ok s /\ sl_S s = Some (film_sc (1 + 1) w phi).
Proof.
have u : ((w * w)%:M : 'M[C]_1) \in unitmx.
  by apply: scal_unit; rewrite mulf_neq0 // RtoC_neq0 //; lra.
have hwl : (wl <> 0)%Re by lra.
rewrite /layer_solve; cbn [l_exp l_depth l_form l_fields]; have [kz [-> _]] := film_krows hpw hg 1 hwl.
rewrite /bind free_normal.
move: hf pf; case: (f) => //= [A|isl h]; rewrite /form_matrix => -> _;
  rewrite /inv u full_scalar //= (film_api _ px px' (hdk pw0 pw1)) /=; eexists; split; reflexivity.
Qed.
Notation film := "film"%string.
Definition pat_crystal a b c sol : crystal 1 :=
  Crystal false (RtoC (n1 * n1)%Re) (RtoC (n3 * n3)%Re) e
    [:: (film, (Plain (Layer e f d true), a)); (Sref, inc_entry e 1 b); (Strans, trn_entry e 2 c)]
    (Some ([:: film], [:: Sref; film; Strans], [:: true; true; true]))
    (Some (Source te tm 0 0 wl)) (0, 0) (RtoC (k0 * n1)%Re) sol.
Notation c0 := (crystal_of 1 e false (RtoC (n1 * n1)%Re) (RtoC (n3 * n3)%Re)).
Definition pat_rest := [:: SetDevice [:: film] (inl true); SetSource wl te tm 0%Re 0%Re None; Solve].
Lemma pat_history o : step full_eig J1 c0 o (add_layer c0 film (Layer e f d false)) ->
  exists a b t sol, history full_eig J1 c0 (o :: pat_rest) (pat_crystal a b t (Some sol)) /\
    is_ok (poynting_flux_orders (pat_crystal a b t (Some sol))).
Proof.
move=> ho; have [s [hs hS]] := patt_layer.
have hdk1 := hdk pw0 pw1.
have [S1 [p1 p2]] := @whole_api 1 w d k0 px px' hdk1 n1 n3 pw1 pw2.
have [S2 p3] : is_ok (redheffer_product (film_sc (1 + 1) w phi) (trn_sc (1 + 1) (RtoC n3))).
  have [S2 [q1 q2]] := @whole_api 1 w d k0 px px' hdk1 1%Re n3 Rlt_0_1 pw2.
  have ei : inc_sc (1 + 1) (RtoC 1) = scattering_identity C_fieldType (1 + 1).
    have t0 := two_neq0.
    rewrite /inc_sc /scS /scattering_identity -[RtoC 1]/(1 : C) subrr !mul0r mulr1 divff //.
    by rewrite raddf0.
  by move: q1 q2; rewrite ei rh_idL => -[->] ->; eexists.
have [sol [hst hSS]] : exists sol, step full_eig J1 (pat_crystal None None None None) Solve
    (pat_crystal (Some s) (Some (inc_solved n1)) (Some (trn_solved n3)) (Some sol)) /\ r_S sol = S_film.
  eexists; split.
    apply: (step_solve (order := [:: Sref; film; Strans])).
      by move=> dev [<-]; rewrite perm_refl.
    rewrite /crystal_solve /pat_crystal /= (inc_layer full_eig J1 hpw hg pw1 pw1) /= hs /= (trn_layer full_eig J1 hpw hg pw2 pw1) /= /entry_S /= hS /=.
    rewrite /stack_layers /= rh_idL /= p1 /= p2 /= rh_idR /= p3 /=; reflexivity.
  by [].
do 3 eexists; exists sol; split.
  apply: (history_cons ho).
  eapply history_cons; first by eapply step_device; rewrite /set_device /=; reflexivity.
  eapply history_cons; last by eapply history_cons; [exact: hst|constructor].
  apply: step_source; rewrite /set_source /= (film_kplanar pw1) /=; destruct (Req_EM_T 1 0) as [h|h]; first by exfalso; lra.
  by have [-> _] := film_kzi (k0_pos pw1) pw1.
have := film_fluxes hpw hg d w pw1 pw2 pw1 hp (Some (film_solved d wl w)) hSS erefl erefl.
rewrite /poynting_flux_end.
have -> : poynting_flux_orders (film_crystal e n1 n3 d wl w te tm (Some (film_solved d wl w)) (Some (inc_solved n1)) (Some (trn_solved n3)) (Some sol))
  = poynting_flux_orders (pat_crystal (Some s) (Some (inc_solved n1)) (Some (trn_solved n3)) (Some sol)) by [].
by case: (poynting_flux_orders _) => [q|//] _; eexists.
Qed.
Lemma pat_outer o : outer_call o -> all_calls outer_call (o :: pat_rest).
Proof. by move=> ho; split=> //; split; [exact: film_stack|do 2 split=> //]. Qed.
End Film.

(** * The unit square lattice. *)
Definition unit_square : vec2 * vec2 := ((1, 0), (0, 1))%Re.
Lemma unit_exp epsi epse : exists e, [/\ mk_crystal 1 (1, 1)%N (LatticeVectors unit_square) 1 false epsi epse = Ok (crystal_of 1 e false epsi epse),
  e_pw e = (1, 1)%N, e_g e = [:: (0, 0)%Re], e_sigma e = 1%Re & e_reciprocal e = ((2 * PI, 0), (0, 2 * PI))%Re].
Proof.
have [r hr] : is_ok (reciproc (1, 0)%Re (0, 1)%Re).
  by rewrite /reciproc; cbn [fst snd]; destruct (Req_EM_T _ 0) as [h|h]; [exfalso; move: h; lra|eexists].
have er : r = ((2 * PI, 0), (0, 2 * PI))%Re.
  move: hr; rewrite /reciproc; cbn [fst snd]; destruct (Req_EM_T _ 0) as [h|h] => // -[<-].
  by rewrite /twopi; congr ((_, _), (_, _)); field.
have [idx hi] : is_ok (generate_expansion_indices (1, 1)%N) by apply: indices_def.
have hx : is_ok (mk_expansion (1, 1)%N unit_square) by rewrite /mk_expansion; cbn [fst snd]; rewrite hr hi; eexists.
case: hx => e hx; exists e; have [r' [idx' [hr' hi' ee]]] := mk_expansion_ok hx.
have hb := built_init hx; have [hp [sg [n0 _]]] := expansion_size hx.
split=> //.
- by rewrite /mk_crystal; cbn [crystal_lattice bind]; rewrite hx; cbn [bind]; rewrite /e_size hp.
- have [s c _] := built_centred hb; rewrite hp /= in s.
  by rewrite s /= /gth in c; move: s c; case: (e_g e) => [//|y [|]] //= _ ->.
- by rewrite ee /=; rewrite /unitcellarea /=; rewrite (_ : (_ - _ = 1)%Re); [rewrite Rabs_R1|ring].
by rewrite ee /= -er; move: hr'; cbn [unit_square fst snd]; rewrite hr => -[].
Qed.
Lemma unit_resolved : resolved ((2 * PI, 0), (0, 2 * PI))%Re.
Proof. by apply: resolved_square; have := PI2_1; lra. Qed.

(** Pictures and islands of known mean. *)
Section Mean.
Variables (J1 : R -> R) (e : expansion).
Hypotheses (hpw : e_pw e = (1%N, 1%N)).
Lemma picture_mean A x : (0 < a_rows A)%N -> (0 < a_cols A)%N -> \sum_(i < a_rows A) \sum_(j < a_cols A) a_at A i j = RtoC (x * x * INR (a_rows A * a_cols A)) ->
  form_matrix 1 J1 e (FFT A) = Ok (RtoC x * RtoC x)%:M.
Proof.
move=> r0 c0 hs; have ff : ((1 <= (a_rows A + 1) %/ 2) && (1 <= (a_cols A + 1) %/ 2))%N.
  by rewrite !divn_gt0 // !addn1 !ltnS r0 c0.
have := @conv_domain 1 A (1, 1)%N erefl isT r0 c0; cbn [fst snd]; rewrite ff => -[M hM].
rewrite /form_matrix hpw hM; congr Ok; apply/matrixP => i j; rewrite !ord1 (conv_entry hM) [RHS]mxE eqxx mulr1n /fourier_coef.
rewrite !Z.sub_diag.
under eq_bigr => k _ do under eq_bigr => m _ do rewrite !wave0 !mulr1.
rewrite hs RtoC_mult; have n0 : INR (a_rows A * a_cols A) <> 0%Re.
  by apply: not_0_INR => h; move: (muln_gt0 (a_rows A) (a_cols A)); rewrite h r0 c0.
by rewrite -[Cmult _ _]/(RtoC (x * x) * RtoC (INR (a_rows A * a_cols A))) mulfK ?RtoC_neq0 // RtoC_sqr.
Qed.
Lemma disc_mean y z : e_sigma e = 1%Re -> e_reciprocal e = ((2 * PI, 0), (0, 2 * PI))%Re ->
  form_matrix 1 J1 e (ANALYTICAL [:: (Disc y z (1 / 4), RtoC 12)] 1) = Ok (RtoC (sqrt (1 + 11 * PI / 16)) * RtoC (sqrt (1 + 11 * PI / 16)))%:M.
Proof.
move=> es er; have o1 : odd (e_pw e).1 by rewrite hpw.
have o2 : odd (e_pw e).2 by rewrite hpw.
have hn : ((e_pw e).1 * (e_pw e).2)%N = 1%N by rewrite hpw.
have [M hM] : is_ok (analytical_matrix J1 1 e [:: (Disc y z (1 / 4), RtoC 12)] 1).
  apply/(analytical_iff J1 _ _ o1 o2 hn); rewrite es; split; [exact: R1_neq_R0 | by [] | by move/(congr1 fst) => /=; exact: R1_neq_R0 | ].
  by move=> i [<-|//]; split; [rewrite /=; lra | move/(congr1 fst) => /=; lra].
rewrite /form_matrix hM; congr Ok; apply/matrixP => i j; rewrite (analytical_value o1 o2 hn hM) !ord1 [RHS]mxE eqxx mulr1n.
rewrite -[_ * _]RtoC_mult sqrt_sqrt; last by have := PI_RGT_0; lra.
have -> : table_index e (0 : 'I_1) (0 : 'I_1) = (BinNums.Z0, BinNums.Z0) by rewrite /table_index hpw.
rewrite /island_value er es big_cons big_nil addr0 /shape_value /transform_disc /gof; cbn [fst snd Z.eqb andb].
have e0 : (0 * (2 * PI) + 0 * 0 = 0)%Re by ring.
have e1 : (0 * 0 + 0 * (2 * PI) = 0)%Re by ring.
rewrite e0 e1 /isclose0 Rabs_R0; destruct (Rle_dec 0 (1 / 100000000)) as [h|h]; last by exfalso; apply: h; lra.
by apply: C_ext => /=; field.
Qed.
End Mean.

(** * Devices that solve. *)
Definition ramp : array2 := Array2 3 3 (fun x _ => RtoC (1 + 3 * INR x)).
Definition ramp_moved : array2 := Array2 3 3 (fun x _ => RtoC (1 + 3 * INR ((x + 2) %% 3))).
Definition ramp_transposed : array2 := Array2 3 3 (fun _ y => RtoC (1 + 3 * INR y)).
Definition ramp_reversed : array2 := Array2 3 3 (fun x _ => RtoC (1 + 3 * INR ((3 - x) %% 3))).
Definition bump : array2 := Array2 3 3 (fun x y => RtoC (1 + 3 / 2 * (INR x + INR y))).
Definition with_picture (A : array2) (te tm : C) : seq op := AddPixmap "film" A 1 :: pat_rest te tm.
Definition with_disc (y z : R) (te tm : C) : seq op := AddAnalytical "film" [:: (Disc y z (1 / 4), RtoC 12)] 1 1 :: pat_rest te tm.
Definition one_order := mk_crystal 1 (1, 1)%N (LatticeVectors unit_square) 1 false (RtoC (1 * 1)) (RtoC (2 * 2)).

Lemma ramp_mean : \sum_(i < 3) \sum_(j < 3) a_at ramp i j = RtoC (2 * 2 * INR 9).
Proof. by rewrite !big_ord_recl !big_ord0 /= /bump /=; apply: C_ext => /=; ring. Qed.
Lemma bump_mean : \sum_(i < 3) \sum_(j < 3) a_at bump i j = RtoC (2 * 2 * INR 9).
Proof. by rewrite !big_ord_recl !big_ord0 /=; apply: C_ext => /=; field. Qed.
Lemma picture_device J1 A te tm : (te, tm) <> (0, 0) -> a_rows A = 3%N -> a_cols A = 3%N ->
  \sum_(i < 3) \sum_(j < 3) a_at A i j = RtoC (2 * 2 * INR 9) -> exists (c0 c : crystal 1) RT,
  [/\ one_order = Ok c0, history full_eig J1 c0 (with_picture A te tm) c, all_calls outer_call (with_picture A te tm),
      c_kp c = (0, 0) & poynting_flux_orders c = Ok RT].
Proof.
move=> hp er ec hs; have [e [h1 h2 h3 h4 h5]] := unit_exp (RtoC (1 * 1)) (RtoC (2 * 2)).
have p2 : (0 < 2)%Re by lra.
have hf : form_matrix 1 J1 e (FFT A) = Ok (RtoC 2 * RtoC 2)%:M by apply: picture_mean; rewrite ?er ?ec.
have [a [b [t [sol [hh [RT hR]]]]]] := pat_history (f := FFT A) h2 h3 p2 isT hf hp (step_pixmap _ _ _ "film" A 1).
by do 2 eexists; exists RT; split; [exact: h1 | exact: hh | exact: pat_outer | by [] | exact: hR].
Qed.
Lemma disc_device J1 y z te tm : (te, tm) <> (0, 0) -> exists (c0 c : crystal 1) RT,
  [/\ one_order = Ok c0, history full_eig J1 c0 (with_disc y z te tm) c, all_calls outer_call (with_disc y z te tm) &
      [/\ c_kp c = (0, 0), e_reciprocal (c_exp c0) = ((2 * PI, 0), (0, 2 * PI))%Re & poynting_flux_orders c = Ok RT]].
Proof.
move=> hp; have [e [h1 h2 h3 h4 h5]] := unit_exp (RtoC (1 * 1)) (RtoC (2 * 2)).
have hf := disc_mean J1 h2 y z h4 h5; have p0 := PI_RGT_0.
have p2 : (0 < sqrt (1 + 11 * PI / 16))%Re by apply: sqrt_lt_R0; lra.
have [a [b [t [sol [hh [RT hR]]]]]] := pat_history (f := ANALYTICAL _ _) h2 h3 p2 isT hf hp (step_analytical _ _ _ "film" _ _ 1).
by do 2 eexists; exists RT; split; [exact: h1 | exact: hh | exact: pat_outer | split; [by [] | exact: h5 | exact: hR]].
Qed.

(** Oblique incidence. *)
Lemma oblique_device J1 : exists (c0 c : crystal 1) RT,
  [/\ mk_crystal 1 (1, 1)%N (LatticeVectors unit_square) 1 false 1 1 = Ok c0, history full_eig J1 c0 (obl_calls ++ [:: Solve]) c,
      all_calls outer_call (obl_calls ++ [:: Solve]), oblique (c_kp c) & poynting_flux_orders c = Ok RT].
Proof.
have [e [h1 h2 h3 h4 h5]] := unit_exp 1 1; have [V hF hV] := obl_modes; have hp := PI_RGT_0.
have [ef hi _] := obl_incident.
have wl0 : (2 * PI <> 0)%Re by lra.
have hfl (v : 'cV[C]_(1 + 1)) : is_ok (poynting_fluxes e v (RtoC (3 / 5), RtoC 0) (2 * PI)%Re 1 1).
  have [kz hk] := obl_krows h2 h3.
  rewrite /poynting_fluxes; destruct (Req_EM_T (2 * PI) 0) as [h|h]; first by [].
  rewrite hk; cbn [bind]; rewrite /flux_kzi -[Cconj _]/(source_kzi _ _ _) obl_kzi wl_k0.
  destruct (Req_EM_T _ 0) as [h'|h']; first by exfalso; move: h'; rewrite divr1 /=; lra.
  rewrite ifF; first by eexists.
  apply/negbTE; rewrite negb_exists; apply/forallP => j.
  have -> := @OuterFlux.krows_half 1 e (RtoC (3 / 5), RtoC 0) (2 * PI)%Re _ erefl erefl 1%Re okx oky kz; rewrite -?oneCE //; last lra.
  by cbn [snd]; rewrite obl_kz mxE; apply/eqP => /(congr1 fst) /=; lra.
have [RT hR] : is_ok (poynting_flux_orders (obl_done e V)).
  rewrite /poynting_flux_orders; cbn [obl_done c_solution c_source c_kp c_kzi c_exp c_epsi c_epse obl_crystal get bind omap obind oapp fst snd s_te s_tm s_wl].
  rewrite obl_kzi hi; cbn [bind]; rewrite /named_modes /=; rewrite /inv unitmx1; cbn [bind fst snd].
  set u := _ *m _ *m _; have [T ->] := hfl u; cbn [bind]; set w := _ *m _ *m _; have [R' ->] := hfl w.
  by eexists.
exists (crystal_of 1 e false 1 1), (obl_done e V), RT; split=> //.
- by apply: history_cat; [exact: obl_setup|]; eapply history_cons; [exact: (obl_solve full_eig J1 h2 h3 hF hV)|constructor].
rewrite /oblique /in_plane; cbn [obl_done obl_crystal c_kp fst snd RtoC].
rewrite (_ : (_ + _ = 3 / 5 * (3 / 5))%Re); last ring.
by rewrite sqrt_square; lra.
Qed.

(** * The same devices described differently. *)
Lemma te1 : (1 : C, 0 : C) <> (0, 0). Proof. by case=> h; move: h; have := R1_neq_R0. Qed.
Lemma ex_moved te tm : all_alike (picture_moved (1 / 3) 0) no_islands eq (with_picture ramp te tm) (with_picture ramp_moved te tm).
Proof.
split; last by do 3 split=> //.
split=> //; split=> //; exists 1%N, 0%N; split; [by rewrite /=; field | by rewrite /=; ring|].
by move=> x y hx _; move: x hx => [|[|[|//]]].
Qed.
Lemma ex_islands r te tm : resolved r -> all_alike no_pictures (islands_moved r (1 / 8, 1 / 16)%Re) eq (with_disc 0 0 te tm) (with_disc (0 + 1 / 8) (0 + 1 / 16) te tm).
Proof. by move=> hr; split; [split | do 3 split=> //]. Qed.
Lemma ex_device r te tm : resolved r -> all_alike (picture_moved (1 / 8) (1 / 16)) (islands_moved r (on_lattice unit_square (1 / 8) (1 / 16)%Re)) eq (with_disc 0 0 te tm) (with_disc (0 + 1 / 8) (0 + 1 / 16) te tm).
Proof.
move=> hr; split; last by do 3 split=> //.
split=> //; split=> //=; rewrite /on_lattice /=; congr [:: (Disc _ _ _, _)]; ring.
Qed.
Lemma ex_transposed te tm isl : all_alike picture_transposed isl eq (with_picture ramp te tm) (with_picture ramp_transposed te tm).
Proof. by split; [split | do 3 split=> //]. Qed.
Lemma ex_reversed te tm isl : all_alike picture_reversed isl eq (with_picture ramp te tm) (with_picture ramp_reversed te tm).
Proof.
split; last by do 3 split=> //.
split=> //; split=> // x y; case: x => [|[|[|//]]] _ hy //=; by congr RtoC.
Qed.
Lemma ex_symmetric r : all_alike picture_symmetric (islands_symmetric (1, 1)%N r) source_exchanged (with_picture bump 1 0) (with_picture bump 0 1).
Proof.
split; last by do 3 split=> //.
split=> //; split=> //; split=> // x y _ _; rewrite /bump; cbn [a_at]; by rewrite (Rplus_comm (INR y)).
Qed.
(** Discs a quarter turn further, at normal incidence: the direction at 0 degrees goes to -90 degrees. *)
Lemma iso_quarter : isometry 0 1 1. Proof. by split; [ring|left]. Qed.
Lemma minus90 : (cos (deg2rad (-90)), sin (deg2rad (-90))) = turn 0 1 1 (cos (deg2rad 0), sin (deg2rad 0)).
Proof.
have e0 : deg2rad 0 = 0%Re by rewrite /deg2rad; field.
have e1 : deg2rad (-90) = (- (PI / 2))%Re by rewrite /deg2rad; field.
by rewrite e0 e1 cos_neg sin_neg cos_PI2 sin_PI2 cos_0 sin_0 /turn /=; congr pair; ring.
Qed.
Lemma turned_resolved : resolved (turn 0 1 1 (2 * PI, 0)%Re, turn 0 1 1 (0, 2 * PI)%Re).
Proof.
move=> i j h; have := @unit_resolved i j h; rewrite /turn; cbn [fst snd].
have -> : (IZR i * (0 * (2 * PI) + 1 * 0) + IZR j * (0 * 0 + 1 * (2 * PI)) = IZR i * 0 + IZR j * (2 * PI))%Re by ring.
have -> : (IZR i * (- (1 * 1) * (2 * PI) + 1 * 0 * 0) + IZR j * (- (1 * 1) * 0 + 1 * 0 * (2 * PI)) = - (IZR i * (2 * PI) + IZR j * 0))%Re by ring.
by rewrite Rabs_Ropp; case=> h'; [right|left].
Qed.
Definition disc_turned (te tm : C) : seq op :=
  [:: AddAnalytical "film" [:: (Disc (0 * (1 / 8) + 1 * 0) (- (1 * 1) * (1 / 8) + 1 * 0 * 0) (1 / 4), RtoC 12)] 1 1; SetDevice [:: "film"%string] (inl true);
      SetSource 1 (turn_kp 0 1 1 (te, tm)).1 (turn_kp 0 1 1 (te, tm)).2 0 (-90) None; Solve].
Lemma ex_turned_islands : islands_turned 0 1 1 ((2 * PI, 0), (0, 2 * PI))%Re [:: (Disc (1 / 8) 0 (1 / 4), RtoC 12)]
  [:: (Disc (0 * (1 / 8) + 1 * 0) (- (1 * 1) * (1 / 8) + 1 * 0 * 0) (1 / 4), RtoC 12)].
Proof. by split=> //; [move=> i [<-|//] | exact: unit_resolved | exact: turned_resolved]. Qed.
Lemma ex_turned pic (isl : seq (shape * C) -> seq (shape * C) -> Prop) te tm : (forall i i', islands_turned 0 1 1 ((2 * PI, 0), (0, 2 * PI))%Re i i' -> isl i i') ->
  all_alike pic isl (source_turned_normal 0 1 1) (with_disc (1 / 8) 0 te tm) (disc_turned te tm).
Proof.
move=> hi; split; first by split=> //; apply: hi; exact: ex_turned_islands.
split=> //; split; last by split.
split=> //; split; first by [].
by split=> //; exact: minus90.
Qed.
Lemma normal0 : near_normal (0, 0).
Proof. by rewrite /near_normal /in_plane /= !Rmult_0_l !Rplus_0_r sqrt_0; lra. Qed.
(** A reflection at oblique incidence. *)
Lemma iso_slanted : isometry (3 / 5) (4 / 5) (-1). Proof. by split; [field|right]. Qed.
Definition obl_turned : seq op :=
  [:: SetDevice [::] (inl true); SetSource (2 * PI) (RtoC (-1) * 0) 1 0 0 (Some (turn_kp (3 / 5) (4 / 5) (-1) (RtoC (3 / 5), RtoC 0))); Solve].
Lemma ex_oblique pic isl : all_alike pic isl (source_turned (3 / 5) (4 / 5) (-1)) (obl_calls ++ [:: Solve]) obl_turned.
Proof. by do 3 split=> //. Qed.
