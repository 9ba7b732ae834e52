(** Devices with layers of several lattices: reciprocity and energy. *)
From Coq Require Import Reals ZArith Lra Lia String.
From mathcomp Require Import all_ssreflect all_algebra.
From Coquelicot Require Import Complex Rbar.
From Verif Require Import Base ZmodTac CField CFun ModelRedheffer SpecScatter SpecStack RedhefferProofs ModelLayer SpecLayer SpecEig
  LayerProofs LayerApiProofs ModelExpansion SpecExpansion ExpansionProofs ModelFlux SpecFlux SpecEnergy EnergyAlg
  FluxProofs IncidentProofs OuterFlux ModelFourier SpecFourier FourierProofs ModelExtension ModelDevice SpecDevice
  StringEq DeviceProofs AnalyticalProofs DeviceEnergy HistoryProofs DepthProofs ModelFields SpecFields StackProofs SolvedProofs
  SpecExtension ExtensionProofs JoinProofs ExtendedProofs SpecReciprocity ReciprocityAlg ReciprocityProofs ExtendedSlab SpecTwisted.
Set Implicit Arguments. Unset Strict Implicit. Unset Printing Implicit Defensive.
Import GRing.Theory.
Local Open Scope ring_scope.

(** * Histories that only register objects satisfying a predicate *)
Section Gen.
Variables (eig : forall m, 'M[C]_m -> 'rV[C]_m * 'M[C]_m) (J1 : R -> R) (n : nat) (ei ee : C) (e : expansion).
Variable X : layer_obj -> Prop.
Hypothesis X_enable : forall b o, X o -> X (obj_enable b o).
Implicit Types (c : crystal n).
Definition gen_entry (k : string) (o : layer_obj) : Prop :=
  if k == Sref then exists l, [/\ o = Plain l, l_exp l = e & l_form l = HALF_SPACE_INC ei]
  else if k == Strans then exists l, [/\ o = Plain l, l_exp l = e & l_form l = HALF_SPACE_TRN ee]
  else X o.
Definition gen_dict (d : seq (string * entry n)) : Prop :=
  forall k x, dict_get d k = Some x -> gen_entry k x.1.
Record gen_crystal c : Prop := GenCrystal
  { n_void : c_void c = false; n_epsi : c_epsi c = ei; n_epse : c_epse c = ee;
    n_exp : c_exp c = e; n_built : built e; n_dict : gen_dict (c_layers c);
    n_src : forall src, c_source c = Some src ->
      c_kzi c = source_kzi (2 * PI / s_wl src)%Re (c_epsi c) (c_kp c);
    n_dev : forall dev, c_device c = Some dev ->
      dev.1.2 = Sref :: rcons dev.1.1 Strans /\ user_stack dev.1.1 }.
Definition gen_call (o : op) : Prop :=
  match o with
  | AddUniform name eps d => user_name name /\ X (Plain (layer_uniform e eps d))
  | AddPixmap name p d => user_name name /\ X (Plain (layer_pixmap e p d))
  | AddPixmapOrUniform name p d => user_name name /\ forall l, pixmap_or_uniform e p d = Ok l -> X (Plain l)
  | AddAnalytical name isl h d => user_name name /\ X (Plain (layer_analytical e isl h d))
  | AddLayer name l => user_name name /\ X (Plain l)
  | AddExtended name who l => user_name name /\ forall x, mk_extended e who l = Ok x -> X (Ext x)
  | SetDevice stack _ => user_stack stack
  | SetSource _ _ _ _ _ _ | Solve => True
  end.
Lemma gen_set d k x : gen_dict d -> gen_entry k x.1 -> gen_dict (dict_set d k x).
Proof. by move=> h hx k' y; rewrite dict_get_set; case: eqP => [<- [<-]|_ /h]. Qed.
Lemma gen_enable k b o : gen_entry k o -> gen_entry k (obj_enable b o).
Proof.
rewrite /gen_entry; case: eqP => _; last case: eqP => _.
- by case=> l [-> h1 h2]; exists (Layer (l_exp l) (l_form l) (l_depth l) (l_fields l || b)).
- by case=> l [-> h1 h2]; exists (Layer (l_exp l) (l_form l) (l_depth l) (l_fields l || b)).
- exact: X_enable.
Qed.
Lemma gen_enable_fields d l d' : gen_dict d -> enable_fields d l = Ok d' -> gen_dict d'.
Proof.
elim: l d => [|[name b] l IH] d hd /=; first by case=> <-.
case hg : (dict_get d name) => [x|//] /=; apply: IH; apply: gen_set => //=.
by apply: gen_enable; apply: hd hg.
Qed.
Lemma gen_default d req name type eps : gen_dict d ->
  gen_entry name (obj_enable true (Plain (half_infinite e type eps))) ->
  gen_dict (add_default d req name type e eps).
Proof. by move=> hd hx; rewrite /add_default; case: ifP => // _; apply: gen_set. Qed.
Lemma gen_add c k o : gen_crystal c -> user_name k -> X o -> gen_crystal (add_obj c k o).
Proof.
move=> g /user_neq [h1 h2] hX; case: g => *; split=> //; apply: gen_set => //=.
by rewrite /gen_entry h1 h2.
Qed.
Lemma created_gen c : created c false ei ee -> c_exp c = e -> gen_crystal c.
Proof.
case.
  case=> pw [l [a]]; rewrite /mk_crystal; case: (crystal_lattice a l) => [lat|//] /=.
  case he : (mk_expansion pw lat) => [e'|//] /=; case: ifP => // _ [<-] /= ee'.
  by split=> //=; rewrite -ee'; exact: built_init he.
case=> e' [l [a [he]]]; rewrite /from_expansion; case: (mk_crystal _ _ _ _ _ _ _) => [c0|//] /= [<-] /= ee'.
by split=> //=; rewrite -ee'.
Qed.
Lemma step_gen c o c' : gen_crystal c -> gen_call o -> step eig J1 c o c' -> gen_crystal c'.
Proof.
move=> g ho hs; case: hs ho => {o c'} /=.
- by move=> name eps d [u h]; apply: gen_add => //; rewrite (n_exp g).
- by move=> name p d [u h]; apply: gen_add => //; rewrite (n_exp g).
- move=> name p d c'; rewrite /add_pixmap_or_uniform (n_exp g); case: (pixmap_or_uniform _ _ _) => [l|//] /= [<-] [u h].
  by apply: gen_add => //; apply: h.
- by move=> name isl hst d [u h]; apply: gen_add => //; rewrite (n_exp g).
- by move=> name l [u h]; apply: gen_add.
- move=> name who l c'; rewrite /add_layer_extended (n_exp g); case: (mk_extended _ _ _) => [x|//] /= [<-] [u h].
  by apply: gen_add => //; apply: h.
- move=> stack mask c'; rewrite /set_device (n_void g).
  case hd : (enable_fields _ _) => [d|//] /= [<-] hu.
  split=> //=; try by case: g.
  + apply: gen_enable_fields hd; rewrite (n_exp g); apply: gen_default; first apply: gen_default.
    * exact: n_dict.
    * by eexists; split; [reflexivity|by []|rewrite /= (n_epsi g)].
    * by eexists; split; [reflexivity|by []|rewrite /= (n_epse g)].
  + by move=> dev [<-].
- move=> wl te tm th ph kp c'; rewrite /set_source.
  case: (match kp with Some _ => _ | None => _ end) => [k|//] /=.
  by destruct (Req_EM_T wl 0) as [h0|h0] => // -[<-] _; case: g => *; split=> //= src [<-].
- move=> order c' _ /solve_parts [src [dev [d [es [pos [Ss [st [[h1 h2 h3 h4] h5 h6 h7 ->]]]]]]]] _.
  have g' := g; case: g' => gv g1 g2 g3 g3' g4 g5 g6; split=> //=.
  move=> k x hx; have [_ /(_ k)] := solve_all_ok h3; case: ifP => _; last by rewrite hx => /esym /g4.
  by case=> x0 [s [k1 k2]]; rewrite hx => -[->] /=; apply: g4 k1.
Qed.
Lemma history_gen c ops c' : gen_crystal c -> all_calls gen_call ops -> history eig J1 c ops c' -> gen_crystal c'.
Proof.
move=> g h hh; elim: hh g h => {c ops c'} [//|c o ops c1 c2 hs _ IH] g [h1 h2]; apply: IH => //.
exact: step_gen hs.
Qed.

(** What a solved device holds. *)
Record solved_dev c c' (dev : seq string * seq string * seq bool) (src : source) (sol : solution n)
    (Ss : seq (smat C_fieldType (n + n))) : Prop := SolvedDev
  { v_keeps : [/\ c_device c' = c_device c, c_source c' = c_source c, c_kp c' = c_kp c & c_kzi c' = c_kzi c];
    v_dev : c_device c' = Some dev; v_src : c_source c' = Some src; v_sol : c_solution c' = Some sol;
    v_names : dev.1.2 = Sref :: rcons dev.1.1 Strans; v_user : user_stack dev.1.1;
    v_size : size Ss = size dev.1.2;
    v_layer : forall i S0, (i < size dev.1.2)%N -> exists o b s,
      [/\ dict_get (c_layers c) (nth ""%string dev.1.2 i) = Some (o, b),
          dict_get (c_layers c') (nth ""%string dev.1.2 i) = Some (o, Some s),
          obj_solve eig J1 n o (c_kp c') (s_wl src) = Ok s, sl_S s = Some (nth S0 Ss i) &
          gen_entry (nth ""%string dev.1.2 i) o];
    v_chain : chain (scattering_identity C_fieldType (n + n)) Ss = Ok (r_S sol) }.
Lemma solve_dev c c' : gen_crystal c -> step eig J1 c Solve c' ->
  exists dev src sol Ss, solved_dev c c' dev src sol Ss.
Proof.
move=> g hs; inversion hs as [| | | | | | | |order cc ho hsol ex]; subst cc.
move: hsol => /solve_parts [src [dev [d [es [pos [Ss [st [[h1 h2 h3 h4] h5 h6 h7 ->]]]]]]]].
have [eg us] := n_dev g h2.
exists dev, src, (Solution pos st.1.1 st.1.2 st.2), Ss.
have [hsz hn] := DepthProofs.mapM_get h4; have hS := mapM_size h6.
split=> //=; first by rewrite hS hsz.
  move=> i S0 hi; have hk : nth ""%string dev.1.2 i \in dev.1.2 by rewrite mem_nth.
  have [_ /(_ (nth ""%string dev.1.2 i))] := solve_all_ok h3.
  have -> : nth ""%string dev.1.2 i \in order by rewrite (perm_mem (ho _ h2)) mem_undup.
  case=> x [s [k1 k2]] k3; have k3' := k3; rewrite (hn i x hi) in k3' => {k3}.
  case: k3' => k3; exists x.1, x.2, s; split=> //.
  - by rewrite k1; case: (x).
  - by rewrite (hn i x hi) k3.
  - have hi' : (i < size es)%N by rewrite hsz.
    have := DeviceProofs.mapM_nth x S0 h6 hi'; rewrite k3 /entry_S /=; case: (sl_S s) => [S1|//] /= -[->].
    by [].
  - exact: n_dict k1.
exact: stack_chain h7.
Qed.
End Gen.

(** * Reciprocity *)
Section Recip.
Variables (eig : forall m, 'M[C]_m -> 'rV[C]_m * 'M[C]_m) (J1 : R -> R) (n : nat) (ei ee : C) (e : expansion).
Hypothesis heig : eigen_equation eig.
Variable X : layer_obj -> Prop.
Hypothesis X_enable : forall b o, X o -> X (obj_enable b o).
Implicit Types (c : crystal n).
Hypothesis X_recip : forall o kp kp' wl kx ky kz kx' ky' kz' f f' s s' Sm Sm', X o ->
  kp'.1 = - kp.1 -> kp'.2 = - kp.2 ->
  krows n e kp wl 1 = Ok (kx, ky, kz) -> krows n e kp' wl 1 = Ok (kx', ky', kz') ->
  free_space_eigenmodes kx ky = Ok f -> free_space_eigenmodes kx' ky' = Ok f' ->
  obj_solve eig J1 n o kp wl = Ok s -> obj_solve eig J1 n o kp' wl = Ok s' ->
  sl_S s = Some Sm -> sl_S s' = Some Sm' -> reciprocal f f' f f' Sm Sm'.
Variables (c ca ca' cb cb' : crystal n) (wl : R) (te tm te' tm' : C) (th ph th' ph' : R) (kp kp' : option (C * C)).
Hypothesis gc : gen_crystal ei ee e X c.
Hypotheses (a1 : step eig J1 c (SetSource wl te tm th ph kp) ca) (a2 : step eig J1 ca Solve ca').
Hypotheses (b1 : step eig J1 c (SetSource wl te' tm' th' ph' kp') cb) (b2 : step eig J1 cb Solve cb').
Hypotheses (o1 : (c_kp cb).1 = - (c_kp ca).1) (o2 : (c_kp cb).2 = - (c_kp ca).2).
Variables (sa sb : solution n) (mL mL' mR mR' : 'M[C]_(n + n) * 'M[C]_(n + n) * 'rV[C]_(n + n)).
Hypotheses (hsa : c_solution ca' = Some sa) (hsb : c_solution cb' = Some sb).
Hypotheses (hL : named_modes ca' Sref = Ok mL) (hL' : named_modes cb' Sref = Ok mL').
Hypotheses (hR : named_modes ca' Strans = Ok mR) (hR' : named_modes cb' Strans = Ok mR').
Local Notation I0 := (scattering_identity C_fieldType (n + n)).
Lemma gen_recip_full : exists VL VL' VR VR',
  [/\ VL' \in unitmx /\ VR' \in unitmx, mL.1 = (1%:M, VL) /\ mL'.1 = (1%:M, VL'), mR.1 = (1%:M, VR) /\ mR'.1 = (1%:M, VR'),
      VL^T *m Km n = - (Km n *m VL') /\ VR^T *m Km n = - (Km n *m VR') &
      reciprocal (1%:M, VL) (1%:M, VL') (1%:M, VR) (1%:M, VR') (r_S sa) (r_S sb)].
Proof.
have [ka1 ka2 ka3 ka4] := source_keeps a1; have [kb1 kb2 kb3 kb4] := source_keeps b1.
have ga := step_gen X_enable gc (I : gen_call e X (SetSource wl te tm th ph kp)) a1.
have gb := step_gen X_enable gc (I : gen_call e X (SetSource wl te' tm' th' ph' kp')) b1.
have [dev [sra [sa0 [Sa [[q1 q2 q3 _] ad asrc asol hn us p3 al p2]]]]] := solve_dev ga a2.
have [dev' [srb [sb0 [Sb [[r1 r2 r3 _] bd bsrc bsol _ _ q3' bl q2']]]]] := solve_dev gb b2.
have e1 : dev' = dev by move: ad bd; rewrite q1 r1 ka1 kb1 => -> [].
subst dev'.
have es : sa0 = sa by move: asol; rewrite hsa => -[].
subst sa0; have es' : sb0 = sb by move: bsol; rewrite hsb => -[].
subst sb0; set N := size dev.1.1.
have ewa : s_wl sra = wl by move: asrc; rewrite q2 ka4 => -[<-].
have ewb : s_wl srb = wl by move: bsrc; rewrite r2 kb4 => -[<-].
have hl i : (i < size dev.1.2)%N -> exists o s s',
  [/\ dict_get (c_layers ca') (nth ""%string dev.1.2 i) = Some (o, Some s) /\
      dict_get (c_layers cb') (nth ""%string dev.1.2 i) = Some (o, Some s'),
      obj_solve eig J1 n o (c_kp ca) wl = Ok s /\ sl_S s = Some (nth I0 Sa i),
      obj_solve eig J1 n o (c_kp cb) wl = Ok s' /\ sl_S s' = Some (nth I0 Sb i) &
      gen_entry ei ee e X (nth ""%string dev.1.2 i) o].
  move=> hi; have [o [b [s [g0 g1 g2 g3 g4]]]] := al i I0 hi; have [o' [b' [s' [g0' g1' g2' g3' g4']]]] := bl i I0 hi.
  have eo : o' = o by move: g0 g0'; rewrite ka2 kb2 => -> [].
  by subst o'; exists o, s, s'; rewrite -{1}q3 -r3 -{1}ewa -ewb.
have sz : size dev.1.2 = N.+2 by rewrite hn /= size_rcons.
have i0 : (0 < size dev.1.2)%N by rewrite sz.
have iN : (N.+1 < size dev.1.2)%N by rewrite sz.
have [l0' [s0 [s0' [[g0 g0'] [y0 y0s] [y0' y0s'] oe0]]]] := hl _ i0.
have [l1' [s1 [s1' [[g1 g1'] [y1 y1s] [y1' y1s'] oe1]]]] := hl _ iN.
have n0 : nth ""%string dev.1.2 0 = Sref by rewrite hn.
have n1 : nth ""%string dev.1.2 N.+1 = Strans by rewrite hn /= nth_rcons ltnn eqxx.
rewrite n0 in g0 g0' oe0; rewrite n1 in g1 g1' oe1.
case: oe0 => l0 [el0 le0 f0]; case: oe1 => l1 [el1 le1 f1]; subst l0' l1'; rewrite /= in y0 y0' y1 y1'.
have [kx [ky [kz [f [W0 [V0 [t0 [S0 [[z1 z2] z3 z4 [z5 z6 z7 z8]]]]]]]]]] := half_inv (or_introl f0) y0.
rewrite f0 => rf.
have [kx' [ky' [kz' [f' [W0' [V0' [t0' [S0' [[z1' z2'] z3' z4' [z5' z6' z7' z8']]]]]]]]]] := half_inv (or_introl f0) y0'.
rewrite f0 => rf'.
have [jx [jy [jz [h [W1 [V1 [t1 [S1 [[w1 w2] w3 w4 [w5 w6 w7 w8]]]]]]]]]] := half_inv (or_intror f1) y1.
rewrite f1 => tf.
have [jx' [jy' [jz' [h' [W1' [V1' [t1' [S1' [[w1' w2'] w3' w4' [w5' w6' w7' w8']]]]]]]]]] := half_inv (or_intror f1) y1'.
rewrite f1 => tf'.
rewrite le0 in z1 z1'; rewrite le1 in w1 w1'.
have [a3 a4] : jx = kx /\ jy = ky by move: w1; rewrite z1 => -[<- <- _].
have [b3 b4] : jx' = kx' /\ jy' = ky' by move: w1'; rewrite z1' => -[<- <- _].
subst jx jy jx' jy'.
have a5 : h = f by move: w2; rewrite z2 => -[].
have b5 : h' = f' by move: w2'; rewrite z2' => -[].
subst h h'.
have [ox oy] := krows_opposite (n_built gc) o1 o2 z1 z1'.
have modes k (cc : crystal n) l s m : dict_get (c_layers cc) k = Some (Plain l, Some s) -> named_modes cc k = Ok m ->
    sl_modes s = Some m.
  by move=> hg; rewrite /named_modes hg /=; case: (sl_modes s) => //= x [->].
have eL := z4 _ (modes _ _ _ _ _ g0 hL); have eL' := z4' _ (modes _ _ _ _ _ g0' hL').
have eR := w4 _ (modes _ _ _ _ _ g1 hR); have eR' := w4' _ (modes _ _ _ _ _ g1' hR').
subst W0 W0' W1 W1' t0 t0' t1 t1'.
exists V0, V0', V1, V1'; split.
- by rewrite (outer_unit z8' z7') (outer_unit w8' w7').
- by rewrite eL eL'.
- by rewrite eR eR'.
- by split; [exact: outer_sym ox oy z7 z7'|exact: outer_sym ox oy w7 w7'].
have iface0 : reciprocal (1%:M, V0) (1%:M, V0') f f' S0 S0'.
  by apply: interface_reciprocal => u1 u2 v1 v2 /=; [move/(reflection_continuity rf)|move/(reflection_continuity rf')].
have iface1 : reciprocal f f' (1%:M, V1) (1%:M, V1') S1 S1'.
  by apply: interface_reciprocal => u1 u2 v1 v2 /=; [move/(transmission_continuity tf)|move/(transmission_continuity tf')].
have mid i : (i < N)%N -> reciprocal f f' f f' (nth I0 Sa i.+1) (nth I0 Sb i.+1).
  move=> hi; have hi' : (i.+1 < size dev.1.2)%N by rewrite sz !ltnS ltnW.
  have [l [s [s' [_ [v1 v2] [v3 v4] v6]]]] := hl _ hi'.
  have hk : nth ""%string dev.1.2 i.+1 = nth ""%string dev.1.1 i by rewrite hn /= nth_rcons hi.
  have [u1 u2] : ((nth ""%string dev.1.1 i == Sref) = false) /\ ((nth ""%string dev.1.1 i == Strans) = false).
    by apply: user_neq; apply: us; rewrite mem_nth.
  rewrite /gen_entry hk u1 u2 in v6.
  exact: (X_recip v6 o1 o2 z1 z1' z2 z2' v1 v3 v2 v4).
have eS0 : nth I0 Sa 0 = S0 by move: y0s; rewrite z3 => -[].
have eS0' : nth I0 Sb 0 = S0' by move: y0s'; rewrite z3' => -[].
have eS1 : nth I0 Sa N.+1 = S1 by move: y1s; rewrite w3 => -[].
have eS1' : nth I0 Sb N.+1 = S1' by move: y1s'; rewrite w3' => -[].
have split_ends (Z : seq (smat C_fieldType (n + n))) : size Z = N.+2 ->
    exists2 Y, Z = nth I0 Z 0 :: rcons Y (nth I0 Z N.+1) & size Y = N.
  case: Z => [//|x Z] /=; case/lastP: Z => [//|Y y]; rewrite size_rcons => -[hY]; exists Y => //.
  by rewrite nth_rcons hY ltnn eqxx.
rewrite sz in p3 q3'.
have [Ya eYa sYa] := split_ends _ p3; have [Yb eYb sYb] := split_ends _ q3'.
have midY i : (i < N)%N -> reciprocal f f' f f' (nth I0 Ya i) (nth I0 Yb i).
  move=> hi; have := mid _ hi; rewrite {1}eYa {1}eYb /= !nth_rcons sYa sYb hi.
  by [].
move: p2 q2'; rewrite eYa eYb eS0 eS0' eS1 eS1' /= !rh_idL /= -!cats1 !chain_cat.
case c1 : (chain S0 Ya) => [T|//] /=; case c2 : (chain S0' Yb) => [T'|//] /=.
case rr1 : (redheffer_product T S1) => [U|//] /= [<-]; case rr2 : (redheffer_product T' S1') => [U'|//] /= [<-].
apply: (rh_recip rr1 rr2 _ iface1); apply: (chain_recip iface0 _ _ c1 c2); first by rewrite sYa.
move=> i; rewrite sYa => hi; have := midY i hi.
by rewrite (set_nth_default S0 I0) ?sYa // (set_nth_default S0' I0) ?sYb.
Qed.
Lemma gen_reciprocal : [/\ reciprocal mL.1 mL'.1 mR.1 mR'.1 (r_S sa) (r_S sb),
      nondegenerate mL.1 mL'.1 /\ nondegenerate mR.1 mR'.1 &
      forall a a' : 'cV[C]_(n + n),
      [/\ exchange mL.1 mL'.1 a (s12 (r_S sb) *m a') = exchange mR.1 mR'.1 (s21 (r_S sa) *m a) a',
          exchange mL.1 mL'.1 a (s11 (r_S sb) *m a') = exchange mL'.1 mL.1 a' (s11 (r_S sa) *m a) &
          exchange mR.1 mR'.1 (s22 (r_S sa) *m a) a' = exchange mR'.1 mR.1 (s22 (r_S sb) *m a') a]].
Proof.
have [VL [VL' [VR [VR' [[u1 u2] [-> ->] [-> ->] [h1 h2] h]]]]] := gen_recip_full; split=> //.
- by split; exact: exchange_nondeg.
- by move=> a a'; exact: reciprocal_blocks h1 h2 h a a'.
Qed.
End Recip.

(** * Slabs of the crystal's lattice and of its summands *)
Section Objects.
Variables (eig : forall m, 'M[C]_m -> 'rV[C]_m * 'M[C]_m) (J1 : R -> R) (n : nat) (e : expansion).
Hypothesis heig : eigen_equation eig.
Variable P : formulation -> R -> Prop.
Hypothesis P_slab : forall f d, P f d -> slab_form f.
Definition Xslab (o : layer_obj) : Prop :=
  match o with
  | Plain l => l_exp l = e /\ P (l_form l) (l_depth l)
  | Ext x => (exists lhs rhs, [/\ built lhs, built rhs, add_expansion lhs rhs = Ok e & ext_of lhs rhs x]) /\
             P (l_form (x_base x)) (l_depth (x_base x))
  end.
Lemma Xslab_enable b o : Xslab o -> Xslab (obj_enable b o).
Proof. by case: o => //= x [[lhs [rhs [h1 h2 h3 h4]]] h]; split=> //; exists lhs, rhs. Qed.
Lemma slab_gen o : slab_call P e o -> gen_call e Xslab o.
Proof.
case: o => //=.
- by move=> name eps d [h1 h2].
- by move=> name p d [h1 h2].
- move=> name p d [h1 h2 h3]; split=> // l; rewrite /pixmap_or_uniform; case: ifP => // _.
  by case: ifP => _ [<-].
- by move=> name isl h d [h1 h2].
- by move=> name l [h1 h2 h3].
move=> name who l [h1 [lhs [rhs [h2 h3 h4 h5]]] h6]; split=> // x.
have [_ hel _ _] := add_expansionE h4.
rewrite /mk_extended hel => hx; have [e1 wn] : x_base x = l /\ who <> IsNeither by move: hx; case: (who) => // -[<-].
split; last by rewrite e1.
exists lhs, rhs; split=> //; exists who; split=> //.
- by move: hx wn; case: (who) => // -[<-].
- by move: hx wn; case: (who) => // -[<-].
- by rewrite e1 h5; case: (who).
- by rewrite e1; exact: P_slab h6.
Qed.
Lemma slab_gens ops : all_calls (slab_call P e) ops -> all_calls (gen_call e Xslab) ops.
Proof. by elim: ops => [//|o ops ih] /= [/slab_gen h1 /ih h2]. Qed.

Lemma form_rev N ex f (Cm : 'M[C]_N) : form_matrix J1 ex f Cm -> Cm^T *m Rv N = Rv N *m Cm.
Proof.
case: f => //= [p|eps|isl h]; [exact: conv_matrix_rev|move=> ->; exact: scalar_rev|exact: analytical_rev].
Qed.
Lemma form_det N ex f (Cm Cm' : 'M[C]_N) : form_matrix J1 ex f Cm -> form_matrix J1 ex f Cm' -> Cm' = Cm.
Proof.
case: f => //= [p|eps|isl h]; [by move=> -> []|by move=> -> ->|by move=> -> []].
Qed.
Lemma Xslab_recip o kp kp' wl kx ky kz kx' ky' kz' f f' (s s' : solved n) Sm Sm' : built e -> Xslab o ->
  kp'.1 = - kp.1 -> kp'.2 = - kp.2 ->
  krows n e kp wl 1 = Ok (kx, ky, kz) -> krows n e kp' wl 1 = Ok (kx', ky', kz') ->
  free_space_eigenmodes kx ky = Ok f -> free_space_eigenmodes kx' ky' = Ok f' ->
  obj_solve eig J1 n o kp wl = Ok s -> obj_solve eig J1 n o kp' wl = Ok s' ->
  sl_S s = Some Sm -> sl_S s' = Some Sm' -> reciprocal f f' f f' Sm Sm'.
Proof.
move=> be; case: o => [l [h1 h2]|x [[lhs [rhs [h1 h2 h3 h4]]] hP]] o1 o2 hk hk' hf hf' /= hs hs' hS hS'.
  have bl : built (l_exp l) by rewrite h1.
  by apply: (layer_reciprocal heig o1 o2 bl (P_slab h2) _ _ hf hf' hs hs' hS hS'); rewrite h1; [exact: hk|exact: hk'].
have sl : size (e_g lhs) = e_size lhs by have [] := built_wf h1.
have sr : size (e_g rhs) = e_size rhs by have [] := built_wf h2.
have [_ [_ _ en _ _]] := extended_entries hs.
have [ox oy] := krows_opposite be o1 o2 hk hk'.
move: h4 (h4) => h4; move: kx ky kz kx' ky' kz' f f' s s' Sm Sm' hk hk' hf hf' hs hs' hS hS' ox oy; rewrite {}en.
move=> kx ky kz kx' ky' kz' f f' s s' Sm Sm' hk hk' hf hf' hs hs' hS hS' ox oy h5.
have [kx1 [ky1 [kz1 [f1 [Cm [W [V [lam [S1 [[a1 a2] a3 a4 [a5 a6] a7]]]]]]]]]] := extended_slab heig h3 sl sr h4 hs.
have [kx2 [ky2 [kz2 [f2 [Cm' [W' [V' [lam' [S2 [[b1 b2] b3 b4 [b5 b6] b7]]]]]]]]]] := extended_slab heig h3 sl sr h4 hs'.
have [e1 e2] : kx1 = kx /\ ky1 = ky by move: a1; rewrite hk => -[<- <- _].
have [e3 e4] : kx2 = kx' /\ ky2 = ky' by move: b1; rewrite hk' => -[<- <- _].
subst kx1 ky1 kx2 ky2.
have e5 : f1 = f by move: a2; rewrite hf => -[].
have e6 : f2 = f' by move: b2; rewrite hf' => -[].
have e7 : S1 = Sm by move: a3; rewrite hS => -[].
have e8 : S2 = Sm' by move: b3; rewrite hS' => -[].
subst f1 f2 S1 S2.
have e9 := form_det a7 b7; subst Cm'.
have hC := jn_rev (x_mode x) (form_rev a7).
have := slab_reciprocal (P_Km ox oy (inv_Rv a5 a5 hC)) (Q_Km ox oy hC) a6 b6 a4 b4.
by case: (f) => ? ?; case: (f') => ? ?.
Qed.
End Objects.

(** * Energy *)
Section Energy.
Variables (eig : forall m, 'M[C]_m -> 'rV[C]_m * 'M[C]_m) (J1 : R -> R) (n : nat) (ei ee : R) (e : expansion).
Hypothesis heig : eigen_equation eig.
Variable strict : bool.
Let le : R -> R -> Prop := if strict then eq else Rle.
Variable X : layer_obj -> Prop.
Hypothesis X_enable : forall b o, X o -> X (obj_enable b o).
Hypothesis X_diss : forall o kp wl (s : solved n) k f Sm, X o -> (0 < wl)%Re -> snd kp.1 = 0%Re -> snd kp.2 = 0%Re ->
  krows n e kp wl 1 = Ok k -> free_space_eigenmodes k.1.1 k.1.2 = Ok f ->
  obj_solve eig J1 n o kp wl = Ok s -> sl_S s = Some Sm -> dissipates le Sm (port_flux f.1 f.2) (port_flux f.1 f.2).
Local Notation I0 := (scattering_identity C_fieldType (n + n)).
Lemma gen_energy (c c' : crystal n) RT : gen_crystal (RtoC ei) (RtoC ee) e X c -> step eig J1 c Solve c' -> good_source c' ->
  poynting_flux_end c' = Ok RT -> le (RT.1 + RT.2)%Re 1%Re.
Proof.
move=> g hs [[src [hsrc hw]] [hx [hy hreg]]].
have g' := step_gen X_enable g (I : gen_call e X Solve) hs.
have [dev [src' [sol [Ss [[q1 q2 q3 _] ad asrc asol hn us p3 al p2]]]]] := solve_dev g hs.
have es : src' = src by move: asrc; rewrite hsrc => -[].
subst src'; set N := size dev.1.1.
have sz : size dev.1.2 = N.+2 by rewrite hn /= size_rcons.
have i0 : (0 < size dev.1.2)%N by rewrite sz.
have iN : (N.+1 < size dev.1.2)%N by rewrite sz.
have [lr' [br [sr [_ hr3 hr2 er oe0]]]] := al _ I0 i0.
have [lt' [bt [s_t [_ ht3 ht2 et oe1]]]] := al _ I0 iN.
have n0 : nth ""%string dev.1.2 0 = Sref by rewrite hn.
have n1 : nth ""%string dev.1.2 N.+1 = Strans by rewrite hn /= nth_rcons ltnn eqxx.
rewrite n0 in hr3 oe0; rewrite n1 in ht3 oe1.
case: oe0 => lr [elr her hfr]; case: oe1 => lt [elt het hft]; subst lr' lt'.
rewrite /= /layer_solve her in hr2; rewrite /= /layer_solve het in ht2.
move: hr2 ht2; case hk : (krows _ _ _ _ _) => [[[kx ky] kz]|//] /=.
case hf : (free_space_eigenmodes kx ky) => [[W0 V0]|//] /=; rewrite hfr hft.
case hr : (scattering_reflection _ _ _ _ _ _) => [[[[Sr Wr] Vr] Lr]|//] /=.
case: (one_over (RtoC ei)) => [icr|//] /= [hsr].
case ht : (scattering_transmission _ _ _ _ _ _) => [[[[St Wt] Vt] Lt]|//] /=.
case: (one_over (RtoC ee)) => [ict|//] /= [hst'].
have [_ eWr eLr hVr _] := reflection_inv hr; have [_ eWt eLt hVt _] := transmission_inv ht.
have eSr : nth I0 Ss 0 = Sr by move: er; rewrite -hsr; case: (l_fields lr) => -[].
have eSt : nth I0 Ss N.+1 = St by move: et; rewrite -hst'; case: (l_fields lt) => -[].
have [Y eY sY] : exists2 Y, Ss = Sr :: rcons Y St & size Y = N.
  rewrite sz in p3; rewrite -eSr -eSt; case: (Ss) p3 => [//|x Z] /=; case/lastP: Z => [//|Y y]; rewrite size_rcons => -[hY].
  by exists Y; rewrite // nth_rcons hY ltnn eqxx.
have le_reflx x : le x x by rewrite /le; case: (strict) => //; exact: Rle_refl.
have le_transx x y z : le x y -> le y z -> le x z.
  by rewrite /le; case: (strict); [move=> -> ->|exact: Rle_trans].
rewrite eY in p2.
have hdiss : dissipates le (r_S sol) (port_flux Wr Vr) (port_flux Wt Vt).
  apply: (device_diss le_reflx le_transx _ _ _ p2).
  - by apply: (@diss_conserves strict); apply: interface_conserves => a1 a2 b1 b2 /(reflection_continuity hr); apply.
  - by apply: (@diss_conserves strict); apply: interface_conserves => a1 a2 b1 b2 /(transmission_continuity ht); apply.
  have hY i : (i < size Y)%N -> dissipates le (nth I0 Y i) (port_flux W0 V0) (port_flux W0 V0).
    rewrite sY => hi; have hi' : (i.+1 < size dev.1.2)%N by rewrite sz !ltnS ltnW.
    have [o [b [s [_ _ v1 v2 v3]]]] := al _ I0 hi'.
    have hk' : nth ""%string dev.1.2 i.+1 = nth ""%string dev.1.1 i by rewrite hn /= nth_rcons hi.
    have [u1 u2] : ((nth ""%string dev.1.1 i == Sref) = false) /\ ((nth ""%string dev.1.1 i == Strans) = false).
      by apply: user_neq; apply: us; rewrite mem_nth.
    rewrite /gen_entry hk' u1 u2 in v3; rewrite eY /= nth_rcons sY hi in v2.
    exact: (X_diss v3 hw hx hy hk hf v1 v2).
  elim: (Y) hY => [|y Y' ih] hY; constructor; first exact: (hY 0%N).
  by apply: ih => i hi; exact: (hY i.+1).
rewrite /poynting_flux_end /poynting_flux_orders hsrc asol /get; cbn [bind]; rewrite (n_src g' hsrc).
case hinc : (incident _ _ _ _ _) => [inc|//]; cbn [bind].
rewrite /named_modes hr3 ht3 /=.
case hmr : (sl_modes sr) => [mr|//] /=.
have emr : mr = (Wr, Vr, Lr) by move: hmr; rewrite -hsr; case: (l_fields lr) => //= -[].
rewrite emr /= {1}eWr /inv unitmx1 /=.
case hmt : (sl_modes s_t) => [mt|//] /=.
have emt : mt = (Wt, Vt, Lt) by move: hmt; rewrite -hst'; case: (l_fields lt) => //= -[].
rewrite emt /= eWr eWt invmx1 !mul1mx (n_epsi g') (n_epse g') (n_exp g').
case hfT : (poynting_fluxes _ _ _ _ _ _) => [fT|//] /=.
case hfR : (poynting_fluxes _ _ _ _ _ _) => [fR|//] /= [<-] /=.
rewrite (n_epsi g') in hinc; rewrite eWr eWt in hdiss.
rewrite eLr in hVr; rewrite eLt in hVt.
move: hdiss; rewrite /le; case: (strict) => hdiss.
  apply: (balance_lossless hw hx hy (n_built g) hreg hk hVr hVt hinc hfR hfT erefl erefl).
  by move=> a1 a2 b1 b2 /hdiss ->.
exact: (balance_passive hw hx hy (n_built g) hreg hk hVr hVt hinc hfR hfT erefl erefl).
Qed.
End Energy.

Section EnergyObjects.
Variables (eig : forall m, 'M[C]_m -> 'rV[C]_m * 'M[C]_m) (J1 : R -> R) (n : nat) (e : expansion).
Hypothesis heig : eigen_equation eig.
Variable strict : bool.
Let le : R -> R -> Prop := if strict then eq else Rle.
Definition Pgood (f : formulation) (d : R) : Prop :=
  if strict then lossless_slab f else passive_slab f /\ (0 <= d)%Re.
Lemma Pgood_slab f d : Pgood f d -> slab_form f.
Proof. by rewrite /Pgood; case: strict; [|case]; case: f. Qed.
Lemma Pgood_form f d : Pgood f d -> good_form strict f /\ (if strict then True else (0 <= d)%Re).
Proof. by rewrite /Pgood /good_form; case: strict; [|case]; case: f. Qed.
Lemma form_good N ex f d (Cm : 'M[C]_N) : Pgood f d -> form_matrix J1 ex f Cm ->
  if strict then lossless_op Cm else passive_op Cm.
Proof.
rewrite /Pgood; case: strict => [|[+ _]]; last first.
  case: f => //= [p|eps]; first by move=> gf hC; exact: (conv_passive hC gf).
  by move=> gf ->; exact: scalar_passive.
case: f => //= [p|eps|isl h].
- by move=> gf hC; exact: (conv_lossless hC gf).
- by move=> gf ->; exact: scalar_lossless.
- by move=> [gh gi] hC; exact: (analytical_lossless gh gi hC).
Qed.
Lemma Xslab_diss o kp wl (s : solved n) k f Sm : Xslab e Pgood o -> (0 < wl)%Re -> snd kp.1 = 0%Re -> snd kp.2 = 0%Re ->
  krows n e kp wl 1 = Ok k -> free_space_eigenmodes k.1.1 k.1.2 = Ok f ->
  obj_solve eig J1 n o kp wl = Ok s -> sl_S s = Some Sm -> dissipates le Sm (port_flux f.1 f.2) (port_flux f.1 f.2).
Proof.
case: o => [l [h1 h2]|x [[lhs [rhs [h1 h2 h3 h4]]] hP]] hw hx hy hk hf /= hs hS.
  have [h3 h4] := Pgood_form h2; rewrite -h1 in hk.
  by have [S' e1 e2] := layer_good heig h3 h4 hw hx hy hk hf hs; move: hS; rewrite e1 => -[<-].
have sl : size (e_g lhs) = e_size lhs by have [] := built_wf h1.
have sr : size (e_g rhs) = e_size rhs by have [] := built_wf h2.
have [_ [_ _ en _ _]] := extended_entries hs.
move: k f s Sm hk hf hs hS; rewrite {}en => k f s Sm hk hf hs hS.
have [kx1 [ky1 [kz1 [f1 [Cm [W [V [lam [S1 [[a1 a2] a3 a4 [a5 a6] a7]]]]]]]]]] := extended_slab heig h3 sl sr h4 hs.
have ek : k = (kx1, ky1, kz1) by move: a1; rewrite hk => -[].
subst k; have e5 : f1 = f by move: a2; rewrite hf => -[].
have e7 : S1 = Sm by move: a3; rewrite hS => -[].
subst f1 S1; have [rx ry] := krows_real hx hy hk.
apply: (slab_good rx ry a5 a6 a4).
- by have := form_good hP a7; case: (strict); [exact: jn_lossless|exact: jn_passive].
- by apply: Rlt_le; apply: k0_pos.
- by have [] := Pgood_form hP.
Qed.
End EnergyObjects.
