(** Proofs for C116: piles of the same profile in a crystal. *)
From Coq Require Import Reals String Lra.
From mathcomp Require Import all_ssreflect all_algebra.
From Coquelicot Require Import Complex Rbar.
From Verif Require Import Base ZmodTac CField CFun ModelRedheffer SpecScatter RedhefferProofs ModelLayer SpecLayer Blk LayerProofs
  LayerCProofs UniformProofs ModelExpansion ModelFlux ModelFourier ModelDevice SpecDevice StringEq DeviceProofs HistoryProofs
  SpecProfile ProfileProofs.
Set Implicit Arguments. Unset Strict Implicit. Unset Printing Implicit Defensive.
Import GRing.Theory.
Local Open Scope ring_scope.

(** * Chains as relations between waves *)
Section Chain.
Variable n : nat.
Notation S_t := (smat C_fieldType (n + n)).
Implicit Types (l : seq S_t) (a b : 'cV[C]_(n + n)).

Fixpoint scat_all l (cp a2 cm b2 : 'cV[C]_(n + n)) : Prop :=
  match l with
  | [::] => cp = b2 /\ cm = a2
  | S1 :: r => exists dp dm, scatters S1 cp dm cm dp /\ scat_all r dp a2 dm b2
  end.
Lemma chain_scat l S0 S a1 a2 b1 b2 : chain S0 l = Ok S ->
  scatters S a1 a2 b1 b2 <-> exists cp cm, scatters S0 a1 cm b1 cp /\ scat_all l cp a2 cm b2.
Proof.
elim: l S0 => [|S1 l IH] S0 /=.
  case=> ->; split; first by move=> h; exists b2, a2.
  by case=> cp [cm [h [<- <-]]].
case h : (redheffer_product S0 S1) => [S2|//] /= /IH ->; split.
  case=> dp [dm [/(joinedE _ _ _ _ h) [cp [cm [h1 h2]]] h3]].
  by exists cp, cm; split=> //; exists dp, dm.
case=> cp [cm [h1 [dp [dm [h2 h3]]]]]; exists dp, dm; split=> //.
by apply/(joinedE _ _ _ _ h); exists cp, cm.
Qed.
Lemma scat_cat l l' cp a2 cm b2 : scat_all (l ++ l') cp a2 cm b2 <->
  exists dp dm, scat_all l cp dm cm dp /\ scat_all l' dp a2 dm b2.
Proof.
elim: l cp cm => [|S l IH] cp cm /=.
  split; first by move=> h; exists cp, cm.
  by case=> dp [dm [[<- <-]]].
split.
  case=> p [q [h /IH [dp [dm [h1 h2]]]]]; exists dp, dm; split=> //; by exists p, q.
case=> dp [dm [[p [q [h1 h2]]] h3]]; exists p, q; split=> //; apply/IH; by exists dp, dm.
Qed.
Definition alike l l' := forall cp a2 cm b2, scat_all l cp a2 cm b2 <-> scat_all l' cp a2 cm b2.
Lemma alike_refl l : alike l l. Proof. by []. Qed.
Lemma alike_cat l1 l2 l1' l2' : alike l1 l1' -> alike l2 l2' -> alike (l1 ++ l2) (l1' ++ l2').
Proof.
by move=> h1 h2 cp a2 cm b2; rewrite !scat_cat; split; case=> p [q [/h1 ? /h2 ?]]; exists p, q.
Qed.
Lemma alike_ends x y l l' : alike l l' -> alike (x :: rcons l y) (x :: rcons l' y).
Proof.
move=> h; rewrite -(cats1 l) -(cats1 l'); apply: (@alike_cat [:: x] _ [:: x] _ (@alike_refl _)).
exact: (alike_cat h (@alike_refl _)).
Qed.
Lemma chain_alike l l' S0 S S' : alike l l' -> chain S0 l = Ok S -> chain S0 l' = Ok S' -> S = S'.
Proof.
move=> h h1 h2; apply: scatters_inj => a1 a2 b1 b2.
move/(chain_scat _ _ _ _ h1) => [cp [cm [h3 /h h4]]]; apply/(chain_scat _ _ _ _ h2); by exists cp, cm.
Qed.

(** Layers between gaps. *)
Variables (k0 : R) (W0 V0 : 'M[C]_(n + n)) (mode : formulation -> 'M[C]_(n + n) * 'M[C]_(n + n) * 'rV[C]_(n + n)).
Hypotheses (uW0 : W0 \in unitmx) (uV0 : V0 \in unitmx).
Definition builds (s : slab) (S : S_t) :=
  build_scatmat (mode s.1).1.1 (mode s.1).1.2 W0 V0 (mode s.1).2 s.2 k0 = Ok S.
Lemma build_regular w d S : build_scatmat w.1.1 w.1.2 W0 V0 w.2 d k0 = Ok S -> regular w.
Proof. by rewrite /build_scatmat => /build_ok [uW uV _ _ _]. Qed.
Lemma scat_through ss l cp a2 cm b2 : List.Forall2 builds ss l ->
  scat_all l cp a2 cm b2 <-> through k0 mode ss (tangential W0 V0 cp cm) (tangential W0 V0 b2 a2).
Proof.
move=> h; elim: h cp cm => [|s S ss' l' hs hl IH] cp cm /=.
  split; first by case=> -> ->.
  exact: tangential_inj.
split.
  case=> dp [dm [/(layer_responseP _ _ _ _ hs) [p [q [h1 h2]]] /IH h3]].
  exists (tangential W0 V0 dp dm); split=> //; exists p, q; by rewrite -h2.
case=> f [[p [q [h1 h2]]] h3].
have [dp [dm ef]] := tangential_sur f uW0 uV0; rewrite ef in h2 h3.
exists dp, dm; split; last by apply/IH.
by apply/(layer_responseP _ _ _ _ hs); exists p, q; rewrite h1 h2.
Qed.
Lemma alike_profile ss ss' l l' : List.Forall proper_slab ss -> List.Forall proper_slab ss' ->
  List.Forall2 builds ss l -> List.Forall2 builds ss' l' -> same_profile ss ss' -> alike l l'.
Proof.
move=> p1 p2 h h' hp cp a2 cm b2; rewrite (scat_through _ _ _ _ h) (scat_through _ _ _ _ h').
have fineF t u : List.Forall proper_slab t -> List.Forall2 builds t u -> List.Forall (fine mode) t.
  move=> hp0 h0; elim: h0 hp0 => [|s S t' u' hs _ IH] hp0; first exact: List.Forall_nil.
  have [[_ q1] q2] : proper_slab s /\ List.Forall proper_slab t' by inversion hp0.
  by apply: List.Forall_cons; [split=> //; apply: build_regular hs | apply: IH].
exact: (through_profile _ (fineF _ _ p1 h) (fineF _ _ p2 h') hp).
Qed.
End Chain.

(** * Modes do not depend on the depth *)
Section Dev.
Variables (eig : forall m, 'M[C]_m -> 'rV[C]_m * 'M[C]_m) (J1 : R -> R) (n : nat).

Definition mode_res (e : expansion) kp wl (f : formulation) : res ('M[C]_(n + n) * 'M[C]_(n + n) * 'rV[C]_(n + n)) :=
  do k <- krows n e kp wl 1;
  match f with
  | FFT p => do Cm <- convolution_matrix n p (e_pw e); solve_structured_layer (@eig _) k.1.1 k.1.2 Cm
  | ANALYTICAL isl h => do Cm <- analytical_matrix J1 n e isl h; solve_structured_layer (@eig _) k.1.1 k.1.2 Cm
  | UNIFORM eps => solve_uniform_layer k.1.1 k.1.2 eps 1
  | _ => Err ValueError
  end.
Definition mode_of e kp wl f := if mode_res e kp wl f is Ok w then w else (0, 0, 0).

Definition gaps (e : expansion) kp wl (W0 V0 : 'M[C]_(n + n)) :=
  exists k, krows n e kp wl 1 = Ok k /\ free_space_eigenmodes k.1.1 k.1.2 = Ok (W0, V0).

Lemma inner_solve e f d b kp wl s : inner f -> layer_solve eig J1 n (Layer e f d b) kp wl = Ok s ->
  exists W0 V0 S, [/\ gaps e kp wl W0 V0, sl_S s = Some S &
    builds (2 * PI / wl)%Re W0 V0 (mode_of e kp wl) (f, d) S].
Proof.
rewrite /layer_solve /builds /mode_of /mode_res /gaps.
cbn [l_exp l_form l_depth l_fields]; case hk : (krows _ _ _ _ _) => [k|//]; cbn [bind].
case hf : (free_space_eigenmodes _ _) => [[W0 V0]|//]; cbn [bind fst snd].
have fin (S : smat C_fieldType (n + n)) m IC : (if b then Solved (Some S) (Some m) (Some IC) None else Solved (Some S) None None None) = s ->
  sl_S s = Some S by move=> <-; case: (b).
case: f => [p|eps|isl h|eps|eps|] // _.
- case: (convolution_matrix _ _ _) => [Cm|//]; cbn [bind]; case: (inv Cm) => [IC|//]; cbn [bind].
  case hm : (solve_structured_layer _ _ _ _) => [m|//]; cbn [bind fst snd].
  case hS : (build_scatmat _ _ _ _ _ _ _) => [S|//]; cbn [bind] => -[/fin e1].
  by exists W0, V0, S; split=> //; exists k; split.
- case hm : (solve_uniform_layer _ _ _ _) => [m|//]; cbn [bind].
  case hS : (build_scatmat _ _ _ _ _ _ _) => [S|//]; cbn [bind]; case: (one_over _) => [ic|//]; cbn [bind] => -[/fin e1].
  by exists W0, V0, S; split=> //; exists k; split.
- case: (analytical_matrix _ _ _ _ _) => [Cm|//]; cbn [bind]; case: (inv Cm) => [IC|//]; cbn [bind].
  case hm : (solve_structured_layer _ _ _ _) => [m|//]; cbn [bind fst snd].
  case hS : (build_scatmat _ _ _ _ _ _ _) => [S|//]; cbn [bind] => -[/fin e1].
  by exists W0, V0, S; split=> //; exists k; split.
Qed.
Lemma gaps_fun e kp wl W0 V0 W0' V0' : gaps e kp wl W0 V0 -> gaps e kp wl W0' V0' -> W0' = W0 /\ V0' = V0.
Proof. by move=> [k [h1 h2]] [k' [h1' h2']]; move: h1'; rewrite h1 => -[ek]; subst k'; move: h2'; rewrite h2 => -[-> ->]. Qed.
Lemma gaps_unit e kp wl W0 V0 : gaps e kp wl W0 V0 -> W0 \in unitmx /\ V0 \in unitmx.
Proof. by case=> k [_ /free_ok [-> ? _ _]]; rewrite unitmx1. Qed.

(** The same medium, solved twice. *)
Lemma same_layer_modes l l' kp wl s s' m m' : same_layer l l' ->
  layer_solve eig J1 n l kp wl = Ok s -> layer_solve eig J1 n l' kp wl = Ok s' ->
  sl_modes s = Some m -> sl_modes s' = Some m' -> m = m'.
Proof.
case: l l' => e f d b [e' f' d' b'] [/= <- <- <-]; rewrite /layer_solve /=.
case: (krows _ _ _ _ _) => [k|//] /=; case: (free_space_eigenmodes _ _) => [g|//] /=.
have st Cm : 
  (do IC <- inv Cm; do m <- solve_structured_layer (eig (m:=_)) k.1.1 k.1.2 Cm;
   do S <- build_scatmat m.1.1 m.1.2 g.1 g.2 m.2 d (2 * PI / wl);
   Ok (if b then Solved (Some S) (Some m) (Some (inr IC)) None
       else Solved (Some S) None None None)) = Ok s ->
  (do IC <- inv Cm; do m <- solve_structured_layer (eig (m:=_)) k.1.1 k.1.2 Cm;
   do S <- build_scatmat m.1.1 m.1.2 g.1 g.2 m.2 d (2 * PI / wl);
   Ok (if b' then Solved (Some S) (Some m) (Some (inr IC)) None
       else Solved (Some S) None None None)) = Ok s' -> sl_modes s = Some m -> sl_modes s' = Some m' -> m = m'.
  case: (inv Cm) => [IC|//] /=; case: (solve_structured_layer _ _ _ _) => [q|//] /=.
  by case: (build_scatmat _ _ _ _ _ _ _) => [S|//] /= [<-] [<-]; case: b; case: b' => //= -[<-] [<-].
case: f => [p|eps|isl h|eps|eps|].
- case: (convolution_matrix _ _ _) => [Cm|//] /=; exact: st.
- case: (solve_uniform_layer _ _ _ _) => [q|//] /=; case: (build_scatmat _ _ _ _ _ _ _) => [S|//] /=.
  by case: (one_over _) => [ic|//] /= [<-] [<-]; case: (b); case: (b') => //= -[<-] [<-].
- case: (analytical_matrix _ _ _ _ _) => [Cm|//] /=; exact: st.
- case: (scattering_reflection _ _ _ _ _ _) => [r|//] /=.
  by case: (one_over _) => [ic|//] /= [<-] [<-]; case: (b); case: (b') => //= -[<-] [<-].
- case: (scattering_transmission _ _ _ _ _ _) => [r|//] /=.
  by case: (one_over _) => [ic|//] /= [<-] [<-]; case: (b); case: (b') => //= -[<-] [<-].
by case=> <- [<-].
Qed.

Notation crystal := (crystal n).
Notation entry := (entry n).
Notation I0 := (scattering_identity C_fieldType (n + n)).

Definition made e kp wl (s : slab) S := exists W0 V0, gaps e kp wl W0 V0 /\ builds (2 * PI / wl)%Re W0 V0 (mode_of e kp wl) s S.
Lemma made_alike e kp wl ss ss' l l' : List.Forall proper_slab ss -> List.Forall proper_slab ss' ->
  List.Forall2 (made e kp wl) ss l -> List.Forall2 (made e kp wl) ss' l' -> same_profile ss ss' -> alike l l'.
Proof.
move=> p1 p2 h h' hp.
have conv W0 V0 t u : gaps e kp wl W0 V0 -> List.Forall2 (made e kp wl) t u ->
    List.Forall2 (builds (2 * PI / wl)%Re W0 V0 (mode_of e kp wl)) t u.
  move=> hg h0; elim: h0 => [|s S t' u' [W1 [V1 [hg' hb]]] _ IH]; first exact: List.Forall2_nil.
  by apply: List.Forall2_cons => //; have [e1 e2] := gaps_fun hg hg'; move: hb; rewrite e1 e2.
have main W0 V0 : gaps e kp wl W0 V0 -> alike l l'.
  by move=> hg; have [u1 u2] := gaps_unit hg; exact: (alike_profile u1 u2 p1 p2 (conv _ _ _ _ hg h) (conv _ _ _ _ hg h') hp).
case: h main => [|s S t u [W0 [V0 [hg _]]] _] main; last exact: main hg.
by case: h' main => [|s S t u [W0 [V0 [hg _]]] _] main; [exact: alike_refl | exact: main hg].
Qed.

Definition solvedS (d : seq (string * entry)) (k : string) := do e <- get (dict_get d k) KeyError; entry_S e.
Lemma solvedS_all d g (es : seq entry) Ss : mapM (fun name => get (dict_get d name) KeyError) g = Ok es -> mapM (@entry_S n) es = Ok Ss ->
  map (solvedS d) g = map Ok Ss.
Proof.
rewrite /solvedS; elim: g es Ss => [|k g IH] es Ss; first by case=> <- [<-].
cbn [mapM]; case hk : (get _ _) => [x|//]; cbn [bind]; case hg : (mapM _ _) => [xs|//]; cbn [bind] => -[<-].
cbn [mapM]; case hx : (entry_S x) => [y|//]; cbn [bind]; case hy : (mapM _ _) => [ys|//]; cbn [bind] => -[<-].
by rewrite /= hk /= hx (IH _ _ hg hy).
Qed.

(** What a crystal finds under a name. *)
Lemma found_S (c : crystal) order wl d k l s0 r : solve_all eig J1 (c_layers c) order (c_kp c) wl = Ok d -> k \in order ->
  dict_get (c_layers c) k = Some (Plain l, s0) -> solvedS d k = Ok r ->
  exists s, [/\ layer_solve eig J1 n l (c_kp c) wl = Ok s, sl_S s = Some r & dict_get d k = Some (Plain l, Some s)].
Proof.
move=> /solve_all_ok [_ /(_ k)] h hk hl; rewrite hk in h; case: h => x [s []]; rewrite hl => -[<-] h1 h2.
rewrite /solvedS h2 /entry_S /=; case h3 : (sl_S s) => [S|//] /= [<-].
by exists s.
Qed.

Lemma piled_made (c : crystal) order wl d l stack Ss :
  solve_all eig J1 (c_layers c) order (c_kp c) wl = Ok d -> {subset stack <= order} ->
  size l = size stack -> List.Forall proper_slab l ->
  (forall i, (i < size l)%N -> exists b s,
      dict_get (c_layers c) (nth ""%string stack i) =
      Some (Plain (Layer (c_exp c) (nth (NoFormulation, 0%Re) l i).1 (nth (NoFormulation, 0%Re) l i).2 b), s)) ->
  map (solvedS d) stack = map Ok Ss -> List.Forall2 (made (c_exp c) (c_kp c) wl) l Ss.
Proof.
move=> hd; elim: l stack Ss => [|[f dd] l IH] [|k stack] [|S Ss] // hs hz hp hl.
move: hz; rewrite /= => -[hz] [hS hSs].
have [[hi _] hp'] : proper_slab (f, dd) /\ List.Forall proper_slab l by inversion hp.
have [b [s h0]] := hl 0%N (ltn0Sn _).
have [t [h1 h2 _]] := found_S hd (hs k (mem_head _ _)) h0 hS.
have [W0 [V0 [S' [hg]]]] := inner_solve hi h1; rewrite h2 => -[<-] hb.
apply: List.Forall2_cons; first by exists W0, V0.
apply: (IH stack) => //; first by move=> q hq; apply: hs; rewrite in_cons hq orbT.
by move=> i h; exact: (hl i.+1 h).
Qed.

Lemma same_medium_S (c c' : crystal) o o' wl d d' k S S' : same_medium c c' k -> c_kp c = c_kp c' ->
  solve_all eig J1 (c_layers c) o (c_kp c) wl = Ok d -> solve_all eig J1 (c_layers c') o' (c_kp c') wl = Ok d' ->
  k \in o -> k \in o' -> solvedS d k = Ok S -> solvedS d' k = Ok S' -> S = S'.
Proof.
case=> l [s [l' [s' [h1 h2 h3]]]] ek hd hd' hk hk' e1 e2.
have [t [t1 t2 _]] := found_S hd hk h1 e1; have [u [u1 u2 _]] := found_S hd' hk' h2 e2.
by rewrite -ek in u1; have := same_layer_solve h3 t1 u1; rewrite t2 u2 => -[].
Qed.
Lemma same_medium_modes (c c' : crystal) o o' wl d d' k x y t u m m' S S' : same_medium c c' k -> c_kp c = c_kp c' ->
  solve_all eig J1 (c_layers c) o (c_kp c) wl = Ok d -> solve_all eig J1 (c_layers c') o' (c_kp c') wl = Ok d' ->
  k \in o -> k \in o' -> solvedS d k = Ok S -> solvedS d' k = Ok S' ->
  dict_get d k = Some (x, Some t) -> dict_get d' k = Some (y, Some u) -> sl_modes t = Some m -> sl_modes u = Some m' -> m = m'.
Proof.
case=> l [s [l' [s' [h1 h2 h3]]]] ek hd hd' hk hk' e1 e2.
have [t0 [t1 t2 ->]] := found_S hd hk h1 e1; have [u0 [u1 u2 ->]] := found_S hd' hk' h2 e2.
by case=> _ <- [_ <-]; rewrite -ek in u1; exact: (same_layer_modes h3 t1 u1).
Qed.

Lemma map_in (T : eqType) B (f : T -> res B) g ys k : map f g = map Ok ys -> k \in g -> exists y, f k = Ok y.
Proof.
elim: g ys => [//|x g IH] [|y ys] //= [h1 h2]; rewrite in_cons; case: eqP => [->|_] /= h; first by exists y.
exact: IH h2 h.
Qed.
Lemma Ok_injP A (x y : A) : Ok x = Ok y -> x = y. Proof. by case. Qed.
Lemma rcons_map A B (f : A -> res B) (l : seq A) x ys : map f (rcons l x) = map Ok ys ->
  exists zs z, [/\ ys = rcons zs z, map f l = map Ok zs & f x = Ok z].
Proof.
case: (lastP ys) => [|zs z]; first by case: l.
by rewrite !map_rcons => /rcons_inj [h1 h2]; exists zs, z.
Qed.

Theorem profile_S (c1 c2 c1' c2' : crystal) l1 l2 sol1 sol2 : same_outside c1 c2 -> piled c1 l1 -> piled c2 l2 -> same_profile l1 l2 ->
  step eig J1 c1 Solve c1' -> step eig J1 c2 Solve c2' -> c_solution c1' = Some sol1 -> c_solution c2' = Some sol2 -> r_S sol1 = r_S sol2.
Proof.
case=> hv he _ [hsrc hkp _] hmed [st1 [m1 [d1 z1 p1 q1]]] [st2 [m2 [d2 z2 p2 q2]]] hp s1 s2.
inversion s1 as [| | | | | | | |o1 cc1 pe1 h1 e1]; inversion s2 as [| | | | | | | |o2 cc2 pe2 h2 e2]; subst cc1 cc2.
move/solve_parts: h1 => [src1 [dev1 [dd1 [es1 [pos1 [Ss1 [t1 [[a1 a2 a3 a4] a5 a6 a7 ->]]]]]]]].
move/solve_parts: h2 => [src2 [dev2 [dd2 [es2 [pos2 [Ss2 [t2 [[b1 b2 b3 b4] b5 b6 b7 ->]]]]]]]] /=.
case=> <- [<-] /=.
have es : src2 = src1 by move: b1; rewrite -hsrc a1 => -[].
have ed1 : dev1 = (st1, global_stacking (c_void c1) st1, m1) by move: a2; rewrite d1 => -[].
have ed2 : dev2 = (st2, global_stacking (c_void c2) st2, m2) by move: b2; rewrite d2 => -[].
have o1E : o1 =i global_stacking (c_void c1) st1 by move=> k; rewrite (perm_mem (pe1 _ a2)) mem_undup ed1.
have o2E : o2 =i global_stacking (c_void c2) st2 by move=> k; rewrite (perm_mem (pe2 _ b2)) mem_undup ed2.
have k1 := solvedS_all a4 a6; have k2 := solvedS_all b4 b6; rewrite ed1 in k1; rewrite ed2 in k2.
cbn [fst snd] in k1, k2; apply: (chain_alike _ (stack_chain a7) (stack_chain b7)).
subst src2; rewrite -hv in o2E k2; move: hmed o1E o2E k1 k2; case: (c_void c1); rewrite /global_stacking => hmed o1E o2E k1 k2.
  have m1' := piled_made a3 (fun k hk => etrans (o1E k) hk) z1 p1 q1 k1.
  have m2' := piled_made b3 (fun k hk => etrans (o2E k) hk) z2 p2 q2 k2.
  by rewrite -he -hkp in m2'; exact: (made_alike p1 p2 m1' m2' hp).
have [hr ht] := hmed erefl.
case: Ss1 k1 {a6 a7} => [//|R1 T1] [r1 w1]; have [u1 [v1 [-> x1 y1]]] := rcons_map w1.
case: Ss2 k2 {b6 b7} => [//|R2 T2] [r2 w2]; have [u2 [v2 [-> x2 y2]]] := rcons_map w2.
have i1 : Sref \in o1 by rewrite o1E mem_head.
have i2 : Sref \in o2 by rewrite o2E mem_head.
have j1 : Strans \in o1 by rewrite o1E in_cons mem_rcons mem_head orbT.
have j2 : Strans \in o2 by rewrite o2E in_cons mem_rcons mem_head orbT.
have sub1 : {subset st1 <= o1} by move=> k hk; rewrite o1E in_cons mem_rcons in_cons hk !orbT.
have sub2 : {subset st2 <= o2} by move=> k hk; rewrite o2E in_cons mem_rcons in_cons hk !orbT.
rewrite (same_medium_S hr hkp a3 b3 i1 i2 r1 r2) (same_medium_S ht hkp a3 b3 j1 j2 y1 y2).
have m1' := piled_made a3 sub1 z1 p1 q1 x1; have m2' := piled_made b3 sub2 z2 p2 q2 x2.
rewrite -he -hkp in m2'; apply: alike_ends; exact: (made_alike p1 p2 m1' m2' hp).
Qed.

Theorem profile_flux (c1 c2 c1' c2' : crystal) l1 l2 f1 f2 : same_outside c1 c2 -> piled c1 l1 -> piled c2 l2 -> same_profile l1 l2 ->
  c_void c1 = false -> step eig J1 c1 Solve c1' -> step eig J1 c2 Solve c2' ->
  poynting_flux_orders c1' = Ok f1 -> poynting_flux_orders c2' = Ok f2 -> f1 = f2.
Proof.
move=> ho hp1 hp2 hp hv0 s1 s2.
have hS := profile_S ho hp1 hp2 hp s1 s2.
case: ho => hv he [hei hee] [hsrc hkp hkz] hmed.
case: hp1 => st1 [m1 [d1 _ _ _]]; case: hp2 => st2 [m2 [d2 _ _ _]].
inversion s1 as [| | | | | | | |o1 cc1 pe1 h1 e1]; inversion s2 as [| | | | | | | |o2 cc2 pe2 h2 e2]; subst cc1 cc2.
move/solve_parts: h1 => [src1 [dev1 [dd1 [es1 [pos1 [Ss1 [t1 [[a1 a2 a3 a4] a5 a6 a7 e1']]]]]]]].
move/solve_parts: h2 => [src2 [dev2 [dd2 [es2 [pos2 [Ss2 [t2 [[b1 b2 b3 b4] b5 b6 b7 e2']]]]]]]] /=.
have hS' : t1.2 = t2.2 by have := hS (Solution pos1 t1.1.1 t1.1.2 t1.2) (Solution pos2 t2.1.1 t2.1.2 t2.2); rewrite e1' e2' /= => -> .
have es : src2 = src1 by move: b1; rewrite -hsrc a1 => -[].
subst src2; have [hr ht] := hmed hv0.
have mem1 k : k \in [:: Sref; Strans] -> k \in o1 /\ exists S, solvedS dd1 k = Ok S.
  move=> hk; have hk' : k \in dev1.1.2.
    move: a2; rewrite d1 hv0 => -[<-] /=; rewrite in_cons mem_rcons in_cons.
    by move: hk; rewrite !inE => /orP[->|->]; rewrite ?orbT.
  by split; [rewrite (perm_mem (pe1 _ a2)) mem_undup | exact: map_in (solvedS_all a4 a6) hk'].
have mem2 k : k \in [:: Sref; Strans] -> k \in o2 /\ exists S, solvedS dd2 k = Ok S.
  move=> hk; have hk' : k \in dev2.1.2.
    move: b2; rewrite d2 -hv hv0 => -[<-] /=; rewrite in_cons mem_rcons in_cons.
    by move: hk; rewrite !inE => /orP[->|->]; rewrite ?orbT.
  by split; [rewrite (perm_mem (pe2 _ b2)) mem_undup | exact: map_in (solvedS_all b4 b6) hk'].
have hm k m m' : k \in [:: Sref; Strans] -> same_medium c1 c2 k -> named_modes c1' k = Ok m -> named_modes c2' k = Ok m' -> m = m'.
  move=> hk hsm; have [i1 [S1 g1]] := mem1 k hk; have [i2 [S2 g2]] := mem2 k hk.
  rewrite /named_modes e1' e2'; cbn [c_layers].
  case x1 : (dict_get dd1 k) => [[y1 [u1|]]|] //=; case w1 : (sl_modes u1) => [v1|] //= [<-].
  case x2 : (dict_get dd2 k) => [[y2 [u2|]]|] //=; case w2 : (sl_modes u2) => [v2|] //= [<-].
  exact: (same_medium_modes hsm hkp a3 b3 i1 i2 g1 g2 x1 x2 w1 w2).
rewrite /poynting_flux_orders.
have -> : c_solution c1' = Some (Solution pos1 t1.1.1 t1.1.2 t1.2) by rewrite e1'.
have -> : c_solution c2' = Some (Solution pos2 t2.1.1 t2.1.2 t2.2) by rewrite e2'.
have -> : c_source c1' = Some src1 by rewrite e1'.
have -> : c_source c2' = Some src1 by rewrite e2'.
have -> : c_kp c2' = c_kp c1' by rewrite e1' e2' /= hkp.
have -> : c_kzi c2' = c_kzi c1' by rewrite e1' e2' /= hkz.
have -> : c_exp c2' = c_exp c1' by rewrite e1' e2' /= he.
have -> : c_epsi c2' = c_epsi c1' by rewrite e1' e2' /= hei.
have -> : c_epse c2' = c_epse c1' by rewrite e1' e2' /= hee.
cbn [get bind r_S]; case: (incident _ _ _ _ _) => [inc|//]; cbn [bind].
case n1 : (named_modes c1' Sref) => [w1|//]; cbn [bind]; case ei : (inv w1.1.1) => [iw|//]; cbn [bind].
case n1' : (named_modes c1' Strans) => [w1'|//]; cbn [bind] => q1.
case n2 : (named_modes c2' Sref) => [w2|//]; cbn [bind].
rewrite -(hm _ _ _ (mem_head _ _) hr n1 n2) ei; cbn [bind].
case n2' : (named_modes c2' Strans) => [w2'|//]; cbn [bind].
rewrite -(hm Strans _ _ isT ht n1' n2') -hS' q1 => q2; exact: Ok_injP q2.
Qed.
End Dev.
