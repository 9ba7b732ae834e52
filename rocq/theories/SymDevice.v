(** Lemmas for C99-C102: a history of calls followed by the same history for another
    description of the device. *)
From Coq Require Import Reals ZArith Lra Lia String.
From mathcomp Require Import all_ssreflect all_fingroup all_algebra.
From Coquelicot Require Import Complex Rbar.
From Verif Require Import Base ZmodTac CField CFun Blk ModelRedheffer SpecScatter ModelLayer SpecLayer SpecEig ModelExpansion ModelFlux
  ModelFourier ModelDevice SpecDevice StringEq LayerApiProofs DeviceProofs HistoryProofs DeviceEnergy ScaleProofs SpecSym SymCore.
Set Implicit Arguments. Unset Strict Implicit. Unset Printing Implicit Defensive.
Import GRing.Theory.
Local Open Scope ring_scope.

Lemma bind_to A B (x : res A) (f : A -> res B) a y : x = Ok a -> f a = Ok y -> bind x f = Ok y.
Proof. by move=> ->. Qed.

Lemma bindI A B (x : res A) (f : A -> res B) y : bind x f = Ok y -> exists a, x = Ok a /\ f a = Ok y.
Proof. exact: bind_ok. Qed.

Ltac unb h x hx := let h' := fresh in have h' := bindI h; destruct h' as [x [hx h']]; clear h; rename h' into h; cbv beta in h.

Section Device.
Variable n : nat.
Variables (a b s : R) (ph : 'I_n -> C) (p : {perm 'I_n}) (e e' : expansion).
Variables (eig : forall m, 'M[C]_m -> 'rV[C]_m * 'M[C]_m) (J1 : R -> R).
Variables (pic : array2 -> array2 -> Prop) (isl : seq (shape * C) -> seq (shape * C) -> Prop)
  (src : source_args -> source_args -> Prop) (big : C * C -> Prop).
Hypotheses (iso : isometry a b s) (hph : forall i, ph i != 0) (heig : eig_complete eig).
Hypotheses (se : e_size e = n) (se' : e_size e' = n) (sg : size (e_g e) = n) (sg' : size (e_g e') = n)
  (hg : forall i : 'I_n, nth (0%Re, 0%Re) (e_g e') i = turn a b s (nth (0%Re, 0%Re) (e_g e) (p i))).

Notation A := (RtoC a). Notation B := (RtoC b). Notation S := (RtoC s).
Notation cjC := (cj ph p). Notation GG := (GG A B S ph p). Notation CJ := (CJ A B S ph p).
Notation conjS := (conjS A B S ph p). Notation rn := (rn p).
Notation kX := (kx' A B p). Notation kY := (ky' A B S p).

Lemma hab : A * A + B * B = 1.
Proof. by case: iso => h _; apply: C_ext => /=; lra. Qed.
Lemma hss : S * S = 1.
Proof. by case: iso => _ [->|->]; apply: C_ext => /=; ring. Qed.

(** The wavevectors. *)
Lemma turn_norm (x y : C) : (A * x + B * y) ^+ 2 + (- (S * B) * x + S * A * y) ^+ 2 = x ^+ 2 + y ^+ 2.
Proof.
have h1 : Cmult A A = Cminus (RtoC 1) (Cmult B B) by move: hab => h; rewrite -[RtoC 1]/(1 : C) -h; toC; ring.
have h2 : Cmult S S = RtoC 1 := hss.
by rewrite !expr2; toC; ring [h1 h2].
Qed.

Lemma krows_turn kp wl eps k : krows n e kp wl eps = Ok k ->
  krows n e' (turn_kp a b s kp) wl eps = Ok (kX k.1.1 k.1.2, kY k.1.1 k.1.2, rn k.2).
Proof.
rewrite /krows; case: Req_EM_T => // hwl; rewrite se se' sg sg' eqxx; cbn [negb andb] => -[<-]; cbn [fst snd].
pose g (j : nat) := nth (0%Re, 0%Re) (e_g e) j; pose g' (j : nat) := nth (0%Re, 0%Re) (e_g e') j.
have eg (j : 'I_n) : g' j = turn a b s (g (p j)) by exact: hg.
have ex (j : 'I_n) : (turn_kp a b s kp).1 + RtoC (g' j).1 = A * (kp.1 + RtoC (g (p j)).1) + B * (kp.2 + RtoC (g (p j)).2).
  by rewrite eg /turn_kp /turn; cbn [fst snd]; apply: C_ext => /=; ring.
have ey (j : 'I_n) : (turn_kp a b s kp).2 + RtoC (g' j).2 = - (S * B) * (kp.1 + RtoC (g (p j)).1) + S * A * (kp.2 + RtoC (g (p j)).2).
  by rewrite eg /turn_kp /turn; cbn [fst snd]; apply: C_ext => /=; ring.
congr (Ok (_, _, _)); apply/rowP => j; rewrite !mxE -/(g' j) -/(g (p j)) ?ex ?ey.
- by rewrite mulrDl !mulrA.
- by rewrite mulrDl !mulrA.
- rewrite /kz_from_kplanar; congr (Cconj (csqrt _) / _); rewrite -!addrA -!opprD turn_norm //.
Qed.

(** Layers. *)
Definition plain (f : formulation) : bool := match f with FFT _ | ANALYTICAL _ _ => false | _ => true end.
Definition form_matrix (x : expansion) (f : formulation) : res 'M[C]_n :=
  match f with FFT q => convolution_matrix n q (e_pw x) | ANALYTICAL l h => analytical_matrix J1 n x l h | _ => Err TypeError end.
Definition frel (f f' : formulation) : Prop :=
  if plain f then f' = f else ~~ plain f' /\ forall Cm, form_matrix e f = Ok Cm -> form_matrix e' f' = Ok (cjC Cm).
Definition lrel (l l' : layer) : Prop :=
  [/\ l_exp l = e, l_exp l' = e', frel (l_form l) (l_form l'), l_depth l' = l_depth l & l_fields l' = l_fields l].
Definition modes_rel (m m' : option ('M[C]_(n + n) * 'M[C]_(n + n) * 'rV[C]_(n + n))) : Prop :=
  match m, m' with Some x, Some x' => x.1.1 = 1%:M /\ x'.1.1 = 1%:M | None, None => True | _, _ => False end.
Definition vrel (f : formulation) (v v' : solved n) : Prop :=
  sl_S v' = omap conjS (sl_S v) /\ (plain f -> modes_rel (sl_modes v) (sl_modes v')).

Definition keep (fl : bool) St (m : 'M[C]_(n + n) * 'M[C]_(n + n) * 'rV[C]_(n + n)) (IC : C + 'M[C]_n) : solved n :=
  if fl then Solved (Some St) (Some m) (Some IC) None else Solved (Some St) None None None.
Definition structured (fl : bool) d kx ky V0 k0 Cm : res (solved n) :=
  do IC <- inv Cm;
  do m <- solve_structured_layer (@eig _) kx ky Cm;
  do S <- build_scatmat m.1.1 m.1.2 1%:M V0 m.2 d k0;
  Ok (keep fl S m (inr IC)).

Lemma structured_turn fl d kx ky V0 k0 Cm v f : ~~ plain f -> structured fl d kx ky V0 k0 Cm = Ok v ->
  exists v', structured fl d (kX kx ky) (kY kx ky) (S *: CJ V0) k0 (cjC Cm) = Ok v' /\ vrel f v v'.
Proof.
rewrite /structured => np h; unb h IC h1; unb h m h2; unb h St h3; move: h => [<-]; case: m h2 h3 => [[W V] lam] h2 h3.
cbn [fst snd] in h3.
have hd : forall (M : 'M[C]_(n + n)) lW, diagonalises M lW -> diagonalises M (eig M).
  by case: heig => h h' M lW hM; split; [exact: (h' _ M lW hM) | exact: h].
have [m [e1 e2]] := build_structured p hab hss hph hd (eig_diagonalises (proj1 heig) h2 h3) h2 h3.
have e0 : inv (cjC Cm) = Ok (cjC IC).
  by move: h1; rewrite /inv cj_unit // cjV //; case: ifP => // _ [<-].
exists (keep fl (conjS St) m (inr (cjC IC))); split.
  by apply: (bind_to e0); apply: (bind_to e1); apply: (bind_to e2).
by split; [case: (fl) | move=> hp; move: np; rewrite hp].
Qed.

Lemma layer_solve_form l kp wl : layer_solve eig J1 n l kp wl =
  do k <- krows n (l_exp l) kp wl 1;
  do f <- free_space_eigenmodes k.1.1 k.1.2;
  let k0 := (2 * PI / wl)%Re in
  match l_form l with
  | FFT _ | ANALYTICAL _ _ => do Cm <- form_matrix (l_exp l) (l_form l);
      do IC <- inv Cm;
      do m <- solve_structured_layer (@eig _) k.1.1 k.1.2 Cm;
      do S <- build_scatmat m.1.1 m.1.2 f.1 f.2 m.2 (l_depth l) k0;
      Ok (keep (l_fields l) S m (inr IC))
  | UNIFORM eps =>
      do m <- solve_uniform_layer k.1.1 k.1.2 eps 1;
      do S <- build_scatmat m.1.1 m.1.2 f.1 f.2 m.2 (l_depth l) k0;
      do ic <- one_over eps; Ok (keep (l_fields l) S m (inl ic))
  | HALF_SPACE_INC eps =>
      do r <- scattering_reflection k.1.1 k.1.2 f.1 f.2 eps 1;
      do ic <- one_over eps; Ok (keep (l_fields l) r.1.1.1 (r.1.1.2, r.1.2, r.2) (inl ic))
  | HALF_SPACE_TRN eps =>
      do r <- scattering_transmission k.1.1 k.1.2 f.1 f.2 eps 1;
      do ic <- one_over eps; Ok (keep (l_fields l) r.1.1.1 (r.1.1.2, r.1.2, r.2) (inl ic))
  | NoFormulation => Ok (Solved None None None None)
  end.
Proof.
rewrite /layer_solve /keep; apply: bind_ext => k; apply: bind_ext => f; cbv zeta.
by case: (l_form l) => *; exact: erefl.
Qed.

Lemma layer_turn l l' kp wl v : lrel l l' -> layer_solve eig J1 n l kp wl = Ok v ->
  exists v', layer_solve eig J1 n l' (turn_kp a b s kp) wl = Ok v' /\ vrel (l_form l) v v'.
Proof.
case=> el el' hf hd hfl; rewrite !layer_solve_form el el' hd hfl.
move=> h; unb h k hk; unb h f0 h0; move: h; case: f0 h0 => W0 V0 h0; have [eW h0'] := free_change p hab hss hph h0.
rewrite {}eW {W0} in h0 *; set k0 := (2 * PI / wl)%Re; cbv zeta; cbn [fst snd].
have go (v' : solved n) F : F (kX k.1.1 k.1.2, kY k.1.1 k.1.2, rn k.2) (1%:M, S *: CJ V0) = Ok v' ->
  bind (krows n e' (turn_kp a b s kp) wl 1) (fun k1 => bind (free_space_eigenmodes k1.1.1 k1.1.2) (fun f => F k1 f)) = Ok v'.
  by move=> hX; apply: (bind_to (krows_turn hk)); apply: (bind_to h0').
have st f f' : ~~ plain f -> ~~ plain f' -> (forall Cm, form_matrix e f = Ok Cm -> form_matrix e' f' = Ok (cjC Cm)) ->
  (do Cm <- form_matrix e f; structured (l_fields l) (l_depth l) k.1.1 k.1.2 V0 k0 Cm) = Ok v ->
  exists v', (do Cm <- form_matrix e' f'; structured (l_fields l) (l_depth l) (kX k.1.1 k.1.2) (kY k.1.1 k.1.2) (S *: CJ V0) k0 Cm) = Ok v' /\ vrel f v v'.
  move=> np np' hC h; unb h Cm hc; have [v' [h1 h2]] := structured_turn np h.
  by exists v'; split=> //; apply: (bind_to (hC _ hc)).
have ms (St : smat C_fieldType (n + n)) (m m' : 'M[C]_(n + n) * 'M[C]_(n + n) * 'rV[C]_(n + n)) ic f : m.1.1 = 1%:M -> m'.1.1 = 1%:M ->
  vrel f (keep (l_fields l) St m ic) (keep (l_fields l) (conjS St) m' ic).
  by move=> h1 h2; rewrite /keep; case: (l_fields l).
move: hf; rewrite /frel.
case ef : (l_form l) => [q|eps|i h|eps|eps|]; cbn [plain].
- case=> np hC h; have [//|v' [h1 h2]] := st (FFT q) (l_form l') _ np hC h.
  exists v'; split=> //; case: (l_form l') np h1 => // *; exact: go.
- move=> -> h; unb h m h1; unb h St h2; unb h ic h3; move: h => [<-]; case: m h1 h2 => [[W V] lam] h1; cbn [fst snd] => h2.
  have [r [eW el2 h1']] := uniform_change p hab hss hph h1; rewrite {}eW {}el2 {W lam} in h1 h2 *.
  exists (keep (l_fields l) (conjS St) (1%:M, S *: CJ V, twice (rn r)) (inl ic)); split; last exact: ms.
  apply: go; apply: (bind_to h1'); cbn [fst snd].
  by apply: (bind_to (build_uniform p hab hss hph h2)); apply: (bind_to h3).
- case=> np hC h1; have [//|v' [h2 h3]] := st (ANALYTICAL i h) (l_form l') _ np hC h1.
  exists v'; split=> //; case: (l_form l') np h2 => // *; exact: go.
- move=> -> h; unb h m h1; unb h ic h3; move: h => [<-]; case: m h1 => [[[St W] V] lam] h1; cbn [fst snd].
  have [V' [l2 [eW h1']]] := reflection_change p hab hss hph h1.
  exists (keep (l_fields l) (conjS St) (1%:M, V', l2) (inl ic)); split; last exact: ms.
  by apply: go; apply: (bind_to h1'); apply: (bind_to h3).
- move=> -> h; unb h m h1; unb h ic h3; move: h => [<-]; case: m h1 => [[[St W] V] lam] h1; cbn [fst snd].
  have [V' [l2 [eW h1']]] := transmission_change p hab hss hph h1.
  exists (keep (l_fields l) (conjS St) (1%:M, V', l2) (inl ic)); split; last exact: ms.
  by apply: go; apply: (bind_to h1'); apply: (bind_to h3).
- by move=> -> [<-]; exists (Solved None None None None); split; [exact: go | split].
Qed.

(** The dictionary. *)
Definition orel (o o' : layer_obj) : Prop := match o, o' with Plain l, Plain l' => lrel l l' | _, _ => False end.
Definition obj_form (o : layer_obj) : formulation := match o with Plain l => l_form l | Ext _ => NoFormulation end.
Definition svrel f (x x' : option (solved n)) : Prop :=
  match x, x' with Some v, Some v' => vrel f v v' | None, None => True | _, _ => False end.
Definition erel (x x' : entry n) : Prop := orel x.1 x'.1 /\ svrel (obj_form x.1) x.2 x'.2.
Definition outer_name (k : string) : bool := (k == Sref) || (k == Strans).
Definition drel1 (k : string) (x x' : option (entry n)) : Prop :=
  match x, x' with
  | Some x, Some x' => erel x x' /\ (outer_name k -> plain (obj_form x.1))
  | None, None => True
  | _, _ => False
  end.
Definition drel (d d' : seq (string * entry n)) : Prop := forall k, drel1 k (dict_get d k) (dict_get d' k).

Lemma drel_set d d' k x x' : drel d d' -> erel x x' -> (outer_name k -> plain (obj_form x.1)) ->
  drel (dict_set d k x) (dict_set d' k x').
Proof. by move=> h hx hp k'; rewrite !dict_get_set; case: eqP => [<-|_] //; split. Qed.

Lemma enable_rel bl o o' : orel o o' -> orel (obj_enable bl o) (obj_enable bl o') /\ obj_form (obj_enable bl o) = obj_form o.
Proof. by case: o o' => [l|x] [l'|x'] //= [h1 h2 h3 h4 h5]; split=> //; split=> //=; rewrite h5. Qed.

Lemma half_rel type eps : orel (Plain (half_infinite e type eps)) (Plain (half_infinite e' type eps)) /\ plain (l_form (half_infinite e type eps)).
Proof. by rewrite /half_infinite; case: ifP => _; [|case: ifP => _]; split=> //; split. Qed.

Lemma default_rel d d' g name type eps : drel d d' -> drel (add_default d g name type e eps) (add_default d' g name type e' eps).
Proof.
move=> h; rewrite /add_default; move: (h name); case eg : dict_get => [x|]; case eg' : dict_get => [x'|] //= _; rewrite ?andbF //.
rewrite andbT; case: ifP => // _; have [h1 h2] := half_rel type eps; have [h3 h4] := enable_rel true h1.
by apply: drel_set => //; rewrite [(_, _).1]/= h4.
Qed.

Lemma enable_fields_rel d d' l d1 : drel d d' -> enable_fields d l = Ok d1 -> exists d1', enable_fields d' l = Ok d1' /\ drel d1 d1'.
Proof.
elim: l d d' => [|[name bl] l IH] d d' h /=; first by move=> [<-]; exists d'.
move: (h name); case: dict_get => [x|//]; case: dict_get => [x'|//] [[ho hs] hp].
have [h3 h4] := enable_rel bl ho.
by apply: IH; apply: drel_set => //; [split=> //; rewrite h4 | rewrite h4].
Qed.

Lemma solve_all_rel d d' order kp wl d1 : drel d d' -> solve_all eig J1 d order kp wl = Ok d1 ->
  exists d1', solve_all eig J1 d' order (turn_kp a b s kp) wl = Ok d1' /\ drel d1 d1'.
Proof.
elim: order d d' => [|name r IH] d d' h /=; first by move=> [<-]; exists d'.
move: (h name); case: dict_get => [x|//]; case: dict_get => [x'|//] [[ho hs] hp] h1; unb h1 y hy; unb h1 v hv.
move: hy => [ey]; rewrite -{}ey in hv h1; case: x ho hs hp hv h1 => [[l|z] so] //; case: x' => [[l'|z'] so'] //= ho hs hp hv h1.
have [v' [hv' rv]] := layer_turn ho hv; rewrite hv' /=.
by apply: IH h1; apply: drel_set.
Qed.

(** The crystal. *)
Definition sol_rel (r r' : solution n) : Prop :=
  [/\ r_positions r' = r_positions r, r_Sls r' = map (omap conjS) (r_Sls r), r_Srs r' = map (omap conjS) (r_Srs r) & r_S r' = conjS (r_S r)].
Definition solo_rel (x x' : option (solution n)) : Prop :=
  match x, x' with Some r, Some r' => sol_rel r r' | None, None => True | _, _ => False end.
(** The polarisation of the two sources. *)
Definition amp (te tm : C) (kp : C * C) (te' tm' : C) : Prop := big kp -> forall kz inc,
  incident n te tm (kp.1, kp.2, kz) true = Ok inc ->
  exists x : C, Cmod x = 1%Re /\ incident n te' tm' ((turn_kp a b s kp).1, (turn_kp a b s kp).2, kz) true = Ok (x *: (GG *m inc)).
Definition source_rel kp (x x' : option source) : Prop :=
  match x, x' with
  | Some r, Some r' => s_wl r' = s_wl r /\ amp (s_te r) (s_tm r) kp (s_te r') (s_tm r')
  | None, None => True
  | _, _ => False
  end.
Record crel (c c' : crystal n) : Prop :=
  { cr_void : c_void c' = c_void c; cr_epsi : c_epsi c' = c_epsi c; cr_epse : c_epse c' = c_epse c;
    cr_exp : c_exp c = e; cr_exp' : c_exp c' = e'; cr_layers : drel (c_layers c) (c_layers c');
    cr_device : c_device c' = c_device c; cr_source : source_rel (c_kp c) (c_source c) (c_source c');
    cr_kp : c_kp c' = turn_kp a b s (c_kp c); cr_kzi : c_kzi c' = c_kzi c; cr_sol : solo_rel (c_solution c) (c_solution c') }.

Lemma kzi_turn k0 epsi kp : source_kzi k0 epsi (turn_kp a b s kp) = source_kzi k0 epsi kp.
Proof. by rewrite /source_kzi -!addrA -!opprD turn_norm. Qed.

Lemma omap_stack St i Ss mask r : stack_left St i Ss mask = Ok r ->
  stack_left (conjS St) i (map conjS Ss) mask = Ok (map (omap conjS) r.1, conjS r.2).
Proof.
elim: Ss St i r => [|Si Ss IH] St i r /=; first by move=> [<-].
move=> h; unb h S1 h1; unb h m h2; unb h r1 h3; move: h => [<-].
apply: (bind_to (redheffer_change p hab hss hph h1)); apply: (bind_to h2); apply: (bind_to (IH _ _ _ h3)).
by cbn [fst snd map]; case: (m).
Qed.
Lemma omap_right St i Ss mask r : stack_right St i Ss mask = Ok r ->
  stack_right (conjS St) i (map conjS Ss) mask = Ok (map (omap conjS) r).
Proof.
elim: Ss St i r => [|Si Ss IH] St i r /=; first by move=> [<-].
move=> h; unb h m h2; unb h S1 h1; unb h r1 h3; move: h => [<-].
apply: (bind_to h2); apply: (bind_to (redheffer_change p hab hss hph h1)); apply: (bind_to (IH _ _ _ h3)).
by cbn [map]; case: (m).
Qed.
Lemma stack_turn Ss mask r : stack_layers Ss mask = Ok r ->
  stack_layers (map conjS Ss) mask = Ok (map (omap conjS) r.1.1, map (omap conjS) r.1.2, conjS r.2).
Proof.
rewrite /stack_layers => h; unb h l1 h1; unb h r1 h2; move: h => [<-]; cbn [fst snd].
have c1 := conj_Id p hab hss hph; apply: bind_to; first by rewrite -[X in stack_left X]c1; exact: omap_stack h1.
apply: bind_to; first by rewrite -[X in stack_right X]c1 behead_map -map_rev; exact: omap_right h2.
by cbn [fst snd]; rewrite map_rev.
Qed.

Lemma depth_rel x x' : erel x x' -> obj_depth x'.1 = obj_depth x.1.
Proof. by case: x x' => [[l|z] so] [[l'|z'] so'] [] //= [_ _ _ h _]. Qed.
Lemma gets_rel d d' names es : drel d d' -> mapM (fun name => get (dict_get d name) KeyError) names = Ok es ->
  exists es', [/\ mapM (fun name => get (dict_get d' name) KeyError) names = Ok es',
    [seq obj_depth x.1 | x : entry n <- es'] = [seq obj_depth x.1 | x : entry n <- es] &
    forall Ss, mapM (@entry_S n) es = Ok Ss -> mapM (@entry_S n) es' = Ok (map conjS Ss)].
Proof.
move=> h; elim: names es => [|name l IH] es /=.
  by move=> [<-]; exists [::]; split=> // Ss [<-].
move: (h name); case: dict_get => [x|//]; case: dict_get => [x'|//] [hx _]; cbn [get bind].
move=> h1; unb h1 es1 h2; move: h1 => [<-]; have [es1' [h3 h4 h5]] := IH _ h2.
exists (x' :: es1'); split; first by apply: (bind_to h3).
  by cbn [map]; rewrite h4 (depth_rel hx).
move=> Ss /= h6; unb h6 S1 h7; unb h6 Ss1 h8; move: h6 => [<-].
apply: bind_to; last by apply: (bind_to (h5 _ h8)).
move: h7 hx; rewrite /entry_S => h7 [_]; unb h7 v hv; move: hv h7; case: (x.2) => [v1|//] [->]; case: (x'.2) => [v'|//] hs [e1 _].
by cbn [get bind]; rewrite e1; move: hs; case: (sl_S v) => //= ? [->].
Qed.

Lemma solve_rel c c' order c1 : crel c c' -> crystal_solve eig J1 order c = Ok c1 ->
  exists c1', crystal_solve eig J1 order c' = Ok c1' /\ crel c1 c1'.
Proof.
case: c c' => v ei ee ex ly dv sr kp kz so [v' ei' ee' ex' ly' dv' sr' kp' kz' so'] [] /= -> -> -> -> -> hl -> hs -> -> _.
rewrite /crystal_solve; cbn [c_void c_epsi c_epse c_exp c_layers c_device c_source c_kp c_kzi c_solution].
case: sr sr' hs => [r|] [r'|] //= [ew ha]; rewrite ew; case: dv => [dev|] //=; cbn [get bind].
move=> h; unb h dn h1; unb h es h2; unb h ps h3; unb h Ss h4; unb h st h5; move: h => [<-].
have [dn' [h1' rd]] := solve_all_rel hl h1; have [es' [h2' h3' h4']] := gets_rel rd h2.
eexists; split.
  apply: (bind_to h1'); apply: (bind_to h2'); rewrite h3'; apply: (bind_to h3); apply: (bind_to (h4' _ h4)).
  by apply: (bind_to (stack_turn h5)).
by split.
Qed.

(** The calls. *)
Hypothesis hpic : forall q q', pic q q' -> frel (FFT q) (FFT q') /\
  forall d l, pixmap_or_uniform e q d = Ok l -> exists l', pixmap_or_uniform e' q' d = Ok l' /\ lrel l l'.
Hypothesis hisl : forall i i' h, isl i i' -> frel (ANALYTICAL i h) (ANALYTICAL i' h).
Definition kp_of (epsi : C) (wl : R) (x : source_args) : res (C * C) :=
  match x.2 with Some k => Ok k | None => compute_kplanar epsi wl x.1.1.2 x.1.2 end.
Hypothesis hsrc : forall epsi wl x x' k, src x x' -> kp_of epsi wl x = Ok k ->
  kp_of epsi wl x' = Ok (turn_kp a b s k) /\ amp x.1.1.1.1 x.1.1.1.2 k x'.1.1.1.1 x'.1.1.1.2.

Lemma user_outer k : user_name k -> outer_name k -> False.
Proof. by case=> h1 h2 /orP [/eqP|/eqP]. Qed.

Lemma add_rel c c' name l l' : crel c c' -> lrel l l' -> user_name name -> crel (add_layer c name l) (add_layer c' name l').
Proof.
case: c c' => v ei ee ex ly dv sr kp kz so [v' ei' ee' ex' ly' dv' sr' kp' kz' so'] [] /= h1 h2 h3 h4 h5 h6 h7 h8 h9 h10 h11 hl hn.
by split=> //=; apply: drel_set => // ho; case: (user_outer hn ho).
Qed.

Lemma step_rel c c' o o' c1 : crel c c' -> alike pic isl src o o' -> outer_call o -> step eig J1 c o c1 ->
  exists c1', step eig J1 c' o' c1' /\ crel c1 c1'.
Proof.
move=> hc ha ho hs; case: hs ha ho => {o c1}.
- move=> name eps d; case: o' => //= x eps' d' [-> -> ->] hn.
  by eexists; split; [exact: step_uniform | apply: add_rel => //; split=> //; [exact: cr_exp hc | exact: cr_exp' hc]].
- move=> name q d; case: o' => //= x q' d' [-> /hpic [hq _] ->] hn.
  by eexists; split; [exact: step_pixmap | apply: add_rel => //; split=> //; [exact: cr_exp hc | exact: cr_exp' hc]].
- move=> name q d c1 h; case: o' => //= x q' d' [-> /hpic [_ hq] ->] hn.
  move: h; rewrite /add_pixmap_or_uniform (cr_exp hc) => h; unb h l hl; move: h => [<-]; have [l' [hl' rl]] := hq _ _ hl.
  exists (add_layer c' name l'); split; last exact: add_rel.
  by apply: step_pixmap_or_uniform; rewrite /add_pixmap_or_uniform (cr_exp' hc) hl'.
- move=> name i h d; case: o' => //= x i' h' d' [-> /hisl hi -> ->] hn.
  by eexists; split; [exact: step_analytical | apply: add_rel => //; split=> //; [exact: cr_exp hc | exact: cr_exp' hc | exact: hi]].
- by move=> name l; case: o'.
- by move=> name who l c1 _; case: o'.
- move=> stack mask c1 h; case: o' => //= st' m' [-> ->] _; move: h.
  case: c c' hc => v ei ee ex ly dv sr kp kz so [v' ei' ee' ex' ly' dv' sr' kp' kz' so'] [] /= h1 h2 h3 h4 h5 h6 h7 h8 h9 h10 h11.
  rewrite /set_device; cbn [c_void c_epsi c_epse c_exp c_layers c_device c_source c_kp c_kzi c_solution].
  rewrite h4 => h; unb h dn hd1; move: h => [<-].
  have [dn' [hd1' rd]] := enable_fields_rel (default_rel _ _ _ _ (default_rel _ _ _ _ h6)) hd1.
  eexists; split; first by apply: step_device; rewrite /set_device /= h1 h2 h3 h5; apply: (bind_to hd1').
  by split=> //=; rewrite h1.
- move=> wl te tm th phi kp c1 h; case: o' => //= wl' te' tm' th' phi' kp' [-> hs] _; move: h.
  case: c c' hc => v ei ee ex ly dv sr k0 kz so [v' ei' ee' ex' ly' dv' sr' k0' kz' so'] [] /= h1 h2 h3 h4 h5 h6 h7 h8 h9 h10 h11.
  rewrite /set_source; cbn [c_void c_epsi c_epse c_exp c_layers c_device c_source c_kp c_kzi c_solution] => h; unb h k hk; move: h.
  case ewl : Req_EM_T => [//|hw] [<-]; have [hk' hamp] := hsrc hs hk.
  eexists; split.
    apply: step_source; rewrite /set_source /= h2; apply: (bind_to hk'); rewrite ewl; exact: erefl.
  by split=> //=; rewrite h2 kzi_turn.
- move=> order c1 hp h; case: o' => // _ _; have [c1' [h1 h2]] := solve_rel hc h.
  by exists c1'; split=> //; apply: (step_solve (order := order)) => // dev; rewrite (cr_device hc); exact: hp.
Qed.

Lemma history_rel c c' ops ops' c1 : crel c c' -> all_alike pic isl src ops ops' -> all_calls outer_call ops -> history eig J1 c ops c1 ->
  exists c1', history eig J1 c' ops' c1' /\ crel c1 c1'.
Proof.
move=> hc ha ho hh; elim: hh c' ops' hc ha ho => {c ops c1} [c|c o ops c1 c2 st1 _ IH] c' [|o' ops'] hc //=.
  by move=> _ _; exists c'; split=> //; exact: history_nil.
case=> ha1 ha2 [ho1 ho2]; have [c1' [h1 h2]] := step_rel hc ha1 ho1 st1.
have [c2' [h3 h4]] := IH _ _ h2 ha2 ho2.
by exists c2'; split=> //; apply: history_cons h1 h3.
Qed.

(** Fluxes. *)
Hypothesis hmod : forall i, Cmod (ph i) = 1%Re.
Definition renamed (t : 'rV[R]_n) : 'rV[R]_n := \row_i t 0 (p i).

Lemma abs2_mod z : abs2 z = (Cmod z * Cmod z)%Re.
Proof. by rewrite /abs2 /Cmod sqrt_sqrt /=; [ring | nra]. Qed.
Lemma abs2_unit x z : Cmod x = 1%Re -> abs2 (x * z) = abs2 z.
Proof. by move=> hx; rewrite !abs2_mod (Cmod_mult x z) hx; ring. Qed.
Lemma abs2_turn (x y : C) : Rplus (abs2 (A * x + B * y)) (abs2 (- (S * B) * x + S * A * y)) = Rplus (abs2 x) (abs2 y).
Proof.
case: iso => h hs; have s2 : (s * s = 1)%Re by case: hs => ->; ring.
have h1 : (a * a = 1 - b * b)%Re by lra.
by rewrite /abs2 /=; ring [h1 s2].
Qed.
Lemma dot_turn (x y u v : C) :
  (A * x + B * y) * (A * u + B * v) + (- (S * B) * x + S * A * y) * (- (S * B) * u + S * A * v) = x * u + y * v.
Proof.
have h1 : Cmult A A = Cminus (RtoC 1) (Cmult B B) by move: hab => h; rewrite -[RtoC 1]/(1 : C) -h; toC; ring.
have h2 : Cmult S S = RtoC 1 := hss.
by toC; ring [h1 h2].
Qed.

Lemma mm_col (v : 'cV[C]_n) i : (mm ph p *m v) i 0 = ph i * v (p i) 0.
Proof. by rewrite mxE (bigD1 (p i)) //= big1 ?addr0 ?mxE ?eqxx // => k /negbTE hk; rewrite mxE hk mul0r. Qed.
Lemma colE (x y : C) (u v : 'cV[C]_n) i : (x *: u + y *: v) i 0 = x * u i 0 + y * v i 0.
Proof. by rewrite !mxE. Qed.
Lemma GG_l (v : 'cV[C]_(n + n)) i : (GG *m v) (lshift n i) 0 = ph i * (A * v (lshift n (p i)) 0 + B * v (rshift n (p i)) 0).
Proof.
rewrite -[v in LHS]vsubmxK mul_block_col col_mxEu -!scalemxAl colE !mm_col !(mulrCA _ (ph i)) -mulrDr.
by congr (_ * (_ * _ + _ * _)); rewrite mxE.
Qed.
Lemma GG_r (v : 'cV[C]_(n + n)) i : (GG *m v) (rshift n i) 0 = ph i * (- (S * B) * v (lshift n (p i)) 0 + S * A * v (rshift n (p i)) 0).
Proof.
rewrite -[v in LHS]vsubmxK mul_block_col col_mxEd -!scalemxAl colE !mm_col !(mulrCA _ (ph i)) -mulrDr.
by congr (_ * (_ * _ + _ * _)); rewrite mxE.
Qed.

Lemma fluxes_turn (v : 'cV[C]_(n + n)) kp wl epsi epse x t : Cmod x = 1%Re -> poynting_fluxes e v kp wl epsi epse = Ok t ->
  poynting_fluxes e' (x *: (GG *m v)) (turn_kp a b s kp) wl epsi epse = Ok (renamed t).
Proof.
move=> hx; rewrite /poynting_fluxes; case: Req_EM_T => // hw h; unb h k hk; move: h.
have -> : flux_kzi (2 * PI / wl) (turn_kp a b s kp) epsi = flux_kzi (2 * PI / wl) kp epsi.
  by rewrite /flux_kzi -!/(source_kzi _ _ _) kzi_turn.
rewrite (krows_turn hk); cbn [bind fst snd]; case: Req_EM_T => // hr; case: ifP => // hz [<-].
have -> : [exists j, rn k.2 0 j == 0] = false.
  by apply/negbTE/existsPn => j; rewrite mxE; move/negbT/existsPn: hz.
have el i : (x *: (GG *m v)) (lshift n i) 0 = (x * ph i) * (A * v (lshift n (p i)) 0 + B * v (rshift n (p i)) 0) by rewrite mxE GG_l mulrA.
have er i : (x *: (GG *m v)) (rshift n i) 0 = (x * ph i) * (- (S * B) * v (lshift n (p i)) 0 + S * A * v (rshift n (p i)) 0) by rewrite mxE GG_r mulrA.
have hu i : Cmod (x * ph i) = 1%Re by rewrite (Cmod_mult x (ph i)) hx hmod; ring.
move: (x *: _) el er => w el er.
congr Ok; apply/rowP => i; rewrite !mxE el er.
move: (x * ph i) (hu i) (v _ _) (v _ _) (k.1.1 _ _) (k.1.2 _ _) (k.2 _ _) => X hX sx sy kx ky kz.
rewrite !(mulrCA _ X) -mulrDr dot_turn -(mulrN X) -(mulrA X (- _)) !(abs2_unit _ hX).
by rewrite abs2_turn.
Qed.

(** The source. *)
Lemma amp_pol te tm kp te' tm' : (forall i : 'I_n, val i = ((n - 1) %/ 2)%N -> p i = i) ->
  (big kp -> forall kz q, pol_vector te tm (kp.1, kp.2, kz) true = Ok q -> exists z,
     pol_vector te' tm' ((turn_kp a b s kp).1, (turn_kp a b s kp).2, kz) true =
       Ok ((turn_kp a b s q.1).1, (turn_kp a b s q.1).2, z)) ->
  amp te tm kp te' tm'.
Proof.
move=> hc hq hb kz inc; rewrite /incident => h; unb h q h1; have [z hq'] := hq hb kz q h1; move: h.
case: ifP => // n0 [<-]; rewrite hq'; cbn [bind fst snd].
have lt : ((n - 1) %/ 2 < n)%N by apply: leq_ltn_trans (leq_div _ _) _; rewrite ltn_subrL [(0 < n)%N]lt0n n0.
pose i0 := Ordinal lt; exists (ph i0)^-1.
have m1 : Cmod (ph i0)^-1 = 1%Re.
  by rewrite [LHS]Cmod_inv ?hmod ?Rinv_1 //; apply/eqP.
split=> //; congr Ok; rewrite mul_block_col -!scalemxAl -!scalemxAr.
set delta := \col_j _; have md : mm ph p *m delta = ph i0 *: delta.
  apply/colP => i; rewrite mm_col mxE [in RHS]mxE [in RHS]mxE.
  case: (boolP (val i == ((n - 1) %/ 2)%N)) => hi.
    have ei : i = i0 by apply: val_inj; exact/eqP.
    by rewrite ei hc // eqxx.
  have -> : (val (p i) == ((n - 1) %/ 2)%N) = false.
    apply/negbTE; apply: contra hi => /eqP hi; have e1 : p i = i0 by exact: val_inj.
    by rewrite -(hc i0 erefl) in e1; move/perm_inj: e1 => ->.
  by rewrite !mulr0.
rewrite md !scalerA -!scalerDl scale_col_mx !scalerA.
have c1 : (ph i0)^-1 * ph i0 = 1 by rewrite mulVf.
move: c1; move: (ph i0)^-1 => w; move: (ph i0) => f c1; have c2 : Cmult w f = RtoC 1 := c1.
by congr col_mx; congr (_ *: _); rewrite /turn_kp; cbn [fst snd]; move: (q.1.1) (q.1.2) => x y; toC; ring [c2].
Qed.

Lemma modes_outer c c' k m : crel c c' -> outer_name k -> named_modes c k = Ok m ->
  m.1.1 = 1%:M /\ exists m', named_modes c' k = Ok m' /\ m'.1.1 = 1%:M.
Proof.
move=> hc ho; rewrite /named_modes; move: (cr_layers hc k); case: dict_get => [x|//]; case: dict_get => [x'|//] [[_ hs] hp]; cbn [get bind].
case: (x.2) hs => [v|//]; case: (x'.2) => [v'|//] [_ /(_ (hp ho))]; cbn [get bind].
case: (sl_modes v) => [y|//]; case: (sl_modes v') => [y'|//] [h1 h2] [<-]; split=> //.
by exists y'.
Qed.

Lemma orders_rel c c' Rs Ts : crel c c' -> big (c_kp c) -> poynting_flux_orders c = Ok (Rs, Ts) ->
  poynting_flux_orders c' = Ok (renamed Rs, renamed Ts).
Proof.
move=> hc hbig; rewrite /poynting_flux_orders => h; unb h sol hsol; unb h sr hsr; unb h inc hinc; unb h mr hmr; unb h iW hiW; unb h mt hmt.
unb h T1 hT; unb h R2 hR; move: h => [<- <-].
have [w1 [mr' [hmr' w1']]] := modes_outer hc (isT : outer_name Sref) hmr.
have [w2 [mt' [hmt' w2']]] := modes_outer hc (isT : outer_name Strans) hmt.
have i1 : @inv C_fieldType (n + n) 1%:M = Ok 1%:M by rewrite /inv unitmx1 invmx1.
move: hiW hT hR; rewrite w1 w2 i1 => -[<-]; rewrite !mul1mx => hT hR.
move: (cr_sol hc) hsol; case: (c_solution c) => [r|//]; case: (c_solution c') => [r'|//] [_ _ _ eS] [er]; rewrite {}er in eS.
move: (cr_source hc) hsr hinc hT hR; case: (c_source c) => [q|//]; case: (c_source c') => [q'|//] [ew ha] [eq1]; rewrite -{}eq1 => hinc hT hR.
have [x [hx hinc']] := ha hbig _ _ hinc; cbn [get bind].
rewrite (cr_kp hc) (cr_kzi hc) (cr_epsi hc) (cr_epse hc) (cr_exp' hc).
rewrite (cr_exp hc) in hT hR.
apply: (bind_to hinc'); apply: (bind_to hmr'); rewrite w1'; apply: (bind_to i1); apply: (bind_to hmt'); rewrite w2' !mul1mx eS ew.
have g (M : 'M[C]_(n + n)) : CJ M *m (x *: (GG *m inc)) = x *: (GG *m (M *m inc)).
  by rewrite -scalemxAr /CJ -!mulmxA (mulmxA (Gi _ _ _ _ _)) GiK ?mul1mx //; [exact: hab | exact: hss].
rewrite /SymCore.conjS; cbn [s11 s21]; rewrite !g.
by apply: (bind_to (fluxes_turn hx hT)); apply: (bind_to (fluxes_turn hx hR)).
Qed.
End Device.
