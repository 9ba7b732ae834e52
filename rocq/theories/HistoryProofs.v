(** Histories of calls: what a solve depends on. *)
From Coq Require Import Reals ZArith Lra Lia String.
From mathcomp Require Import all_ssreflect all_algebra.
From Coquelicot Require Import Complex Rbar.
From Verif Require Import Base ZmodTac CField CFun ModelRedheffer ModelLayer
  ModelExpansion SpecExpansion ModelFlux ModelFourier ModelExtension ModelDevice SpecDevice StringEq DeviceProofs.
Set Implicit Arguments. Unset Strict Implicit. Unset Printing Implicit Defensive.
Import GRing.Theory.
Local Open Scope ring_scope.

Section History.
Variables (eig : forall m, 'M[C]_m -> 'rV[C]_m * 'M[C]_m) (J1 : R -> R) (n : nat).
Implicit Types (c : crystal n).

Definition uniq_names c := uniq (map fst (c_layers c)).
Lemma created_uniq c v e1 e2 : created c v e1 e2 -> uniq_names c.
Proof.
case.
  case=> pw [l [a]]; rewrite /mk_crystal; case: (crystal_lattice a l) => [lat|//] /=.
  by case he : (mk_expansion pw lat) => [e|//] /=; case: ifP => // _ [<-].
case=> e [l [a [he]]]; rewrite /from_expansion; case: (mk_crystal _ _ _ _ _ _ _) => [c0|//] /= [<-].
by [].
Qed.
Lemma enable_uniq (d : seq (string * entry n)) l d' :
  uniq (map fst d) -> enable_fields d l = Ok d' -> uniq (map fst d').
Proof.
elim: l d => [|[name b] l IH] d hd /=; first by case=> <-.
by case hg : (dict_get d name) => [x|//] /=; apply: IH; apply: dict_uniq_set.
Qed.
Lemma solve_all_uniq (d : seq (string * entry n)) o kp wl d' :
  uniq (map fst d) -> solve_all eig J1 d o kp wl = Ok d' -> uniq (map fst d').
Proof. by move=> u /solve_all_ok [-> _]. Qed.

(** What a solve did. *)
Definition parts c (order : seq string) c' src dev d es pos Ss (st : seq (option (smat C_fieldType (n + n))) * seq (option (smat C_fieldType (n + n))) * smat C_fieldType (n + n)) : Prop :=
  [/\ [/\ c_source c = Some src, c_device c = Some dev, solve_all eig J1 (c_layers c) order (c_kp c) (s_wl src) = Ok d &
      mapM (fun name => get (dict_get d name) KeyError) dev.1.2 = Ok es],
      stack_positions (c_void c) [seq obj_depth e.1 | e : entry n <- es] = Ok pos,
      mapM (@entry_S n) es = Ok Ss, stack_layers Ss dev.2 = Ok st &
      c' = Crystal (c_void c) (c_epsi c) (c_epse c) (c_exp c) d (c_device c) (c_source c) (c_kp c) (c_kzi c)
        (Some (Solution pos st.1.1 st.1.2 st.2))].
Lemma solve_parts order c c' : crystal_solve eig J1 order c = Ok c' <->
  exists src dev d es pos Ss st, parts c order c' src dev d es pos Ss st.
Proof.
rewrite /crystal_solve; split.
  case hsrc : (c_source c) => [src|//] /=; case hdev : (c_device c) => [dev|//] /=.
  case hd : (solve_all _ _ _ _ _ _) => [d|//] /=.
  case hes : (mapM _ _) => [es|//] /=; case hp : (stack_positions _ _) => [pos|//] /=.
  case hS : (mapM _ _) => [Ss|//] /=; case hst : (stack_layers _ _) => [st|//] /= [<-].
  by exists src, dev, d, es, pos, Ss, st; rewrite /parts hsrc hdev.
case=> src [dev [d [es [pos [Ss [st [[-> -> /= hd hes] hp hS hst ->]]]]]]].
by rewrite hd /= hes /= hp /= hS /= hst.
Qed.

Lemma step_uniq c o c' : uniq_names c -> step eig J1 c o c' -> uniq_names c'.
Proof.
rewrite /uniq_names => u [].
- by move=> *; apply: dict_uniq_set.
- by move=> *; apply: dict_uniq_set.
- move=> name p d c1; rewrite /add_pixmap_or_uniform; case: (pixmap_or_uniform _ _ _) => [l|//] /= [<-].
  exact: dict_uniq_set.
- by move=> *; apply: dict_uniq_set.
- by move=> *; apply: dict_uniq_set.
- move=> name who l c1; rewrite /add_layer_extended; case: (mk_extended _ _ _) => [x|//] /= [<-].
  exact: dict_uniq_set.
- move=> stack mask c1; rewrite /set_device.
  case hd : (enable_fields _ _) => [d|//] /= [<-] /=; apply: enable_uniq hd.
  by rewrite /add_default; case: ifP => _; try apply: dict_uniq_set; case: ifP => _; try apply: dict_uniq_set.
- move=> wl te tm th ph kp c1; rewrite /set_source.
  case: (match kp with Some _ => _ | None => _ end) => [k|//] /=.
  by destruct (Req_EM_T wl 0) as [h0|h0] => // -[<-].
- move=> order c1 _ /solve_parts [src [dev [d [es [pos [Ss [st [[_ _ hd _] _ _ _ ->]]]]]]]] /=.
  exact: solve_all_uniq hd.
Qed.
Lemma history_uniq c ops c' : uniq_names c -> history eig J1 c ops c' -> uniq_names c'.
Proof.
move=> g hh; elim: hh g => {c ops c'} [//|c o ops c1 c2 hs _ IH] g; apply: IH.
exact: step_uniq hs.
Qed.

(** The order in which the set of layers is visited does not matter. *)
Lemma solve_order c o1 o2 c1 : uniq_names c -> o1 =i o2 ->
  crystal_solve eig J1 o1 c = Ok c1 -> crystal_solve eig J1 o2 c = Ok c1.
Proof.
move=> u ho /solve_parts [src [dev [d [es [pos [Ss [st [[h1 h2 h3 h4] h5 h6 h7 ->]]]]]]]].
apply/solve_parts; exists src, dev, d, es, pos, Ss, st; split=> //; split=> //.
have [k1 g1] := solve_all_ok h3.
have [d2 hd2] : is_ok (solve_all eig J1 (c_layers c) o2 (c_kp c) (s_wl src)).
  apply: solve_all_def => k; rewrite -ho => hk; have := g1 k; rewrite hk.
  by case=> x [s [? ? _]]; exists x, s.
rewrite hd2; have [k2 g2] := solve_all_ok hd2; congr Ok; apply: dict_ext.
- by rewrite k2.
- by rewrite k1 k2.
move=> k; have := g1 k; have := g2 k; rewrite ho; case: ifP => _; last by move=> -> ->.
case=> x [s [hx hs ->]] [x' [s' [hx' hs' ->]]].
by move: hx'; rewrite hx => -[ex]; rewrite -ex in hs' *; move: hs'; rewrite hs => -[->].
Qed.
Lemma solve_unique c c1 c2 : uniq_names c -> step eig J1 c Solve c1 -> step eig J1 c Solve c2 -> c1 = c2.
Proof.
move=> u s1 s2; inversion s1 as [| | | | | | | |o1 cc1 p1 h1 e1]; inversion s2 as [| | | | | | | |o2 cc2 p2 h2 e2]; subst cc1 cc2.
case hdev : (c_device c) => [dev|]; last first.
  by move/solve_parts: h1 => [src [dev [d [es [pos [Ss [st [[_ ]]]]]]]]]; rewrite hdev.
have eo : o1 =i o2 by apply: perm_mem; apply: perm_trans (p1 _ hdev) _; rewrite perm_sym; exact: p2.
by have := solve_order u eo h1; rewrite h2 => -[].
Qed.

Lemma same_layer_solve N l l' kp wl s s' : same_layer l l' ->
  layer_solve eig J1 N l kp wl = Ok s -> layer_solve eig J1 N l' kp wl = Ok s' -> sl_S s = sl_S s'.
Proof.
case: l l' => e f d b [e' f' d' b'] [/= <- <- <-]; rewrite /layer_solve /=.
case: (krows _ _ _ _ _) => [k|//] /=; case: (free_space_eigenmodes _ _) => [g|//] /=.
have st Cm : 
  (do IC <- inv Cm; do m <- solve_structured_layer (eig (m:=_)) k.1.1 k.1.2 Cm;
   do S <- build_scatmat m.1.1 m.1.2 g.1 g.2 m.2 d (2 * PI / wl);
   Ok (if b then Solved (Some S) (Some m) (Some (inr IC)) None
       else Solved (Some S) None None None)) = Ok s ->
  (do IC <- inv Cm; do m <- solve_structured_layer (eig (m:=_)) k.1.1 k.1.2 Cm;
   do S <- build_scatmat m.1.1 m.1.2 g.1 g.2 m.2 d (2 * PI / wl);
   Ok (if b' then Solved (Some S) (Some m) (Some (inr IC)) None
       else Solved (Some S) None None None)) = Ok s' -> sl_S s = sl_S s'.
  case: (inv Cm) => [IC|//] /=; case: (solve_structured_layer _ _ _ _) => [m|//] /=.
  by case: (build_scatmat _ _ _ _ _ _ _) => [S|//] /= [<-] [<-]; case: b; case: b'.
case: f => [p|eps|isl h|eps|eps|].
- case: (convolution_matrix _ _ _) => [Cm|//] /=; exact: st.
- case: (solve_uniform_layer _ _ _ _) => [m|//] /=; case: (build_scatmat _ _ _ _ _ _ _) => [S|//] /=.
  by case: (one_over _) => [ic|//] /= [<-] [<-]; case: (b); case: (b').
- case: (analytical_matrix _ _ _ _ _) => [Cm|//] /=; exact: st.
- case: (scattering_reflection _ _ _ _ _ _) => [r|//] /=.
  by case: (one_over _) => [ic|//] /= [<-] [<-]; case: (b); case: (b').
- case: (scattering_transmission _ _ _ _ _ _) => [r|//] /=.
  by case: (one_over _) => [ic|//] /= [<-] [<-]; case: (b); case: (b').
by case=> <- [<-].
Qed.
Lemma mapM_eq A B D (f g : A -> res B) (h : B -> res D) l ys zs y' z' :
  (forall x y z, f x = Ok y -> g x = Ok z -> h y = h z) ->
  mapM f l = Ok ys -> mapM g l = Ok zs -> mapM h ys = Ok y' -> mapM h zs = Ok z' -> y' = z'.
Proof.
move=> hh; elim: l ys zs y' z' => [|x l IH] ys zs y' z' /=; first by case=> <- [<-] /= [<-] [<-].
case hf : (f x) => [y|//] /=; case hl : (mapM f l) => [ys'|//] /= [<-].
case hg : (g x) => [z|//] /=; case hl' : (mapM g l) => [zs'|//] /= [<-] /=.
rewrite (hh _ _ _ hf hg); case: (h z) => [w|//] /=.
case h1 : (mapM h ys') => [w1|//] /= [<-]; case h2 : (mapM h zs') => [w2|//] /= [<-].
by rewrite (IH _ _ _ _ hl hl' h1 h2).
Qed.
Lemma same_obj_solve o o' kp wl (s s' : solved n) : same_object o o' ->
  obj_solve eig J1 n o kp wl = Ok s -> obj_solve eig J1 n o' kp wl = Ok s' -> sl_S s = sl_S s'.
Proof.
case: o o' => [l|x] [l'|x'] //=; first exact: same_layer_solve.
case: x x' => e m gs b fl [e' m' gs' b' fl'] [/= _ <- <- hb].
have [eb1 eb2 eb3] := hb.
rewrite /extended_solve /= -eb1 -eb2 -eb3.
case h1 : (mapM _ gs) => [sols|//] /=; case h2 : (mapM _ sols) => [Ss|//] /=.
case h3 : (joint_subspace _ _ _) => [S|//] /= k1.
case h1' : (mapM _ gs) => [sols'|//] /=; case h2' : (mapM _ sols') => [Ss'|//] /=.
case h3' : (joint_subspace _ _ _) => [S'|//] /= k2.
have eS : S = S'.
  have eSs : Ss = Ss'; last by move: h3; rewrite eSs h3' => -[].
  apply: (mapM_eq _ h1 h1' h2 h2') => g s1 s2 g1 g2.
  by rewrite (same_layer_solve _ g1 g2).
have -> : sl_S s = Some S.
  move: k1; case: fl {h1} => [|[<-] //].
  case: (mapM _ _) => [ms|//] /=; case: (joint_subspace1 _ _ _) => [W|//] /=.
  case: (joint_subspace1 _ _ _) => [V|//] /=; case: (extended_freespace _ _ _ _ _ _ _) => [f|//] /=.
  by case: (joint_subspace1 _ _ _) => [L|//] /= [<-].
rewrite eS; apply/esym.
move: k2; case: fl' {h1'} => [|[<-] //].
case: (mapM _ _) => [ms|//] /=; case: (joint_subspace1 _ _ _) => [W|//] /=.
case: (joint_subspace1 _ _ _) => [V|//] /=; case: (extended_freespace _ _ _ _ _ _ _) => [f|//] /=.
by case: (joint_subspace1 _ _ _) => [L|//] /= [<-].
Qed.
Lemma same_obj_depth o o' : same_object o o' -> obj_depth o = obj_depth o'.
Proof. by case: o o' => [l|x] [l'|x'] //= => [[]|[_ _ _ []]]. Qed.

(** The solution depends only on the current problem. *)
Lemma solve_same c1 c2 c1' c2' : same_problem c1 c2 -> step eig J1 c1 Solve c1' -> step eig J1 c2 Solve c2' ->
  c_solution c1' = c_solution c2'.
Proof.
case=> hv hdev hkp hsrc hobj s1 s2.
inversion s1 as [| | | | | | | |o1 cc1 p1 h1 e1]; inversion s2 as [| | | | | | | |o2 cc2 p2 h2 e2]; subst cc1 cc2.
move/solve_parts: h1 => [src1 [dev [d1 [es1 [pos1 [Ss1 [st1 [[a1 a2 a3 a4] a5 a6 a7 ->]]]]]]]].
move/solve_parts: h2 => [src2 [dev2 [d2 [es2 [pos2 [Ss2 [st2 [[b1 b2 b3 b4] b5 b6 b7 ->]]]]]]]].
have ed : dev2 = dev by move: b2; rewrite -hdev a2 => -[].
subst dev2; rewrite -hkp -(hsrc _ _ a1 b1) in b3.
have [_ g1] := solve_all_ok a3; have [_ g2] := solve_all_ok b3.
have key k x y : k \in dev.1.2 -> dict_get d1 k = Some x -> dict_get d2 k = Some y ->
  obj_depth x.1 = obj_depth y.1 /\ entry_S x = entry_S y.
  move=> hk hx hy; have := g1 k; have := g2 k.
  rewrite (perm_mem (p1 _ a2)) (perm_mem (p2 _ b2)) !mem_undup hk hx hy.
  case=> y0 [t [ht1 ht2 [->]]] [x0 [s [hs1 hs2 [->]]]] /=.
  have so := hobj _ _ a2 hk _ _ hs1 ht1; split; first exact: same_obj_depth.
  by rewrite /entry_S /= (same_obj_solve so hs2 ht2).
have eget : forall l es es', {subset l <= dev.1.2} ->
  mapM (fun name => get (dict_get d1 name) KeyError) l = Ok es ->
  mapM (fun name => get (dict_get d2 name) KeyError) l = Ok es' ->
  [seq obj_depth e.1 | e : entry n <- es] = [seq obj_depth e.1 | e : entry n <- es'] /\
  mapM (@entry_S n) es = mapM (@entry_S n) es'.
  elim=> [|k l IH] es es' hl /=; first by case=> <- [<-].
  case hx : (dict_get d1 k) => [x|//] /=; case hm : (mapM _ l) => [xs|//] /= [<-].
  case hy : (dict_get d2 k) => [y|//] /=; case hm' : (mapM _ l) => [ys|//] /= [<-].
  have [-> ->] := key k x y (hl k (mem_head _ _)) hx hy.
  have hl' : {subset l <= dev.1.2} by move=> z hz; apply: hl; rewrite in_cons hz orbT.
  by have [-> ->] := IH _ _ hl' hm hm'.
have [f1 f2] := eget _ _ _ (fun _ h => h) a4 b4.
move: a5 b5; rewrite f1 hv => -> [->]; move: a6 b6; rewrite f2 => -> [eS].
by subst Ss2; move: a7; rewrite b7 => -[->].
Qed.

(** Solving again changes nothing. *)
Lemma solve_again c c1 c2 : uniq_names c -> step eig J1 c Solve c1 ->
  c_layers c2 = c_layers c1 -> c_device c2 = c_device c1 -> c_kp c2 = c_kp c1 -> c_void c2 = c_void c1 ->
  (forall src src', c_source c1 = Some src -> c_source c2 = Some src' -> s_wl src = s_wl src') ->
  forall c3, step eig J1 c2 Solve c3 -> c_layers c3 = c_layers c1 /\ c_solution c3 = c_solution c1.
Proof.
move=> u s1 hl hd hk hv hs c3 s3; split; last first.
  apply/esym; apply: (solve_same _ s1 s3).
  inversion s1 as [| | | | | | | |o1 cc1 p1 h1 e1]; subst cc1.
  move/solve_parts: h1 => [src1 [dev [d1 [es1 [pos1 [Ss1 [st1 [[a1 a2 a3 a4] a5 a6 a7 ee]]]]]]]].
  rewrite ee /= in hl hd hk hv hs; split=> // dev' k hdv hk' x x' hx.
  rewrite hl; have [_ /(_ k)] := solve_all_ok a3; case: ifP => _.
    by case=> x0 [s [q1 q2 q3]]; rewrite q3 => -[<-] /=; move: q1; rewrite hx => -[<-]; case: (x.1) => [l|y] /=; split.
  by rewrite hx => -> [<-]; case: (x.1) => [l|y] /=; split.
inversion s1 as [| | | | | | | |o1 cc1 p1 h1 e1]; subst cc1.
inversion s3 as [| | | | | | | |o3 cc3 p3 h3 e3]; subst cc3.
move/solve_parts: h1 => [src1 [dev [d1 [es1 [pos1 [Ss1 [st1 [[a1 a2 a3 a4] a5 a6 a7 ee]]]]]]]].
move/solve_parts: h3 => [src3 [dev3 [d3 [es3 [pos3 [Ss3 [st3 [[b1 b2 b3 b4] b5 b6 b7 ->]]]]]]]] /=.
rewrite ee /= in hl hd hk hs *.
have ed : dev3 = dev by move: b2; rewrite hd a2 => -[].
subst dev3; rewrite hl hk -(hs _ _ a1 b1) in b3.
have [k1 g1] := solve_all_ok a3; have [k3 g3] := solve_all_ok b3.
apply: dict_ext => //; first by rewrite k3 k1.
move=> k; have := g1 k; have := g3 k.
rewrite (perm_mem (p1 _ a2)) (perm_mem (p3 _ b2)); case: ifP => // _.
case=> x [s [q1 q2 ->]] [x0 [s0 [r1 r2 r3]]].
by move: q1; rewrite r3 => -[ex]; rewrite -ex /= in q2 *; move: q2; rewrite r2 => -[->].
Qed.
End History.
