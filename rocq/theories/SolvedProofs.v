(** What a solved device holds, and where each depth lies. *)
From Coq Require Import Reals ZArith Lra Lia String.
From mathcomp Require Import all_ssreflect all_algebra.
From Coquelicot Require Import Complex Rbar.
From Verif Require Import Base ZmodTac CField CFun ModelRedheffer SpecScatter SpecStack RedhefferProofs ModelLayer
  ModelExpansion SpecExpansion ModelFlux ModelFourier ModelExtension ModelDevice SpecDevice StringEq DeviceProofs DeviceEnergy
  HistoryProofs DepthProofs ModelFields SpecFields StackProofs.
Set Implicit Arguments. Unset Strict Implicit. Unset Printing Implicit Defensive.
Import GRing.Theory.
Local Open Scope ring_scope.

Lemma find_eq T (a : pred T) s x0 k : (k < size s)%N -> a (nth x0 s k) ->
  (forall i, (i < k)%N -> ~~ a (nth x0 s i)) -> find a s = k.
Proof.
elim: s k => [//|x s IH] [|k] /= hk ha h; first by rewrite ha.
by rewrite (negbTE (h 0%N isT)) (IH k) // => i hi; exact: (h i.+1).
Qed.

(** * Where each depth lies *)
Section Locate.
Variables (eig : forall m, 'M[C]_m -> 'rV[C]_m * 'M[C]_m) (J1 : R -> R) (n : nat).
Implicit Types (c : crystal n).

Lemma depth_beforeS ds i : depth_before ds i.+1 = (depth_before ds i + nth 0%Re ds i)%Re.
Proof. by rewrite /depth_before big_ord_recr. Qed.
Lemma depth_before0 ds : depth_before ds 0 = 0%Re.
Proof. by rewrite /depth_before big_ord0. Qed.
Lemma depth_mono ds i j : nonneg ds -> (i <= j)%N -> (depth_before ds i <= depth_before ds j)%Re.
Proof.
move=> h; elim: j => [|j IH]; first by rewrite leqn0 => /eqP ->; lra.
rewrite leq_eqVlt => /orP [/eqP ->|]; first lra.
by rewrite ltnS => /IH; rewrite depth_beforeS; have := h j; lra.
Qed.
Lemma depths_same c ds ds' : device_depths c ds -> device_depths c ds' -> ds = ds'.
Proof.
case=> dev [h1 h2 h3] [dev' [h1' h2' h3']].
have e : dev' = dev by move: h1'; rewrite h1 => -[].
subst dev'; apply: (@eq_from_nth _ 0%Re); first by rewrite h2 h2'.
move=> i hi; have [x [a1 a2]] := h3 i hi; have [|x' [b1 b2]] := h3' i; first by rewrite h2' -h2.
by move: b1; rewrite a1 -a2 -b2 => -[->].
Qed.

Definition posns ds := m_infty :: rcons (mkseq (fun k => Finite (depth_before ds k)) (size ds).+1) p_infty.
Lemma size_posns ds : size (posns ds) = (size ds).+3.
Proof. by rewrite /= size_rcons size_map size_iota. Qed.
Lemma nth_posns ds k : (k <= size ds)%N -> nth p_infty (posns ds) k.+1 = Finite (depth_before ds k).
Proof.
move=> h; rewrite -[LHS]/(nth p_infty (rcons (mkseq (fun k => Finite (depth_before ds k)) (size ds).+1) p_infty) k).
by rewrite nth_rcons size_mkseq ltnS h nth_mkseq.
Qed.
Lemma nth_posns_last ds : nth p_infty (posns ds) (size ds).+2 = p_infty.
Proof.
rewrite -[LHS]/(nth p_infty (rcons (mkseq (fun k => Finite (depth_before ds k)) (size ds).+1) p_infty) (size ds).+1).
by rewrite nth_rcons size_mkseq ltnn eqxx.
Qed.
(** The three places. *)
Lemma search_first ds z : (z <= 0)%Re -> searchsorted (posns ds) z = 1%N.
Proof.
move=> h; apply: (@find_eq _ _ _ p_infty); rewrite ?size_posns // ?nth_posns // ?depth_before0 /below.
  by case: Rlt_dec => // h'; lra.
by case.
Qed.
Lemma search_mid ds z i : nonneg ds -> (i < size ds)%N -> (depth_before ds i < z)%Re -> (z <= depth_before ds i.+1)%Re ->
  searchsorted (posns ds) z = i.+2.
Proof.
move=> hn hi h1 h2; apply: (@find_eq _ _ _ p_infty); first by rewrite size_posns !ltnS ltnW.
  by rewrite nth_posns // /below; case: Rlt_dec => // h'; lra.
case=> [//|j]; rewrite !ltnS => hj; rewrite nth_posns; last exact: (leq_trans hj (ltnW hi)).
by rewrite /below; case: Rlt_dec => // h'; have := depth_mono hn hj; lra.
Qed.
Lemma search_last ds z : nonneg ds -> (depth_before ds (size ds) < z)%Re -> searchsorted (posns ds) z = (size ds).+2.
Proof.
move=> hn h; apply: (@find_eq _ _ _ p_infty); first by rewrite size_posns.
  by rewrite nth_posns_last.
case=> [//|j]; rewrite !ltnS => hj; rewrite nth_posns //.
by rewrite /below; case: Rlt_dec => // h'; have := depth_mono hn hj; lra.
Qed.
Lemma py_predS A (x0 : A) (l : seq A) k : (k < size l)%N -> py_pred l k.+1 = Ok (nth x0 l k).
Proof. by case: l => [//|x l] h; rewrite /py_pred h (set_nth_default x0). Qed.

(** The names of a solved device are registered. *)
Lemma solved_names c c' : outer_ok c false -> step eig J1 c Solve c' ->
  exists dev, [/\ c_device c' = Some dev, dev.1.2 = Sref :: rcons dev.1.1 Strans &
    forall i, (i < size dev.1.2)%N -> exists x, dict_get (c_layers c') (nth ""%string dev.1.2 i) = Some x].
Proof.
case=> hv ht hdv hs; inversion hs as [| | | | | | | |order cc ho hsol ex]; subst cc.
move: hsol => /solve_parts [src [dev [d [es [pos [Ss [st [[h1 h2 h3 h4] h5 h6 h7 ->]]]]]]]].
exists dev; split=> //=; first exact: hdv.
have [hsz hn] := mapM_get h4; case: es hsz hn {h4 h5 h6} => [|x0 es] hsz hn i hi.
  by rewrite -hsz in hi.
by exists (nth x0 (x0 :: es) i); exact: hn.
Qed.

Lemma locate c c' ds z : outer_ok c false -> step eig J1 c Solve c' -> device_depths c' ds -> nonneg ds ->
  located c' ds z (locate_layer c' z).
Proof.
move=> hok hs hd hn.
have [ds' [sol [h1 h2 h3 h4 h5]]] := solve_depths hok hs; have e := depths_same h1 hd; subst ds'.
have [dev [n1 n2 n3]] := solved_names hok hs.
have [dev' [k1 k2 k3]] := hd; have e : dev' = dev by move: k1; rewrite n1 => -[].
subst dev'; have sz : size dev.1.2 = (size ds).+2 by rewrite n2 /= size_rcons k2.
have key k : (k < (size ds).+2)%N -> searchsorted (posns ds) z = k.+1 -> exists x,
    dict_get (c_layers c') (nth ""%string dev.1.2 k) = Some x /\
    locate_layer c' z = Ok (x, k.+1, if Rle_dec z 0 then Finite z else bar_sub z (nth p_infty (posns ds) k)).
  move=> hk hq; have [|x hx] := n3 k; first by rewrite sz.
  exists x; split=> //; rewrite /locate_layer h3 n1 /get; cbn [bind]; rewrite h4 -/(posns ds) hq.
  rewrite (py_predS ""%string) ?sz // (py_predS p_infty) ?size_posns ?(leqW hk) //.
  cbn [bind].
  by rewrite ltnNge hk hx.
exists dev; split=> //; split=> [hz|hz|i hi hz1 hz2].
- have [|x [hx ->]] := key 0%N isT; first exact: search_first.
  by exists x; split; [move: hx; rewrite n2|case: Rle_dec].
- have [||x [hx ->]] := key (size ds).+1; [by []|exact: search_last|].
  exists x; split; first by move: hx; rewrite n2 /= nth_rcons k2 ltnn eqxx.
  case: Rle_dec => h0; first by have := depth_mono hn (leq0n (size ds)); rewrite depth_before0; lra.
  by rewrite nth_posns.
- have [||x [hx ->]] := key i.+1; [by rewrite !ltnS ltnW|exact: search_mid|].
  exists x; split; first by move: hx; rewrite n2 /= nth_rcons -k2 hi.
  case: Rle_dec => h0; first by have := depth_mono hn (leq0n i); rewrite depth_before0; lra.
  by rewrite nth_posns // ltnW.
Qed.
End Locate.

(** * Devices made of the crystal's own layers *)
Section Own.
Variables (eig : forall m, 'M[C]_m -> 'rV[C]_m * 'M[C]_m) (J1 : R -> R) (n : nat) (ei ee : C).
Implicit Types (c : crystal n).
Definition slab_form (f : formulation) : Prop :=
  match f with FFT _ | UNIFORM _ | ANALYTICAL _ _ => True | _ => False end.
Definition own_entry (e : expansion) (k : string) (o : layer_obj) : Prop :=
  exists l, [/\ o = Plain l, l_exp l = e &
    if k == Sref then l_form l = HALF_SPACE_INC ei /\ l_depth l = 0%Re
    else if k == Strans then l_form l = HALF_SPACE_TRN ee /\ l_depth l = 0%Re
    else slab_form (l_form l)].
Definition own_dict (e : expansion) (d : seq (string * entry n)) : Prop :=
  forall k x, dict_get d k = Some x -> own_entry e k x.1.
Record own_crystal c : Prop := OwnCrystal
  { o_void : c_void c = false; o_epsi : c_epsi c = ei; o_epse : c_epse c = ee;
    o_exp : built (c_exp c); o_dict : own_dict (c_exp c) (c_layers c);
    o_dev : forall dev, c_device c = Some dev ->
      dev.1.2 = Sref :: rcons dev.1.1 Strans /\ user_stack dev.1.1 }.
Lemma own_set e d k x : own_dict e d -> own_entry e k x.1 -> own_dict e (dict_set d k x).
Proof. by move=> h hx k' y; rewrite dict_get_set; case: eqP => [<- [<-]|_ /h]. Qed.
Lemma own_add e d k l : own_dict e d -> user_name k -> l_exp l = e -> slab_form (l_form l) ->
  own_dict e (dict_set d k (Plain l, None)).
Proof.
move=> h /user_neq [h1 h2] he hf; apply: own_set => //; exists l; split=> //.
by rewrite h1 h2.
Qed.
Lemma own_enable_fields e d l d' : own_dict e d -> enable_fields d l = Ok d' -> own_dict e d'.
Proof.
elim: l d => [|[name b] l IH] d hd /=; first by case=> <-.
case hg : (dict_get d name) => [x|//] /=; apply: IH; apply: own_set => //=.
by have [l' [-> h1 h2]] := hd _ _ hg; exists (Layer (l_exp l') (l_form l') (l_depth l') (l_fields l' || b)).
Qed.
Lemma own_default d req name type e eps : own_dict e d ->
  own_entry e name (obj_enable true (Plain (half_infinite e type eps))) ->
  own_dict e (add_default d req name type e eps).
Proof. by move=> hd hx; rewrite /add_default; case: ifP => // _; apply: own_set. Qed.
Lemma created_own c : created c false ei ee -> own_crystal c.
Proof.
case.
  case=> pw [l [a]]; rewrite /mk_crystal; case: (crystal_lattice a l) => [lat|//] /=.
  case he : (mk_expansion pw lat) => [e|//] /=; case: ifP => // _ [<-].
  by split=> //=; exact: built_init he.
case=> e [l [a [he]]]; rewrite /from_expansion; case: (mk_crystal _ _ _ _ _ _ _) => [c0|//] /= [<-].
by split.
Qed.
Lemma with_layers_own c d : own_crystal c -> own_dict (c_exp c) d -> own_crystal (with_layers c d).
Proof. by case. Qed.
Lemma step_own c o c' : own_crystal c -> own_call o -> step eig J1 c o c' -> own_crystal c'.
Proof.
move=> g ho hs; case: hs ho => {o c'} /=.
- by move=> name eps d u; apply: with_layers_own => //; apply: own_add => //; exact: o_dict.
- by move=> name p d u; apply: with_layers_own => //; apply: own_add => //; exact: o_dict.
- move=> name p d c'; rewrite /add_pixmap_or_uniform /pixmap_or_uniform; case: ifP => // _.
  by case: ifP => _ /= -[<-] u; apply: with_layers_own => //; apply: own_add => //; exact: o_dict.
- by move=> name isl hst d u; apply: with_layers_own => //; apply: own_add => //; exact: o_dict.
- by [].
- by [].
- move=> stack mask c'; rewrite /set_device (o_void g).
  case hd : (enable_fields _ _) => [d|//] /= [<-] hu.
  split=> //=; try by case: g.
  + apply: own_enable_fields hd; apply: own_default; first apply: own_default.
    * exact: o_dict.
    * by eexists; split; [reflexivity|by []|rewrite /= (o_epsi g)].
    * by eexists; split; [reflexivity|by []|rewrite /= (o_epse g)].
  + by move=> dev [<-].
- move=> wl te tm th ph kp c'; rewrite /set_source.
  case: (match kp with Some _ => _ | None => _ end) => [k|//] /=.
  by destruct (Req_EM_T wl 0) as [h0|h0] => // -[<-] _; case: g => *; split.
- move=> order c' _ /solve_parts [src [dev [d [es [pos [Ss [st [[h1 h2 h3 h4] h5 h6 h7 ->]]]]]]]] _.
  have g' := g; case: g' => gv g1 g2 g3 g4 g6; split=> //=.
  move=> k x hx; have [_ /(_ k)] := solve_all_ok h3; case: ifP => _; last by rewrite hx => /esym /g4.
  by case=> x0 [s [k1 k2]]; rewrite hx => -[->] /=; apply: g4 k1.
Qed.
Lemma history_own c ops c' : own_crystal c -> all_calls own_call ops -> history eig J1 c ops c' -> own_crystal c'.
Proof.
move=> g h hh; elim: hh g h => {c ops c'} [//|c o ops c1 c2 hs _ IH] g [h1 h2]; apply: IH => //.
exact: step_own hs.
Qed.
Lemma own_outer c : own_crystal c -> outer_ok c false.
Proof.
case=> h1 h2 h3 h4 h5 h6; split=> //; last by move=> dev /h6 [-> _].
by move=> k x hk /h5 [l [-> _]] /=; case: hk => -> /= -[].
Qed.

(** Everything a solved device holds: one entry per place. *)
Record solved_device c' (dev : seq string * seq string * seq bool) (src : source) (sol : solution n)
    (es : seq (entry n)) (Ss : seq (smat C_fieldType (n + n))) : Prop := SolvedDevice
  { sd_dev : c_device c' = Some dev; sd_src : c_source c' = Some src; sd_sol : c_solution c' = Some sol;
    sd_names : dev.1.2 = Sref :: rcons dev.1.1 Strans; sd_user : user_stack dev.1.1;
    sd_size : size es = size dev.1.2; sd_sizeS : size Ss = size dev.1.2;
    sd_get : forall i x0, (i < size dev.1.2)%N -> dict_get (c_layers c') (nth ""%string dev.1.2 i) = Some (nth x0 es i);
    sd_layer : forall i x0 S0, (i < size dev.1.2)%N -> exists l s,
      [/\ nth x0 es i = (Plain l, Some s), layer_solve eig J1 n l (c_kp c') (s_wl src) = Ok s,
          sl_S s = Some (nth S0 Ss i), l_exp l = c_exp c' &
          own_entry (c_exp c') (nth ""%string dev.1.2 i) (Plain l)];
    sd_stack : stack_layers Ss dev.2 = Ok (r_Sls sol, r_Srs sol, r_S sol) }.
Lemma solve_device c c' : own_crystal c -> step eig J1 c Solve c' ->
  exists dev src sol es Ss, solved_device c' dev src sol es Ss.
Proof.
move=> g hs; inversion hs as [| | | | | | | |order cc ho hsol ex]; subst cc.
move: hsol => /solve_parts [src [dev [d [es [pos [Ss [st [[h1 h2 h3 h4] h5 h6 h7 ->]]]]]]]].
have [eg us] := o_dev g h2.
exists dev, src, (Solution pos st.1.1 st.1.2 st.2), es, Ss.
have [hsz hn] := mapM_get h4; have hS := mapM_size h6.
split=> //=; first by rewrite hS hsz.
  move=> i x0 S0 hi; have hk : nth ""%string dev.1.2 i \in dev.1.2 by rewrite mem_nth.
  have [_ /(_ (nth ""%string dev.1.2 i))] := solve_all_ok h3.
  have -> : nth ""%string dev.1.2 i \in order by rewrite (perm_mem (ho _ h2)) mem_undup.
  case=> x [s [k1 k2]]; rewrite (hn i x0 hi) => -[k3].
  have [l [e1 e2 e3]] := o_dict g k1; exists l, s; rewrite e1 /= in k2 k3.
  rewrite k3; split=> //; last by exists l.
  have hi' : (i < size es)%N by rewrite hsz.
  have := mapM_nth x0 S0 h6 hi'; rewrite k3 /entry_S /=; case: (sl_S s) => [S1|//] /= -[->].
  by [].
by rewrite h7; case: (st) => [[? ?] ?].
Qed.
End Own.
