(** Interface positions and depth bookkeeping. *)
From Coq Require Import Reals ZArith Lra Lia String.
From mathcomp Require Import all_ssreflect all_algebra.
From Coquelicot Require Import Complex Rbar.
From Verif Require Import Base ZmodTac CField CFun ModelRedheffer ModelLayer
  ModelExpansion SpecExpansion ModelFlux ModelFourier ModelExtension ModelDevice SpecDevice StringEq DeviceProofs DeviceEnergy HistoryProofs.
Set Implicit Arguments. Unset Strict Implicit. Unset Printing Implicit Defensive.
Import GRing.Theory.
Local Open Scope ring_scope.

Lemma obj_enable_depth b o : obj_depth (obj_enable b o) = obj_depth o.
Proof. by case: o => [l|x]. Qed.
Lemma cumsum_size a l : size (cumsum_from a l) = size l.
Proof. by elim: l a => //= x l IH a; rewrite IH. Qed.
Lemma cumsum_nth a l i : (i < size l)%N -> nth 0%Re (cumsum_from a l) i = (a + depth_before l i.+1)%Re.
Proof.
elim: l a i => [//|x l IH] a [|i] /=; rewrite /depth_before.
  by rewrite big_ord1.
by move=> h; rewrite IH // /depth_before [in RHS]big_ord_recl /= -[X in _ = (a + X)%Re]/(Rplus x _); ring.
Qed.
Lemma foldl_depth ds a : foldl Rplus a ds = (a + depth_before ds (size ds))%Re.
Proof.
elim: ds a => [|x l IH] a /=; rewrite /depth_before; first by rewrite big_ord0 -[0%R]/(0%Re); ring.
by rewrite IH /depth_before [in RHS]big_ord_recl /= -[X in _ = (a + X)%Re]/(Rplus x _); ring.
Qed.
Lemma cumsum_rcons a l x : exists y, cumsum_from a (rcons l x) = rcons (cumsum_from a l) y.
Proof.
elim: l a => [|z l IH] a /=; first by exists (a + x)%Re.
by have [y ->] := IH (a + z)%Re; exists y.
Qed.
(** The positions with outer media of depth 0. *)
Lemma positions_outer ds : exists s, stack_positions false (0%Re :: rcons ds 0%Re) = Ok s /\
  s = m_infty :: rcons (mkseq (fun k => Finite (depth_before ds k)) (size ds).+1) p_infty.
Proof.
eexists; split; last reflexivity.
rewrite /stack_positions [cumsum_from _ _]/=; have [y ->] := cumsum_rcons (0 + 0)%Re ds 0%Re.
rewrite -rcons_cons rev_rcons revK; apply: (congr1 Ok); apply: (congr1 (cons m_infty)); apply: (congr1 (fun l => rcons l p_infty)).
apply: (@eq_from_nth _ p_infty); first by rewrite size_mkseq size_map /= cumsum_size.
move=> i hi; have hi' : (i < (size ds).+1)%N by move: hi; rewrite /= size_map cumsum_size.
rewrite nth_mkseq //; case: i hi hi' => [|i] hi hi' /=.
  by rewrite /depth_before big_ord0; congr Finite; rewrite -[0%R]/(0%Re); ring.
rewrite (nth_map 0%Re) ?cumsum_size // cumsum_nth //; congr Finite; ring.
Qed.
Lemma positions_void d0 ds : stack_positions true (d0 :: ds) =
  Ok (rcons (mkseq (fun k => Finite (depth_before (d0 :: ds) k.+1)) (size ds)) p_infty).
Proof.
rewrite /stack_positions /=.
have h : forall l x, exists t y, x :: cumsum_from x l = rcons t y /\ size t = size l.
  move=> l; elim: l => [|z l IH] x; first by exists [::], x.
  by have [t [y [e ht]]] := IH (x + z)%Re; exists (x :: t), y; rewrite [cumsum_from _ _]/= e /= ht.
have [t [y [e et]]] := h ds (0 + d0)%Re.
rewrite e rev_rcons revK; apply: (congr1 Ok); apply: (congr1 (fun l => rcons l p_infty)).
apply: (@eq_from_nth _ p_infty); first by rewrite size_mkseq size_map et.
move=> i; rewrite size_map => hi; rewrite nth_mkseq -?et // (nth_map 0%Re) //; congr Finite.
have : nth 0%Re (cumsum_from 0%Re (d0 :: ds)) i = nth 0%Re t i by rewrite /= e nth_rcons hi.
by rewrite cumsum_nth /= ?ltnS 1?ltnW -?et // => <-; rewrite Rplus_0_l.
Qed.

Section Depth.
Variables (eig : forall m, 'M[C]_m -> 'rV[C]_m * 'M[C]_m) (J1 : R -> R) (n : nat).
Implicit Types (c : crystal n).

(** The outer media stay half spaces of depth 0. *)
Definition thin (d : seq (string * entry n)) : Prop :=
  forall k x, (k = Sref \/ k = Strans) -> dict_get d k = Some x -> obj_depth x.1 = 0%Re.
Definition outer_ok c v : Prop :=
  [/\ c_void c = v, thin (c_layers c) & forall dev, c_device c = Some dev -> dev.1.2 = global_stacking v dev.1.1].

Lemma created_outer c v e1 e2 : created c v e1 e2 -> outer_ok c v.
Proof.
case.
  case=> pw [l [a]]; rewrite /mk_crystal; case: (crystal_lattice a l) => [lat|//] /=.
  by case he : (mk_expansion pw lat) => [e|//] /=; case: ifP => // _ [<-].
case=> e [l [a [he]]]; rewrite /from_expansion; case: (mk_crystal _ _ _ _ _ _ _) => [c0|//] /= [<-].
by [].
Qed.
Lemma thin_user d k x : thin d -> user_name k -> thin (dict_set d k x).
Proof.
move=> h [u1 u2] k' y hk; rewrite dict_get_set; case: eqP => [e|_]; last exact: h.
by subst k'; case: hk.
Qed.
Lemma thin_set d k x : thin d -> obj_depth x.1 = 0%Re \/ (exists y, dict_get d k = Some y /\ obj_depth x.1 = obj_depth y.1) ->
  thin (dict_set d k x).
Proof.
move=> h hx k' y hk; rewrite dict_get_set; case: eqP => [e [<-]|_]; last exact: h.
by case: hx => // -[z [h1 ->]]; apply: h hk _; rewrite -e.
Qed.
Lemma thin_enable d l d' : thin d -> enable_fields d l = Ok d' -> thin d'.
Proof.
elim: l d => [|[name b] l IH] d hd /=; first by case=> <-.
case hg : (dict_get d name) => [x|//] /=; apply: IH; apply: thin_set => //; right; exists x.
by rewrite obj_enable_depth.
Qed.
Lemma thin_default d req name type e eps : thin d -> thin (add_default d req name type e eps).
Proof.
move=> h; rewrite /add_default; case: ifP => // _; apply: thin_set => //; left.
by rewrite obj_enable_depth /= /half_infinite; case: ifP => //; case: ifP.
Qed.
Lemma thin_solve d order kp wl d' : thin d -> solve_all eig J1 d order kp wl = Ok d' -> thin d'.
Proof.
move=> h hs k x hk; have [_ /(_ k)] := solve_all_ok hs; case: ifP => _; last by move=> -> ; exact: h hk.
by case=> x0 [s [h1 h2]] -> [<-] /=; exact: h hk h1.
Qed.
Lemma step_outer c v o c' : outer_ok c v -> outer_call o -> step eig J1 c o c' -> outer_ok c' v.
Proof.
case=> hv ht hdv ho hs; case: hs ho => {o c'} /=.
- by move=> name eps d u; split=> //; apply: thin_user.
- by move=> name eps d u; split=> //; apply: thin_user.
- move=> name p d c'; rewrite /add_pixmap_or_uniform; case: (pixmap_or_uniform _ _ _) => [l|//] /= [<-] u.
  by split=> //; apply: thin_user.
- by move=> name isl hst d u; split=> //; apply: thin_user.
- by move=> name l u; split=> //; apply: thin_user.
- move=> name who l c'; rewrite /add_layer_extended; case: (mk_extended _ _ _) => [x|//] /= [<-] u.
  by split=> //; apply: thin_user.
- move=> stack mask c'; rewrite /set_device hv; case hd : (enable_fields _ _) => [d|//] /= [<-] u.
  split=> //=; last by move=> dev [<-].
  by apply: thin_enable hd; do 2 apply: thin_default.
- move=> wl te tm th ph kp c'; rewrite /set_source.
  case: (match kp with Some _ => _ | None => _ end) => [k|//] /=.
  by destruct (Req_EM_T wl 0) as [h0|h0] => // -[<-] _; split.
- move=> order c' _ /solve_parts [src [dev [d [es [pos [Ss [st [[h1 h2 h3 h4] h5 h6 h7 ->]]]]]]]] _.
  by split=> //=; apply: thin_solve h3.
Qed.
Lemma history_outer c v ops c' : outer_ok c v -> all_calls outer_call ops -> history eig J1 c ops c' -> outer_ok c' v.
Proof.
move=> g h hh; elim: hh g h => {c ops c'} [//|c o ops c1 c2 hs _ IH] g [h1 h2]; apply: IH => //.
exact: step_outer hs.
Qed.

Lemma mapM_get (d : seq (string * entry n)) names es :
  mapM (fun name => get (dict_get d name) KeyError) names = Ok es ->
  size es = size names /\ forall i x0, (i < size names)%N -> dict_get d (nth ""%string names i) = Some (nth x0 es i).
Proof.
move=> h; have hs := mapM_size h; split=> // i x0 hi.
by have := mapM_nth ""%string x0 h hi; case: (dict_get _ _) => [x|//] /= [->].
Qed.

Lemma depths_depth c ds : device_depths c ds -> crystal_depth c = Ok (depth_before ds (size ds)).
Proof.
case=> dev [hd hs h]; rewrite /crystal_depth hd /=.
have -> : mapM (fun name => do e <- get (dict_get (c_layers c) name) KeyError; Ok (obj_depth e.1)) dev.1.1 = Ok ds.
  apply/mapMP; apply: (@eq_from_nth _ (Err KeyError)); first by rewrite !size_map hs.
  move=> i; rewrite size_map => hi; rewrite (nth_map ""%string) // (nth_map 0%Re) ?hs //.
  by have [|x [-> /= ->]] := h i; rewrite ?hs.
by rewrite /= foldl_depth Rplus_0_l.
Qed.

Lemma zmax_of c sol l k : c_solution c = Some sol -> r_positions sol = m_infty :: rcons l p_infty -> size l = k.+1 ->
  zmax c = Ok (nth p_infty l k).
Proof.
move=> hs hp hl; rewrite /zmax hs hp /= size_rcons hl.
have -> : (k.+3 - 2)%N = k.+1 by rewrite subSS subSS subn0.
by rewrite /= nth_rcons hl ltnS leqnn.
Qed.
Lemma solve_depths c c' : outer_ok c false -> step eig J1 c Solve c' ->
  exists ds sol, [/\ device_depths c' ds, crystal_depth c' = Ok (depth_before ds (size ds)), c_solution c' = Some sol,
    r_positions sol = m_infty :: rcons (mkseq (fun k => Finite (depth_before ds k)) (size ds).+1) p_infty &
    zmax c' = Ok (Finite (depth_before ds (size ds)))].
Proof.
case=> hv ht hdv hs; inversion hs as [| | | | | | | |order cc ho hsol ex]; subst cc.
move: hsol => /solve_parts [src [dev [d [es [pos [Ss [st [[h1 h2 h3 h4] h5 h6 h7 ->]]]]]]]].
have hd := hdv _ h2; have td := thin_solve ht h3.
have [hsz hn] := mapM_get h4; rewrite hd /= size_rcons in hsz hn.
case: es hsz hn h4 h5 h6 => // x0 es /= [hsz] hn h4 h5 h6.
case/lastP: es hsz hn h4 h5 h6 => // es x1; rewrite size_rcons => -[hsz] hn h4 h5 h6.
pose ds := [seq obj_depth e.1 | e : entry n <- es].
have hds : size ds = size dev.1.1 by rewrite size_map.
have D : device_depths (Crystal (c_void c) (c_epsi c) (c_epse c) (c_exp c) d (c_device c) (c_source c) (c_kp c) (c_kzi c)
        (Some (Solution pos st.1.1 st.1.2 st.2))) ds.
  exists dev; split=> //= i; rewrite hds => hi; have := hn i.+1 x0; rewrite /= nth_rcons hi => hh.
  have {hh} := hh _; rewrite !ltnS => /(_ (ltnW hi)); rewrite nth_rcons hsz hi => hg.
  by exists (nth x0 es i); split=> //; rewrite (nth_map x0) // hsz.
have e0 : obj_depth x0.1 = 0%Re.
  by have /(_ isT) hg := hn 0%N x0; apply: (td Sref); [left|].
have e1 : obj_depth x1.1 = 0%Re.
  have hg := hn (size dev.1.1).+1 x0; rewrite /= ltnS leqnn nth_rcons ltnn eqxx in hg.
  by move: (hg isT); rewrite nth_rcons hsz ltnn eqxx => hg'; apply: (td Strans); [right|].
move: h5; rewrite hv /= map_rcons e0 e1; have [s [-> es_]] := positions_outer ds.
case=> ep; exists ds; eexists; split; [exact: D|exact: depths_depth D|reflexivity|by rewrite -ep es_|].
set cc := Crystal _ _ _ _ _ _ _ _ _ _.
have hz := @zmax_of cc _ (mkseq (fun k => Finite (depth_before ds k)) (size ds).+1) (size ds) erefl.
by rewrite hz ?size_mkseq ?nth_mkseq //= -ep es_.
Qed.
End Depth.
