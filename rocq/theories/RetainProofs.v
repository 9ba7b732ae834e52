(** Which fields can be computed. *)
From Coq Require Import Reals ZArith Lra Lia String.
From mathcomp Require Import all_ssreflect all_algebra.
From Coquelicot Require Import Complex Rbar.
From Verif Require Import Base ZmodTac CField CFun Blk ModelRedheffer SpecScatter SpecStack RedhefferProofs ModelLayer SpecLayer
  LayerProofs LayerCProofs UniformProofs LayerApiProofs ModelExpansion SpecExpansion ModelFlux ModelFourier ModelExtension ModelDevice SpecDevice StringEq
  DeviceProofs DeviceEnergy HistoryProofs DepthProofs ModelFields SpecFields StackProofs SolvedProofs FieldsProofs.
Set Implicit Arguments. Unset Strict Implicit. Unset Printing Implicit Defensive.
Import GRing.Theory.
Local Open Scope ring_scope.

Lemma eigenbasis_unit m (W V : 'M[C]_m) : W \in unitmx -> V \in unitmx -> layer_eigenbasis_matrix W V \in unitmx.
Proof.
move=> uW uV; have t0 := two_neq0.
have key (M : 'M[C]_m) : M \in unitmx -> exists N, M *m N + M *m N = 1%:M.
  move=> u; exists (invmx M *m (2%:R : C)^-1%:M); rewrite mulmxA mulmxV // mul1mx -raddfD /=.
  by rewrite -mulr2n -mulr_natr mulVf.
have [iW hW] := key W uW; have [iV hV] := key V uV.
apply: (proj1 (mulmx1_unit (B := block_mx iW (- iV) iW iV) _)).
by rewrite /layer_eigenbasis_matrix mulmx_block !mulNmx !mulmxN opprK hW !addNr hV -scalar_mx_block.
Qed.

Section Retain.
Variables (eig : forall m, 'M[C]_m -> 'rV[C]_m * 'M[C]_m) (J1 : R -> R) (n : nat) (ei ee : C).
Implicit Types (c : crystal n).

Lemma solved_modes e k l kp wl s : own_entry ei ee e k (Plain l) -> layer_solve eig J1 n l kp wl = Ok s ->
  l_fields l -> exists mo ic, [/\ sl_modes s = Some mo, sl_IC s = Some ic & layer_eigenbasis_matrix mo.1.1 mo.1.2 \in unitmx].
Proof.
case=> l' [[<-] _ hf] h hfl; move: (h); rewrite /layer_solve.
case hk : (krows _ _ _ _ _) => [kk|//] /=; case hfr : (free_space_eigenmodes _ _) => [f|//] /=; rewrite hfl.
have slab mo : slab_form (l_form l) -> sl_modes s = Some mo -> layer_eigenbasis_matrix mo.1.1 mo.1.2 \in unitmx.
  move=> hs hm; have [S [_ hb]] := slab_built h hs hk hfr hm.
  by have [u1 u2] := build_scatmat_unit hb; apply: eigenbasis_unit.
have half er V : one_over er <> Err ZeroDivisionError -> divcols (Qref kk.1.1 kk.1.2 er 1) (twice (ci *: half_kz kk.1.1 kk.1.2 er 1)) = Ok V -> 
    layer_eigenbasis_matrix 1%:M V \in unitmx.
  move=> he hV; apply: eigenbasis_unit; first exact: unitmx1.
  by apply: half_V_unit hV => //; [move: he; rewrite /one_over; case: eqP|exact: oner_neq0].
case: (k == Sref) hf => [[hf _]|].
  rewrite hf; case hr : (scattering_reflection _ _ _ _ _ _) => [[[[Sr Wr] Vr] Lr]|//] /=.
  case ho : (one_over ei) => [ic|//] /= [<-]; do 2 eexists; split; [reflexivity|reflexivity|].
  have [_ -> eL hV _] := reflection_inv hr; rewrite eL in hV; apply: half hV; by rewrite ho.
case: (k == Strans) => [[hf _]|hf].
  rewrite hf; case hr : (scattering_transmission _ _ _ _ _ _) => [[[[Sr Wr] Vr] Lr]|//] /=.
  case ho : (one_over ee) => [ic|//] /= [<-]; do 2 eexists; split; [reflexivity|reflexivity|].
  have [_ -> eL hV _] := transmission_inv hr; rewrite eL in hV; apply: half hV; by rewrite ho.
move=> h'; suff [mo [ic [h1 h2]]] : exists mo' ic, sl_modes s = Some mo' /\ sl_IC s = Some ic.
  by exists mo, ic; split=> //; exact: slab.
move: h'; case: (l_form l) hf => // [p|eps|isl host] _.
- case: (convolution_matrix _ _ _) => [Cm|//] /=; case: (inv Cm) => [IC|//] /=.
  case: (solve_structured_layer _ _ _ _) => [m|//] /=; case hb : (build_scatmat _ _ _ _ _ _ _) => [S|//] /= [<-].
  by do 2 eexists.
- case: (solve_uniform_layer _ _ _ _) => [m|//] /=; case hb : (build_scatmat _ _ _ _ _ _ _) => [S|//] /=.
  by case: (one_over eps) => [ic|//] /= [<-]; do 2 eexists.
- case: (analytical_matrix _ _ _ _) => [Cm|//] /=; case: (inv Cm) => [IC|//] /=.
  case: (solve_structured_layer _ _ _ _) => [m|//] /=; case hb : (build_scatmat _ _ _ _ _ _ _) => [S|//] /= [<-].
  by do 2 eexists.
Qed.

(** Whether the layer kept its modes. *)
Lemma kept_modes l kp wl s : layer_solve eig J1 n l kp wl = Ok s -> ~~ l_fields l -> sl_modes s = None.
Proof.
rewrite /layer_solve => h /negbTE hfl; move: h; rewrite hfl.
case: (krows _ _ _ _ _) => [kk|//] /=; case: (free_space_eigenmodes _ _) => [f|//] /=.
case: (l_form l) => [p|eps|isl host|eps|eps|].
- case: (convolution_matrix _ _ _) => [Cm|//] /=; case: (inv Cm) => [IC|//] /=.
  by case: (solve_structured_layer _ _ _ _) => [m|//] /=; case hb : (build_scatmat _ _ _ _ _ _ _) => [S|//] /= [<-].
- case: (solve_uniform_layer _ _ _ _) => [m|//] /=; case hb : (build_scatmat _ _ _ _ _ _ _) => [S|//] /=.
  by case: (one_over eps) => [ic|//] /= [<-].
- case: (analytical_matrix _ _ _ _) => [Cm|//] /=; case: (inv Cm) => [IC|//] /=.
  by case: (solve_structured_layer _ _ _ _) => [m|//] /=; case hb : (build_scatmat _ _ _ _ _ _ _) => [S|//] /= [<-].
- case: (scattering_reflection _ _ _ _ _ _) => [r|//] /=; by case: (one_over eps) => [ic|//] /= [<-].
- case: (scattering_transmission _ _ _ _ _ _) => [r|//] /=; by case: (one_over eps) => [ic|//] /= [<-].
- by case=> <-.
Qed.

(** At one place: the fields are there exactly when the mask retains it. *)
Lemma place_retained c' dev src sol es Ss i x0 zr inc : solved_device eig J1 ei ee c' dev src sol es Ss ->
  (i < size dev.1.2)%N -> size dev.2 = size dev.1.2 -> nth false dev.2 0 ->
  (forall j x, (j < size dev.1.2)%N -> nth false dev.2 j -> dict_get (c_layers c') (nth ""%string dev.1.2 j) = Some x ->
    obj_fields x.1) ->
  is_ok (fourier_fields_at c' (nth x0 es i) i.+1 zr inc) <-> nth false dev.2 i.
Proof.
move=> sd hi hm hm0 hfl.
have h0 : (0 < size dev.1.2)%N by apply: leq_ltn_trans hi.
have [l [s [b1 b2 b3 b4 b5]]] := sd_layer sd x0 (scattering_identity _ _) hi.
have [lr [sr [r1 r2 r3 r4 r5]]] := sd_layer sd x0 (scattering_identity _ _) h0.
have hl : (0 < size Ss)%N by rewrite (sd_sizeS sd).
have [hr z1 z2 _ hn] := stack_reassemble (sd_stack sd) hl.
rewrite (sd_sizeS sd) in z1 z2 hn.
have [Sl [Sr [q1 q2 q3 q4 q5]]] := hn i hi.
rewrite hm subnn addn0 in q5.
have hg0 := sd_get sd x0 h0; have hgi := sd_get sd x0 hi; rewrite b1 in hgi; rewrite r1 in hg0.
have hk0 : krows n (c_exp c') (c_kp c') (s_wl src) 1 = krows n (l_exp l) (c_kp c') (s_wl src) 1 by rewrite b4.
split.
  case=> v /(fields_used sd hi) [l1 [s1 [mo [kk [f [Sr' [mr [amp [Sl1 [Sr1 [cd [[_ _ _ _] [[_ _ h _] _]]]]]]]]]]]]].
  by move: h; rewrite q4; case: ifP.
move=> hmi; rewrite hmi orbT in q4 q5.
have fl : l_fields l := hfl _ _ hi hmi hgi.
have flr : l_fields lr := hfl _ _ h0 hm0 hg0.
have [mo [ic [m1 m2 m3]]] := solved_modes b5 b2 fl; have [mor [icr [m4 m5 m6]]] := solved_modes r5 r2 flr.
rewrite (sd_names sd) /= -/Sref in hg0.
rewrite /fourier_fields_at b1 /= fl /= m1 /= (sd_src sd) /= hk0.
move: (b2); rewrite /layer_solve; case hk : (krows _ _ _ _ _) => [kk|//] /=.
case hf : (free_space_eigenmodes _ _) => [f|//] /= _.
rewrite hg0 /= m4 /= {1}/solve m6 /= (sd_sol sd) /= (py_predS None) ?z1 // (py_predS None) ?z2 //= q4 q5 /=.
have [cd hcd] : is_ok (translate_mode_amplitudes Sl Sr (usubmx (invmx (layer_eigenbasis_matrix mor.1.1 mor.1.2) *m inc))
    (s11 (r_S sol) *m usubmx (invmx (layer_eigenbasis_matrix mor.1.1 mor.1.2) *m inc))
    (s21 (r_S sol) *m usubmx (invmx (layer_eigenbasis_matrix mor.1.1 mor.1.2) *m inc))).
  by apply/amplitudes_def; eexists; exact: q3.
by rewrite hcd /= /fourier_fields_from_mode_amplitudes /solve m3 /= m2 /=; eexists.
Qed.

(** After set_device the retained layers keep their fields. *)
Definition flag (d : seq (string * entry n)) k : bool := if dict_get d k is Some x then obj_fields x.1 else false.
Lemma enable_flag b o : obj_fields (obj_enable b o) = obj_fields o || b.
Proof. by case: o. Qed.
Lemma flag_set d k x k' : flag (dict_set d k x) k' = if k == k' then obj_fields x.1 else flag d k'.
Proof. by rewrite /flag dict_get_set; case: eqP. Qed.
Lemma enable_kept d l d' : enable_fields d l = Ok d' ->
  (forall k, flag d k -> flag d' k) /\ (forall k, (k, true) \in l -> flag d' k).
Proof.
elim: l d => [|[name b] l IH] d /=; first by case=> <-.
case hg : (dict_get d name) => [x0|//] /= /IH [h1 h2].
have h k : flag d k || ((name == k) && b) -> flag (dict_set d name (obj_enable b x0.1, x0.2)) k.
  rewrite flag_set enable_flag; case: eqP => [<-|_] /=; last by rewrite orbF.
  by rewrite /flag hg.
split=> [k hk|k]; first by apply: h1; apply: h; rewrite hk.
rewrite in_cons => /orP [/eqP [-> hb]|hk]; last exact: h2.
by apply: h1; apply: h; rewrite eqxx -hb orbT.
Qed.
Lemma solve_flag d order kp wl d' : solve_all eig J1 d order kp wl = Ok d' -> forall k, flag d' k = flag d k.
Proof.
move=> h k; have [_ /(_ k)] := solve_all_ok h; rewrite /flag; case: ifP => _; last by move=> ->.
by case=> e [s [-> _ ->]].
Qed.

(** set_device, set_source, solve. *)
Lemma retained c1 c2 c3 c4 stack mask wl te tm th ph kp ds inc z : own_crystal ei ee c1 -> user_stack stack ->
  step eig J1 c1 (SetDevice stack mask) c2 -> step eig J1 c2 (SetSource wl te tm th ph kp) c3 -> step eig J1 c3 Solve c4 ->
  (forall m, mask = inr m -> size m = size stack) ->
  device_depths c4 ds -> nonneg ds ->
  is_ok (fourier_fields c4 z inc) <->
  (z <= 0)%Re \/ (depth_before ds (size ds) < z)%Re \/
  (exists i, [/\ (i < size stack)%N, (depth_before ds i < z)%Re, (z <= depth_before ds i.+1)%Re &
     user_mask mask i]).
Proof.
move=> o1 us s1 s2 s3 hms hd hn.
have o2 : own_crystal ei ee c2 := @step_own _ _ _ _ _ _ (SetDevice stack mask) _ o1 us s1.
have o3 : own_crystal ei ee c3 := @step_own _ _ _ _ _ _ (SetSource wl te tm th ph kp) _ o2 I s2.
have [dev [src [sol [es [Ss sd]]]]] := solve_device o3 s3.
set mm := match mask with inl b => nseq (size stack) b | inr m => m end.
have smm : size mm = size stack by rewrite /mm; case: (mask) hms => [b _|m /(_ m erefl)]; rewrite ?size_nseq.
have [edev hflag] : dev = (stack, Sref :: rcons stack Strans, true :: rcons mm true) /\
   (forall j, (j < (size stack).+2)%N -> nth false (true :: rcons mm true) j -> flag (c_layers c4) (nth ""%string (Sref :: rcons stack Strans) j)).
  inversion s1 as [| | | | | |st mk cc hset e| |]; subst st mk cc; move: hset; rewrite /set_device (o_void o1).
  case hen : (enable_fields _ _) => [d|//] /= [ec2].
  inversion s2 as [| | | | | | |wl' te' tm' th' ph' kp' c' hset e|]; subst; move: hset; rewrite /set_source.
  case: (match kp with Some _ => _ | None => _ end) => [k|//] /=.
  destruct (Req_EM_T wl 0) as [h0|h0] => // -[ec3].
  inversion s3 as [| | | | | | | |order cc ho hsol ex]; subst cc.
  move: hsol => /solve_parts [src' [dev' [d' [es' [pos [Ss' [st' [[h1 h2 h3 h4] h5 h6 h7 h8]]]]]]]].
  move: (sd_dev sd); rewrite h8 /= -ec3 /= => -[<-]; split=> // j hj hm.
  rewrite (solve_flag h3) -ec3 /=; apply: (proj2 (enable_kept hen)).
  have hz : size (zip (Sref :: rcons stack Strans) (true :: rcons mm true)) = (size stack).+2.
    by rewrite size_zip /= !size_rcons smm minnn.
  have := mem_nth (""%string, false) (s := zip (Sref :: rcons stack Strans) (true :: rcons mm true)) (n := j).
  by rewrite hz => /(_ hj); rewrite nth_zip /= ?size_rcons ?smm // hm.
have szs : size dev.1.2 = (size stack).+2 by rewrite edev /= size_rcons.
have szm : size dev.2 = size dev.1.2 by rewrite edev /= !size_rcons smm.
have x0 : entry n by case: (es) (sd_size sd) => [|x]; rewrite ?szs.
have ret i zr : (i < (size stack).+2)%N -> is_ok (fourier_fields_at c4 (nth x0 es i) i.+1 zr inc) <-> nth false dev.2 i.
  move=> hi; apply: (place_retained x0 zr inc sd) => //; rewrite ?szs //; first by rewrite edev.
  move=> j x hj hm hx; have := hflag j hj; rewrite edev /= in hm hx; move=> /(_ hm).
  by rewrite /flag /= hx.
have [dv [ed [l1 l2 l3]]] := locate z (own_outer o3) s3 hd hn.
have e : dv = dev by move: ed; rewrite (sd_dev sd) => -[].
subst dv; have sds : size ds = size stack.
  by case: hd => dv [h1 h2 _]; move: h1; rewrite (sd_dev sd) => -[e]; rewrite h2 -e edev.
have nthd i : (i < (size stack).+2)%N -> dict_get (c_layers c4) (nth ""%string dev.1.2 i) = Some (nth x0 es i).
  by move=> hi; apply: sd_get sd _ _ _; rewrite szs.
case: (Rle_dec z 0) => hz0.
  have [x [hx hr]] := l1 hz0; rewrite /fourier_fields hr /=.
  have ex : x = nth x0 es 0 by have := nthd 0%N isT; rewrite edev /= hx => -[].
  rewrite ex (ret 0%N z isT) edev /=; split=> // _; by left.
case: (Rlt_dec (depth_before ds (size ds)) z) => hzD.
  have [x [hx hr]] := l2 hzD; rewrite /fourier_fields hr /=.
  have ex : x = nth x0 es (size stack).+1.
    by have := nthd (size stack).+1 (leqnn _); rewrite edev /= nth_rcons ltnn eqxx hx => -[].
  rewrite ex sds (ret (size stack).+1) // edev /= nth_rcons smm ltnn eqxx; split=> // _; right; left; by rewrite -sds.
have [||i [hi h1 h2]] := @find_layer ds z (size ds); [lra|lra|].
have [x [hx hr]] := l3 i hi h1 h2; rewrite /fourier_fields hr /=; rewrite sds in hi.
have ex : x = nth x0 es i.+1.
  have := nthd i.+1 (leqW hi); rewrite edev /= nth_rcons hi; rewrite edev /= in hx.
  by rewrite hx => -[].
rewrite ex (ret i.+1) 1?leqW // edev /= nth_rcons smm hi.
have emm j : (j < size stack)%N -> nth false mm j = user_mask mask j.
  by move=> hj; rewrite /mm /user_mask; case: (mask) => // b; rewrite nth_nseq hj.
split; first by move=> hm; right; right; exists i; split=> //; rewrite -emm.
case=> [|[|[j [hj g1 g2]]]]; [lra|lra|].
suff -> : i = j by rewrite emm.
case: (ltngtP i j) => // hij.
  by have := depth_mono hn hij; lra.
by have := depth_mono hn hij; lra.
Qed.
End Retain.
