(** Final forms and examples for the sums of lattices. *)
From Coq Require Import Reals ZArith Lra.
From mathcomp Require Import all_ssreflect all_algebra.
From Coquelicot Require Import Complex.
From Verif Require Import Base CField CFun Blk ModelRedheffer RedhefferProofs SpecScatter ModelLayer UniformProofs LayerApiProofs
  ModelExpansion SpecExpansion ExpansionProofs ModelExtension ModelFourier ModelDevice SpecExtension ExtensionProofs JoinProofs ExtendedProofs
  NormalProofs FilmDevice DeviceExamples.
Set Implicit Arguments. Unset Strict Implicit. Unset Printing Implicit Defensive.
Import GRing.Theory.
Local Open Scope ring_scope.

Lemma view_inside kind N a b i r c : (kind <= 1)%N -> (a < 2)%N -> (b < 2)%N -> (i < N)%N -> (r < N)%N -> (c < N)%N ->
  (off_view kind N a b i r c < (2 * N ^ 2) * (2 * N ^ 2))%N /\ (off_sub N a b r c < (2 * N) * (2 * N))%N.
Proof.
move=> hk ha hb hi hr hc; split; first by rewrite off_viewE // row_col_lt ?twoN2 ?spot_lt.
by rewrite off_subE mul2n -addnn row_col_lt ?inner_lt.
Qed.
Lemma view_disjoint kind N a b i r c a' b' i' r' c' : (kind <= 1)%N ->
  (a < 2)%N -> (b < 2)%N -> (i < N)%N -> (r < N)%N -> (c < N)%N ->
  (a' < 2)%N -> (b' < 2)%N -> (i' < N)%N -> (r' < N)%N -> (c' < N)%N ->
  off_view kind N a b i r c = off_view kind N a' b' i' r' c' -> (a, b, i, r, c) = (a', b', i', r', c').
Proof.
move=> hk ha hb hi hr hc ha' hb' hi' hr' hc'; rewrite !off_viewE // => e.
have [||e1 e2] := row_col_inj _ _ e; try by rewrite twoN2 spot_lt.
by have [-> -> ->] := spot_inj hi hr hi' hr' e1; have [-> _ ->] := spot_inj hi hc hi' hc' e2.
Qed.

Lemma built_size e : built e -> size (e_g e) = e_size e.
Proof. by move/built_wf/wf_size. Qed.

Section Vacuum.
Variables (eig : forall m, 'M[C]_m -> 'rV[C]_m * 'M[C]_m) (J1 : R -> R).
Lemma vacuum_layer_ok n e d fl kp wl k : krows n e kp wl 1 = Ok k ->
  (forall j, 1 - k.1.1 0 j ^+ 2 - k.1.2 0 j ^+ 2 != 0) ->
  exists s, layer_solve eig J1 n (Layer e (UNIFORM 1) d fl) kp wl = Ok s /\ (exists S, sl_S s = Some S) /\
    (fl -> exists w, sl_modes s = Some w).
Proof.
move=> hk hz; set kx := k.1.1 in hz; set ky := k.1.2 in hz.
have hu : exists V l, solve_uniform_layer kx ky 1 1 = Ok (1%:M, V, l).
  rewrite /solve_uniform_layer oner_eq0 /=; set l := twice _; set Q := uniform_Q _ _ _ _.
  have hl : forall j, l 0 j != 0.
    apply: twice_neq0E => j; rewrite !mxE mulf_neq0 ?kz_branch_eq0 ?mulr1 //.
    by apply/eqP => -[] /R1_neq_R0.
  have [V hV] : is_ok (divcols Q l) by rewrite /divcols; case: forallP => // _; eexists.
  by exists V, l; rewrite hV.
have [V [l hw]] := hu; have hf := (uniform_is_free kx ky 1%:M V).2 (ex_intro _ l hw).
have hS := build_vacuum_modes l d (2 * PI / wl)%Re (unitmx1 _ _) (uniform_V_unit hw).
have := layer_uniform_ok eig J1 fl hk hf hw hS (oner_neq0 _); case: fl => h; eexists; split; try exact: h; split=> //; by eexists.
Qed.

Lemma mapM_ok A B (f : A -> res B) (P : B -> Prop) l : (forall x, List.In x l -> exists2 y, f x = Ok y & P y) ->
  exists2 ys, mapM f l = Ok ys & size ys = size l /\ forall y, List.In y ys -> P y.
Proof.
elim: l => [|x l ih] h /=; first by exists [::].
have [|ys -> [h1 h2]] := ih; first by move=> z hz; apply: h; right.
have [y -> hy] := h x (or_introl erefl); exists (y :: ys) => //=; rewrite h1; split=> // z [<-//|]; exact: h2.
Qed.

Lemma extended_uniform_ok b x eps kp wl : l_form b = UNIFORM eps -> x_base x = b -> (x_mode x <= 1)%N ->
  (0 < size (x_gs x) <= e_size (l_exp b))%N ->
  (forall g, List.In g (x_gs x) -> is_ok (layer_solve eig J1 (e_size (l_exp b)) (Layer (l_exp b) (UNIFORM eps) (l_depth b) (x_fields x)) (shift_kp g kp) wl)) ->
  is_ok (extended_solve eig J1 (e_size (l_exp b) * e_size (l_exp b)) x kp wl).
Proof.
move=> hf hb hk hs h; rewrite /extended_solve hb hf; set N := e_size _ in hs h *.
have [|sols -> [s1 hsol]] := mapM_ok (f := fun g => layer_solve eig J1 N (Layer (l_exp b) (UNIFORM eps) (l_depth b) (x_fields x)) (shift_kp g kp) wl)
  (P := fun s => (exists S, sl_S s = Some S) /\ (x_fields x -> exists w, sl_modes s = Some w)) (l := x_gs x).
  move=> g hg; have [s hs'] := h g hg; exists s => //.
  by have [k [f [w [S [_ _ _ _ [_ ->]]]]]] := layer_uniformE hs'; case: (x_fields x); split=> //; eexists.
cbn [bind]; have [|Ss -> [s2 _]] := mapM_ok (f := fun s : solved N => get (sl_S s) AttributeError) (P := fun _ => True) (l := sols).
  by move=> s /hsol [[S ->] _]; exists S.
cbn [bind]; rewrite joint_subspace_ok ?s2 ?s1 //; cbn [bind].
case: ifP => hfl; last by eexists.
have [|ms -> [s3 _]] := mapM_ok (f := fun s : solved N => get (sl_modes s) AttributeError) (P := fun _ => True) (l := sols).
  by move=> s /hsol [_ /(_ hfl) [w ->]]; exists w.
have j1 (Ms : seq 'M[C]_(N + N)) : size Ms = size (x_gs x) -> is_ok (joint_subspace1 (N * N) Ms (x_mode x)).
  by move=> e; apply/joint_subspace1_ok; rewrite e.
cbn [bind]; have [W ->] := j1 [seq m.1.1 | m <- ms] ltac:(by rewrite size_map s3 s1).
cbn [bind]; have [V ->] := j1 [seq m.1.2 | m <- ms] ltac:(by rewrite size_map s3 s1); cbn [bind]; rewrite /extended_freespace.
have [|fs -> [s4 _]] := mapM_ok (f := fun g => do k <- krows N (l_exp b) (shift_kp g kp) wl 1; free_space_eigenmodes k.1.1 k.1.2)
  (P := fun _ => True) (l := x_gs x).
  move=> g hg; have [s hs'] := h g hg; have [k [f [w [S [-> /= -> _ _ _]]]]] := layer_uniformE hs'.
  by exists f.
cbn [bind]; have [W0 ->] := j1 [seq x.1 | x <- fs] ltac:(by rewrite size_map s4).
cbn [bind]; have [V0 ->] := j1 [seq x.2 | x <- fs] ltac:(by rewrite size_map s4); cbn [bind].
have [L ->] := j1 [seq diag_mx m.2 | m <- ms] ltac:(by rewrite size_map s3 s1).
by cbn [bind]; eexists.
Qed.
End Vacuum.

(** * A twisted pair of three-order gratings *)
Lemma grating : exists e, [/\ mk_expansion (3, 1)%N unit_lattice = Ok e, built e &
  e_g e = [:: ((-2 * PI)%Re, 0%Re); (0%Re, 0%Re); ((2 * PI)%Re, 0%Re)]].
Proof.
have [e he] : is_ok (mk_expansion (3, 1)%N unit_lattice).
  by rewrite /mk_expansion; have [b ->] := reciproc_unit; eexists.
exists e; split=> //; first exact: built_init he.
move: he; rewrite /mk_expansion /reciproc /=; destruct (Req_EM_T (1 * 1 - 0 * 0) 0) as [h|h]; first by exfalso; lra.
by cbn [is_left bind] => -[<-] /=; rewrite /twopi; congr [:: (_, _); (_, _); (_, _)]; field.
Qed.

Lemma inside_light (x y : R) : (x * x + y * y < 1)%Re -> 1 - RtoC x ^+ 2 - RtoC y ^+ 2 != 0 :> C.
Proof.
move=> h; apply/eqP => /(congr1 fst); rewrite !expr2 /=; lra.
Qed.

Section Twisted.
Variables (eig : forall m, 'M[C]_m -> 'rV[C]_m * 'M[C]_m) (J1 : R -> R).
Lemma twisted_pair : exists e es x, [/\ built e, add_expansion e (rotate 1%Re e) = Ok es,
  mk_extended es IsLhs (Layer e (UNIFORM 1) 3%Re true) = Ok x, e_size es = 9%N &
  is_ok (extended_solve eig J1 9 x (0, 0) (/ 10)%Re)].
Proof.
have [e [he hb hg]] := grating; exists e.
have pwe : e_pw e = (3%N, 1%N) by move: he; rewrite /mk_expansion; case: (reciproc _ _) => // b; cbn [bind] => /= -[<-].
have [es hes] : is_ok (add_expansion e (rotate 1%Re e)).
  by case: (add_outcome (rotate 1%Re e) (built_wf hb)) => -[] //; rewrite /= size_map.
have [h1 h2 _ h3] := add_expansionE hes.
have se : e_size e = 3%N by rewrite /e_size pwe.
exists es, (Extended es 1 (e_g (rotate 1%Re e)) (Layer e (UNIFORM 1) 3%Re true) true); split=> //.
- by rewrite /mk_extended h2.
- by rewrite h3 se.
have := @extended_uniform_ok eig J1 (Layer e (UNIFORM 1) 3%Re true) (Extended es 1 (e_g (rotate 1%Re e)) (Layer e (UNIFORM 1) 3%Re true) true)
  1 (0, 0) (/ 10)%Re erefl erefl isT.
rewrite /= se size_map hg; apply=> // g hgg.
have hgg' : exists t : R, (t * t <= 1)%Re /\ g = ((2 * PI * (t * cos 1))%Re, (2 * PI * (t * sin 1))%Re).
  move: hgg => /= [<-|[<-|[<-|[]]]]; rewrite /rotate2 /=; [exists (-1)%Re|exists 0%Re|exists 1%Re]; split; try lra; congr pair; ring.
have [t [ht gE]] := hgg'.
have hwl : (/ 10 <> 0)%Re by lra.
have [k hk] := krows_ok (shift_kp g (0, 0)) 1 hwl se (etrans (built_size hb) se).
suff hz : forall j, 1 - k.1.1 0 j ^+ 2 - k.1.2 0 j ^+ 2 != 0.
  by have [s [h4 _]] := vacuum_layer_ok eig J1 3%Re true hk hz; exists s.
move=> j; have [_ _ -> ->] := krowsE hk (built_size hb); rewrite !mxE.
have : exists s : R, (s * s <= 1)%Re /\ nth (0%Re, 0%Re) (e_g e) j = ((2 * PI * s)%Re, 0%Re).
  rewrite hg; case: j => -[|[|[|//]]] _ /=; [exists (-1)%Re|exists 0%Re|exists 1%Re]; split; try lra; congr pair; ring.
move=> [s [hs ->]]; rewrite gE /shift_kp /=.
have hpi := PI_neq0.
have kE u v : (RtoC u + 0 + RtoC v) / RtoC (2 * PI / / 10)%Re = RtoC ((u + v) / (2 * PI / / 10))%Re.
  have hk0 : (2 * PI / / 10 <> 0)%Re by apply: Rmult_integral_contrapositive_currified; lra.
  by rewrite addr0 (RtoC_div (u + v)%Re) // RtoC_plus addCE mulCE invCE.
rewrite !kE; apply: inside_light.
have := sin2_cos2 1; rewrite /Rsqr => h4; set c := cos 1 in h4 *; set d := sin 1 in h4 *.
have -> : ((2 * PI * (t * c) + 2 * PI * s) / (2 * PI / / 10) = (t * c + s) / 10)%Re by field.
have -> : ((2 * PI * (t * d) + 0) / (2 * PI / / 10) = t * d / 10)%Re by field.
have h5 : ((t * c + s) * (t * c + s) <= 2 * (t * c * (t * c) + s * s))%Re.
  have := Rle_0_sqr (t * c - s)%Re; rewrite /Rsqr; lra.
have h6 : (t * c * (t * c) + t * d * (t * d) = t * t)%Re.
  have -> : (t * t = t * t * (d * d + c * c))%Re by rewrite h4; ring.
  ring.
have h7 : (0 <= t * c * (t * c))%Re by apply: Rle_0_sqr.
have h8 : (0 <= t * d * (t * d))%Re by apply: Rle_0_sqr.
have -> : ((t * c + s) / 10 * ((t * c + s) / 10) + t * d / 10 * (t * d / 10) =
  ((t * c + s) * (t * c + s) + t * d * (t * d)) / 100)%Re by field.
lra.
Qed.

(** One order, permittivity 4. *)
Lemma extended_glass : exists e es x s s', [/\ built e, add_expansion e e = Ok es,
  mk_extended es IsLhs (Layer e (UNIFORM (RtoC 2 * RtoC 2)) 3%Re true) = Ok x,
  extended_solve eig J1 1 x (0, 0) 1%Re = Ok s /\
  layer_solve eig J1 1 (Layer es (UNIFORM (RtoC 2 * RtoC 2)) 3%Re true) (0, 0) 1%Re = Ok s' &
  sl_modes s = sl_modes s' /\ sl_IC s <> sl_IC s'].
Proof.
have [e he] : is_ok (mk_expansion (1, 1)%N unit_lattice).
  by rewrite /mk_expansion; have [b ->] := reciproc_unit; eexists.
have hb := built_init he.
have hpw : e_pw e = (1%N, 1%N) by move: he; rewrite /mk_expansion; case: (reciproc _ _) => // b; cbn [bind] => /= -[<-].
have hg : e_g e = [:: (0%Re, 0%Re)].
  move: he; rewrite /mk_expansion; case: (reciproc _ _) => // b; cbn [bind] => /= -[<-] /=.
  by congr [:: (_, _)]; ring.
have [es hes] : is_ok (add_expansion e e) by case: (add_outcome e (built_wf hb)) => -[].
have [h1 h2 _ h3] := add_expansionE hes.
set b := Layer e (UNIFORM (RtoC 2 * RtoC 2)) 3%Re true; pose x := Extended es 1 (e_g e) b true.
have hx : mk_extended es IsLhs b = Ok x by rewrite /mk_extended h2.
have [s hs] : is_ok (extended_solve eig J1 1 x (0, 0) 1%Re).
  have := @extended_uniform_ok eig J1 b x (RtoC 2 * RtoC 2) (0, 0) 1%Re erefl erefl isT.
  rewrite /= /e_size hpw hg /= muln1; apply=> // g [<-|[]].
  rewrite /shift_kp /= (_ : (RtoC 0%Re + 0, RtoC 0%Re + 0) = (0, 0)); last by rewrite /= addr0.
  by rewrite film_layer //=; try lra; eexists.
have sg := built_size hb.
have [s' [h4 _ h5 _ [h6 h7]]] := extended_uniform hes sg sg (erefl : l_exp b = operand_of IsLhs e e) erefl hx hs.
exists e, es, x, s, s'; split=> //; split=> //; rewrite h6 (h7 isT) => -[+ _].
rewrite (_ : (_ / _)%Re = (/ 4)%Re); [lra|field].
Qed.
End Twisted.

Lemma spot_unique kind N i : (i < N * N + N * N)%N ->
  exists! t : nat * nat * nat, [/\ (t.1.1 < 2)%N, (t.1.2 < N)%N, (t.2 < N)%N & i = spot kind N t.1.1 t.1.2 t.2].
Proof.
move/(@spot_surj kind) => [a [m [r [h1 h2 h3 h4]]]]; exists (a, m, r); split=> // -[[a' m'] r'] /= [k1 k2 k3 k4].
by have [-> -> ->] := spot_inj h2 h3 k2 k3 (etrans (esym h4) k4).
Qed.
Lemma extended_uniform_built eig J1 lhs rhs e who b eps x n kp wl s :
  built lhs -> built rhs -> add_expansion lhs rhs = Ok e ->
  l_exp b = operand_of who lhs rhs -> l_form b = UNIFORM eps -> mk_extended e who b = Ok x ->
  extended_solve eig J1 n x kp wl = Ok s ->
  exists s', [/\ layer_solve eig J1 n (Layer e (UNIFORM eps) (l_depth b) (l_fields b)) kp wl = Ok s',
    sl_S s = sl_S s', sl_modes s = sl_modes s' &
    l_fields b -> exists2 k, krows n e kp wl 1 = Ok k & exists2 f, free_space_eigenmodes k.1.1 k.1.2 = Ok f & sl_free s = Some f].
Proof.
move=> /built_size h1 /built_size h2 h3 h4 h5 h6 h7.
by have [s' [k1 k2 k3 k4 _]] := extended_uniform h3 h1 h2 h4 h5 h6 h7; exists s'; split.
Qed.

Lemma device_copies_met : exists layers Js r, [/\ size layers = 2%N,
  forall l : seq (smat C_fieldType (3 + 3)), List.In l layers -> size l = 3%N,
  mapM (fun l => joint_subspace 9 l 1) layers = Ok Js & stack_layers (n := 9) Js [:: true; false] = Ok r].
Proof.
pose l := nseq 3 (scattering_identity C_fieldType (3 + 3)); pose I := scattering_identity C_fieldType (9 + 9).
have hI : joint_subspace 9 l 1 = Ok I by exact: (@identity_joined _ 3 1).
exists [:: l; l], [:: I; I]; have [r hr] : is_ok (stack_layers (n := 9) [:: I; I] [:: true; false]).
  by rewrite /stack_layers /=; rewrite !rh_idL /= ?rh_idL /=; eexists.
exists r; split=> //; last by cbn [mapM]; rewrite hI.
by move=> l' /= [<-|[<-|[]]].
Qed.
