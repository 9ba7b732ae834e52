(** Lemmas for C110: layers of islands displaced together (T-matrix API). *)
From Coq Require Import Reals ZArith Lra Lia String.
From mathcomp Require Import all_ssreflect all_fingroup all_algebra.
From Coquelicot Require Import Complex.
From Verif Require Import Base CField CFun ModelRedheffer SpecScatter ModelExpansion SpecExpansion ModelFourier SpecFourier Blk ModelDevice ModelTmat SpecTmat TmatProofs ModelLattice SpecLattice LatticeProofs LookupProofs
  SpecExp ExpProofs ModelEz TableProofs SpecScale SpecSym MoveProofs FieldsProofs SpecBloch TmatEnergyProofs BlochProofs ConjProofs SpecShift.
Set Implicit Arguments. Unset Strict Implicit. Unset Printing Implicit Defensive.
Import GRing.Theory.
Local Open Scope ring_scope.

Lemma sliced_conj k (expm : 'M[C]_(k + k) -> 'M[C]_(k + k)) (d di : 'M[C]_k) P Q U A V U' A' V' z n : is_expm expm -> d *m di = 1%:M ->
  P *m Q = 1%:M -> U' *m P = both d *m U -> A' *m P = P *m A -> V' *m both d = P *m V ->
  @sliced_layer C_fieldType k expm U' A' V' z n = res_map (con d di) (@sliced_layer C_fieldType k expm U A V z n).
Proof.
move=> hx dd PQ hU hA hV; rewrite /sliced_layer; set s := z / _.
have -> : U' *m expm (s *: - A') *m V' = con d di (U *m expm (s *: - A) *m V).
  have e : P *m expm (s *: - A) = expm (s *: - A') *m P.
    rewrite !(is_expmE _ hx); apply: exp_intertwine; by rewrite -!(scalemxAr, scalemxAl) mulmxN mulNmx hA.
  rewrite /con !mulmxA -hU -!mulmxA; congr (_ *m _); rewrite !mulmxA e -!mulmxA; congr (_ *m _).
  by rewrite !mulmxA -hV -mulmxA both1 // mulmx1.
by rewrite matrix_sC //; case: (matrix_s _) => //= T; rewrite doublingsC.
Qed.

Lemma each_both n (f : 'I_n -> C) : each_order f = both (both (dgf f)).
Proof.
rewrite /each_order /both !diag_mx_row diag_dgf; congr (block_mx (block_mx _ _ _ _) _ _ (block_mx _ _ _ _)); by apply: eq_dgf => g; rewrite mxE.
Qed.
Lemma both_quad n (x : 'M[C]_n) : both (both x) = quad (fun a b => if a == b then x else 0).
Proof. by rewrite /both /quad /= -!block_mx0. Qed.
Lemma diagonal_commutes n (B : nat -> nat -> 'I_n -> C) f : quad (fun a b => dgf (B a b)) *m both (both (dgf f)) = both (both (dgf f)) *m quad (fun a b => dgf (B a b)).
Proof.
rewrite both_quad !quadM; apply: eq_quad; apply: below4; apply: below4; rewrite /= !(mulmx0, mul0mx, addr0, add0r) !dgfM;
  apply: eq_dgf => g; exact: mulrC.
Qed.
Lemma dgf_conj n (f : 'I_n -> C) (M : 'M[C]_n) : dgf f *m M = \matrix_(i, j) (f i * M i j).
Proof. by apply/matrixP => i j; rewrite /dgf mul_diag_mx !mxE. Qed.
Lemma conj_dgf n (f : 'I_n -> C) (M : 'M[C]_n) : M *m dgf f = \matrix_(i, j) (M i j * f j).
Proof. by apply/matrixP => i j; rewrite /dgf mul_mx_diag !mxE. Qed.

(** Tables of coefficients multiplied by phases. *)
Section Phases.
Variables (r : vec2) (p : nat * nat) (a1 a2 : vec2) (ei ee : num) (L : lattice).
Hypothesis hL : mk_lattice p a1 a2 ei ee = Ok L.
Hypothesis hf : window_fits p.
Definition shifted (T T' : array2) : Prop := [/\ a_rows T' = a_rows T, a_cols T' = a_cols T &
  forall i j, (i < qof p.1)%N -> (j < qof p.2)%N -> a_at T' i j = phase_of r (w_at (l_G L) i j) * a_at T i j].
Lemma phase_dot g : phase_of r g = cexp (- (ci * RtoC (dot2 r g))). Proof. by []. Qed.
Lemma phase0 : phase_of r (0%Re, 0%Re) = 1.
Proof. by rewrite /phase_of /= -[RHS]cexp0; congr cexp; apply: C_ext => /=; ring. Qed.
Lemma phase_diff g h : phase_of r (minus2 g h) * phase_of r h = phase_of r g.
Proof. by rewrite /phase_of -cexpD; congr cexp; apply: C_ext => /=; ring. Qed.
Lemma phase_inv g : phase_of r g * phase_of (back r) g = 1.
Proof. by rewrite /phase_of -cexpD -[RHS]cexp0; congr cexp; apply: C_ext => /=; ring. Qed.

Lemma grid_moved J1 s t : (if s is Disc _ _ _ then resolved (l_b L) else True) -> grid_transform J1 s (l_G L) (l_area L) = Ok t ->
  exists2 t', grid_transform J1 (shape_moved r s) (l_G L) (l_area L) = Ok t' & shifted t t'.
Proof.
have [_ _ hq _ [_ _ _ hG at_]] := mk_latticeE hL.
move=> hd; rewrite /grid_transform; case ht : (transform _ _ _ _) => [l|//]; cbn [bind] => -[<-].
have [s0 gs] := transform_ok ht; move: ht; rewrite (transform_good _ _ s0 gs) => -[<-].
have gs' : good_shape (shape_moved r s) by case: (s) gs.
rewrite (transform_good _ _ s0 gs'); cbn [bind]; eexists; first by []; split=> // a b ha hb /=.
have [hr hc] : w_rows (l_G L) = qof p.1 /\ w_cols (l_G L) = qof p.2 by move: hG; rewrite hq => -[].
have val f : nth 0 [seq f g | g <- [seq w_at (l_G L) (k %/ w_cols (l_G L)) (k %% w_cols (l_G L)) | k <- iota 0 (w_ng (l_G L))]]
    (a * w_cols (l_G L) + b) = f (w_at (l_G L) a b) :> C.
  have lt : (a * w_cols (l_G L) + b < w_ng (l_G L))%N.
    rewrite /w_ng hr hc; apply: leq_trans (_ : (a.+1 * qof p.2 <= _)%N); last by rewrite leq_mul2r ha orbT.
    by rewrite mulSn addnC ltn_add2r.
  rewrite (nth_map (0%Re, 0%Re)) ?size_map ?size_iota // (nth_map 0%N) ?size_iota // nth_iota // add0n.
  have c0 : (0 < w_cols (l_G L))%N by rewrite hc; exact: leq_ltn_trans hb.
  by rewrite divnMDl // modnMDl divn_small ?modn_small ?addn0 // hc.
rewrite !val at_ phase_dot; exact: (@shape_value_moved J1 s (l_area L) r (l_b L) (_, _) hd).
Qed.
Lemma data_moved J1 isl data : (has_disc isl -> resolved (l_b L)) ->
  mapM (fun i => do t <- grid_transform J1 i.1 (l_G L) (l_area L); Ok (t, i.2)) isl = Ok data ->
  exists2 data', mapM (fun i => do t <- grid_transform J1 i.1 (l_G L) (l_area L); Ok (t, i.2)) [seq (shape_moved r i.1, i.2) | i <- isl] = Ok data' &
  List.Forall2 (fun x y => shifted x.1 y.1 /\ y.2 = x.2) data data'.
Proof.
elim: isl data => [|[s e] isl IH] data /= hd; first by case=> <-; exists [::].
case ht : (grid_transform _ _ _ _) => [t|//]; cbn [bind].
have [|t' -> st] := grid_moved _ ht; first by case: (s) hd => // x y z hd; apply: hd.
case hm : (mapM _ _) => [ys|//]; cbn [bind] => -[<-].
have [|data' -> hF] := IH _ _ hm; first by move=> h; apply: hd; rewrite h orbT.
by eexists; first by []; constructor.
Qed.
Lemma tables_moved inverse host data data' acc acc' T : List.Forall2 (fun x y => shifted x.1 y.1 /\ y.2 = x.2) data data' -> shifted acc acc' ->
  add_tables inverse host data acc = Ok T -> exists2 T', add_tables inverse host data' acc' = Ok T' & shifted T T'.
Proof.
move=> hF; elim: hF acc acc' => [|[t e] [t' e'] l l' [st /= ->] _ IH] acc acc' /= sa; first by case=> <-; exists acc'.
case: (mask_trsf inverse e) => [te|//]; cbn [bind]; case: (mask_trsf inverse host) => [th|//]; cbn [bind].
have [r1 c1 h1] := st; have [r2 c2 h2] := sa; rewrite r1 c1 r2 c2 /=; case: ifP => // _; apply: IH; split=> // i j hi hj /=.
by rewrite h1 // h2 // mulrDr; congr (_ + _); rewrite mulrCA.
Qed.
Lemma epsilon_moved data data' host inverse T : List.Forall2 (fun x y => shifted x.1 y.1 /\ y.2 = x.2) data data' ->
  epsilon_g (l_q L) data host inverse = Ok T -> exists2 T', epsilon_g (l_q L) data' host inverse = Ok T' & shifted T T'.
Proof.
move=> hF; rewrite /epsilon_g; case: (mask_trsf _ _) => [th|//]; cbn [bind]; case: ifP => // _; apply: tables_moved => //.
split=> // i j hi hj /=; case: ifP => [/andP [/eqP -> /eqP ->]|_]; last by rewrite mulr0.
by rewrite (centre_zero hL) phase0 mul1r.
Qed.
Lemma lookups_moved n l T T' s : n = l_ng L -> standard_orders p.1 p.2 l -> shifted T T' -> a_rows T = (l_q L).1 -> a_cols T = (l_q L).2 ->
  order_lookups l (w_rows (window L) %/ 2) (w_cols (window L) %/ 2) n T = Ok s ->
  exists2 s', order_lookups l (w_rows (window L) %/ 2) (w_cols (window L) %/ 2) n T' = Ok s' &
  forall i j, (i < n)%N -> (j < n)%N -> looked s' i j * phase_of r (l_g L j) = phase_of r (l_g L i) * looked s i j.
Proof.
move=> -> hs [h1 h2 h3] hr hc hT; have [_ _ hq _ [_ _ _ _ hG]] := mk_latticeE hL.
move: hr hc hT; rewrite hq (window_rows hL).1 (window_cols hL hf) (window_ng hL hf) /= => hr hc.
have [s0 -> lk] := order_lookupsE hs hr hc (erefl _) => -[<-].
have hr' : a_rows T' = qof p.1 by rewrite h1. have hc' : a_cols T' = qof p.2 by rewrite h2.
have [s' -> lk'] := order_lookupsE hs hr' hc' (erefl _).
exists s' => // i j hi hj; rewrite lk // lk' // /entry.
have [i1 i2 _] := coords_lt hi; have [j1 j2 _] := coords_lt hj; have [d1 e1] := dif_lt i1 j1; have [d2 e2] := dif_lt i2 j2.
rewrite h3 // mulrAC; congr (_ * _); rewrite -(phase_diff (l_g L i) (l_g L j)); congr (phase_of _ _ * _).
rewrite hG e1 e2 /l_g /w_flat (window_rows hL).1 !(window_at hL) /order_vector /minus2 /= !(plus_IZR, minus_IZR).
by congr (_, _); ring.
Qed.

(** The matrix of the layer. *)
Definition ph {n} (g : 'I_n) : C := phase_of r (l_g L g).
Definition phi {n} (g : 'I_n) : C := phase_of (back r) (l_g L g).
Lemma ph_phi n : both (dgf (@ph n)) *m both (dgf (@phi n)) = 1%:M.
Proof.
have h : dgf (@ph n) *m dgf (@phi n) = 1%:M by rewrite dgfM dgf1; apply: eq_dgf => g; exact: phase_inv.
exact: both1.
Qed.
Lemma looked_moved n (s s' : seq (seq C)) (u v : 'I_n -> C) c :
  (forall i j : 'I_n, looked s' i j * ph j = ph i * looked s i j) ->
  (\matrix_(i, j) (c * u i * looked s' i j * v j)) *m dgf ph = dgf ph *m \matrix_(i, j) (c * u i * looked s i j * v j) :> 'M[C]_n.
Proof.
move=> h; rewrite dgf_conj conj_dgf; apply/matrixP => i j; rewrite !mxE -!mulrA [v j * _]mulrC [looked s' i j * _]mulrA h.
by cring.
Qed.
Lemma looked_moved1 n (s s' : seq (seq C)) c :
  (forall i j : 'I_n, looked s' i j * ph j = ph i * looked s i j) ->
  (\matrix_(i, j) (c * looked s' i j)) *m dgf ph = dgf ph *m \matrix_(i, j) (c * looked s i j) :> 'M[C]_n.
Proof. by move=> h; rewrite dgf_conj conj_dgf; apply/matrixP => i j; rewrite !mxE -!mulrA h; cring. Qed.
Lemma dgfC n (f g : 'I_n -> C) : dgf f *m dgf g = dgf g *m dgf f.
Proof. by rewrite !dgfM; apply: eq_dgf => i; exact: mulrC. Qed.
Lemma matrix_a_moved n l wl kp T Ti T' Ti' A : standard_orders p.1 p.2 l -> shifted T T' -> shifted Ti Ti' ->
  a_rows T = (l_q L).1 -> a_cols T = (l_q L).2 -> a_rows Ti = (l_q L).1 -> a_cols Ti = (l_q L).2 -> 
  matrix_a n l (window L) T Ti wl kp = Ok A ->
  exists2 A', matrix_a n l (window L) T' Ti' wl kp = Ok A' & A' *m both (both (dgf ph)) = both (both (dgf ph)) *m A.
Proof.
move=> hs st sti hr hc hr' hc'; rewrite /matrix_a; case: Req_EM_T => [//|w0].
case: eqP => // hn.
case hT : (order_lookups _ _ _ _ T) => [e|//]; cbn [bind]; case hTi : (order_lookups _ _ _ _ Ti) => [v|//]; cbn [bind] => -[<-].
have [e' -> he] := lookups_moved hn hs st hr hc hT; cbn [bind].
have [v' -> hv] := lookups_moved hn hs sti hr' hc' hTi; cbn [bind].
have he' (i j : 'I_n) : looked e' i j * ph j = ph i * looked e i j by apply: he.
have hv' (i j : 'I_n) : looked v' i j * ph j = ph i * looked v i j by apply: hv.
eexists; first by [].
rewrite !both_quad !quadM; apply: eq_quad; apply: below4; apply: below4; rewrite /= !(mulmx0, mul0mx, addr0, add0r) //;
  rewrite ?(mulmxDr, mulmxDl, mulmxN, mulNmx) ?(looked_moved _ _ _ hv') ?(looked_moved1 _ he') ?(dgfC _ ph) //.
Qed.
Lemma layer_moved J1 n expm isl host wl kp d pow S : is_expm expm -> (has_disc isl -> resolved (l_b L)) ->
  @scattering_matrix_islands J1 n expm p L isl host wl kp d pow = Ok S ->
  @scattering_matrix_islands J1 n expm p L [seq (shape_moved r i.1, i.2) | i <- isl] host wl kp d pow =
    Ok (con (both (dgf ph)) (both (dgf phi)) S).
Proof.
move=> hexp hd; rewrite /scattering_matrix_islands.
have [_ _ hq _ _] := mk_latticeE hL.
case hg : (grid_size _) => [nq|//]; cbn [bind]; have [_ e] := grid_sizeE hg; have {e} -> : nq.2 = l_q L by rewrite hq e.
case hm : (mapM _ _) => [data|//]; cbn [bind]; have [data' -> hF] := data_moved hd hm; cbn [bind].
case hT : (epsilon_g _ _ _ false) => [T|//]; cbn [bind]; have [T' -> sT] := epsilon_moved hF hT; cbn [bind].
case hTi : (epsilon_g _ _ _ true) => [Ti|//]; cbn [bind]; have [Ti' -> sTi] := epsilon_moved hF hTi; cbn [bind].
case hU : (lattice_U _ _ _ kp) => [U|//]; cbn [bind]; case hV : (lattice_Vi _ _ _ kp) => [V|//]; cbn [bind].
case hl : (mapM _ _) => [l|//]; cbn [bind].
have sl : standard_orders p.1 p.2 l.
  by apply: coords_standard; rewrite -hl (window_rows hL).1 (window_cols hL hf); case: (p) => ? ?.
case hA : (matrix_a _ _ _ _ _ _ _) => [A|//]; cbn [bind] => hS.
have [r1 c1 _] := epsilon_gE hT; have [r2 c2 _] := epsilon_gE hTi.
have [A' -> cA] := matrix_a_moved sl sT sTi r1 c1 r2 c2 hA; cbn [bind].
have id1 : both (dgf (@ph n)) *m both (dgf phi) = 1%:M by exact: ph_phi.
have id2 := both1 id1.
rewrite (sliced_conj _ _ hexp id1 id2 (_ : U *m _ = _ *m U) cA (_ : V *m _ = _ *m V)) ?hS //.
- have [_ _ _ _] := lattice_UE hU; rewrite /matrix_u; case: ifP => // _; case: ifP => // _ -[<-]; exact: diagonal_commutes.
- have [_ _ _] := lattice_VE hV; rewrite /matrix_v; case: (np_sqrt _) => [z|//]; cbn [bind] => -[<-]; exact: diagonal_commutes.
Qed.
Lemma interface_moved n wl kp S : scattering_interface n L wl kp = Ok S -> con (both (dgf ph)) (both (dgf phi)) S = S.
Proof.
rewrite /scattering_interface; case hU : (lattice_U _ _ _ kp) => [U|//]; cbn [bind]; case hV : (lattice_Ve _ _ _ kp) => [V|//]; cbn [bind].
have id1 : both (dgf (@ph n)) *m both (dgf phi) = 1%:M by exact: ph_phi.
rewrite /interface => hS; have hc : U *m V = con (both (dgf ph)) (both (dgf phi)) (U *m V).
  rewrite /con mulmxA.
  have -> : both (both (dgf ph)) *m U = U *m both (both (dgf ph)).
    have [_ _ _ _] := lattice_UE hU; rewrite /matrix_u; case: ifP => // _; case: ifP => // _ -[<-]; by rewrite diagonal_commutes.
  rewrite -[U *m _ *m V]mulmxA; have -> : both (both (dgf ph)) *m V = V *m both (both (dgf ph)).
    have [_ _ _] := lattice_VE hV; rewrite /matrix_v; case: (np_sqrt _) => [z|//]; cbn [bind] => -[<-]; by rewrite diagonal_commutes.
  by rewrite -!mulmxA both1 // mulmx1.
by move: (hS); rewrite hc matrix_sC // hS => -[].
Qed.

(** Piles. *)
Definition D {n} : 'M[C]_((n + n) + (n + n)) := each_order (fun g : 'I_n => phase_of r (l_g L g)).
Definition Di {n} : 'M[C]_((n + n) + (n + n)) := each_order (fun g : 'I_n => phase_of (back r) (l_g L g)).
Lemma conD n (S : 'M[C]_((n + n) + (n + n))) : con (both (dgf ph)) (both (dgf phi)) S = D *m S *m Di.
Proof. by rewrite /D /Di !each_both. Qed.
Lemma DDi n : @D n *m Di = 1%:M.
Proof. by rewrite /D /Di !each_both; apply: both1; exact: ph_phi. Qed.
Lemma pile_moved J1 n (expm : 'M[C]_((n + n) + (n + n)) -> 'M[C]_((n + n) + (n + n))) wl kp recipes stacking d name S : is_expm expm -> discs_resolved (l_b L) recipes ->
  pile_at J1 expm p L wl kp recipes stacking d name S ->
  pile_at J1 expm p L wl kp (recipes_moved r recipes) stacking d name (D *m S *m Di).
Proof.
move=> hx hd [req hr hS]; exists (fun nm => omap (con (both (dgf (@ph n))) (both (dgf phi))) (req nm)).
  move=> nm; rewrite /recipes_moved; have := hr nm; have := hd nm; case: (recipes nm) => [[[[isl host] dp] pow]|] hd' /=; last by move=> ->.
  move=> [M -> hM]; exists (con (both (dgf ph)) (both (dgf phi)) M) => //; exact: layer_moved hx (hd' _ erefl) hM.
by rewrite (@stackC _ _ _ _ (@ph_phi n) _ _ _ (fun nm => erefl _)) hS /= conD.
Qed.
Lemma closed_moved J1 n (expm : 'M[C]_((n + n) + (n + n)) -> 'M[C]_((n + n) + (n + n))) wl kp recipes stacking d name S : is_expm expm -> discs_resolved (l_b L) recipes ->
  closed_at J1 expm p L wl kp recipes stacking d name S ->
  closed_at J1 expm p L wl kp (recipes_moved r recipes) stacking d name (D *m S *m Di).
Proof.
move=> hx hd [A [B [hA hB hS]]]; exists (D *m A *m Di), B; split=> //; first exact: pile_moved.
by rewrite -!conD -{1}(interface_moved hB) multSC ?hS //; exact: ph_phi.
Qed.
Lemma det_moved n (S : 'M[C]_((n + n) + (n + n))) : \det (D *m S *m Di) = \det S.
Proof.
have := DDi n => /(congr1 determinant); rewrite det_mulmx det1 => h.
by rewrite !det_mulmx mulrAC h mul1r.
Qed.
Lemma bloch_moved n (S : 'M[C]_((n + n) + (n + n))) w v : bloch_wave S w v -> bloch_wave (D *m S *m Di) w (D *m v).
Proof.
move=> [v0 hv]; have h := DDi n; have h' := mulmx1C h; split.
  by apply: contraNneq v0 => e; rewrite -[v]mul1mx -h' -mulmxA e mulmx0.
have eD (x y : 'cV[C]_(n + n)) : D *m col_mx x y = col_mx (both (dgf ph) *m x) (both (dgf ph) *m y).
  by rewrite /D each_both {1}/both mul_block_col !mul0mx addr0 add0r.
have ev : D *m v = col_mx (both (dgf ph) *m usubmx v) (both (dgf ph) *m dsubmx v) by rewrite -{1}[v]vsubmxK eD.
move: hv; rewrite /tscatters ev col_mxKu col_mxKd !scalemxAr -!eD => ->.
by rewrite -!mulmxA [Di *m _]mulmxA h' mul1mx.
Qed.

Lemma quarter_each n (f : 'I_n -> C) P a (g : 'I_n) : quarter_of (each_order f *m P) a g 0 = f g * quarter_of P a g 0.
Proof.
rewrite each_both /both -{1}[P]vsubmxK mul_block_col !mul0mx addr0 add0r.
have e (x : 'cV[C]_(n + n)) : block_mx (dgf f) 0 0 (dgf f) *m x = col_mx (dgf f *m usubmx x) (dgf f *m dsubmx x).
  by rewrite -{1}[x]vsubmxK mul_block_col !mul0mx addr0 add0r.
have e2 (x : 'cV[C]_n) : (dgf f *m x) g 0 = f g * x g 0.
  by rewrite /dgf mul_diag_mx !mxE.
by case: a => [|[|[|a]]]; rewrite /quarter_of !(col_mxKu, col_mxKd) e !(col_mxKu, col_mxKd) e2.
Qed.
Lemma quarters_eq n (P Q : 'cV[C]_((n + n) + (n + n))) : (forall a g, (a < 4)%N -> quarter_of P a g 0 = quarter_of Q a g 0) -> P = Q.
Proof.
move=> h; rewrite -[P]vsubmxK -[Q]vsubmxK -[usubmx P]vsubmxK -[dsubmx P]vsubmxK -[usubmx Q]vsubmxK -[dsubmx Q]vsubmxK.
by congr (col_mx (col_mx _ _) (col_mx _ _)); apply/colP => g; [apply: (h 0%N)|apply: (h 1%N)|apply: (h 2%N)|apply: (h 3%N)].
Qed.
Lemma incident_moved n E0 pp sp pin : tmat_incident n p E0 pp sp = Ok pin -> Di *m pin = pin.
Proof.
rewrite /tmat_incident; case: eqP => // hn; case: ltnP => // lt [<-].
have p0 : (0 < p.1)%N by move: lt; rewrite hn; case: p.1.
apply: quarters_eq => a g ha; rewrite quarter_each.
case: (eqVneq (g : nat) (p.1 %/ 2 + p.1 * (p.2 %/ 2))%N) => [e|ne].
  by rewrite e (window_zero hL p0) /phase_of /= !Rmult_0_r Rplus_0_r mulr0 oppr0 cexp0 mul1r.
by case: a ha => [|[|[|[|a]]]] // _; rewrite /quarter_of !(col_mxKu, col_mxKd) !mxE ?(negbTE ne) mulr0.
Qed.
Lemma phase_mod g : Cmod (phase_of r g) = 1%Re.
Proof. by rewrite /phase_of FieldsProofs.Cmod_cexp -exp_0; congr exp => /=; ring. Qed.
Lemma sqmod_moved n (P : 'cV[C]_((n + n) + (n + n))) a g : ModelLattice.sqmod (quarter_of (D *m P) a g 0) = ModelLattice.sqmod (quarter_of P a g 0).
Proof. by rewrite quarter_each /ModelLattice.sqmod Cmod_mult phase_mod Rmult_1_l. Qed.
Lemma currents_moved n (pin pout : 'cV[C]_((n + n) + (n + n))) wl kp : compute_currents pin (D *m pout) L wl kp = compute_currents pin pout L wl kp.
Proof.
rewrite /compute_currents; case: ifP => // _; case: Req_EM_T => // w.
by congr (Ok (_, _, _)); apply: FunctionalExtensionality.functional_extensionality => g; rewrite !sqmod_moved.
Qed.
Lemma fluxes_moved n E0 pp sp pin (S : 'M[C]_((n + n) + (n + n))) wl kp : tmat_incident n p E0 pp sp = Ok pin ->
  compute_fluxes L wl pin (D *m S *m Di *m pin) kp = compute_fluxes L wl pin (S *m pin) kp.
Proof. by move=> h; rewrite -mulmxA (incident_moved h) -mulmxA /compute_fluxes currents_moved. Qed.
End Phases.

