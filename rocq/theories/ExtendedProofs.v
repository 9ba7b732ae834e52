(** Layers of one lattice in the sum of two lattices. *)
From Coq Require Import Reals Lra.
From mathcomp Require Import all_ssreflect all_algebra.
From Coquelicot Require Import Complex.
From Verif Require Import Base CField CFun Blk ModelRedheffer RedhefferProofs SpecScatter ModelLayer UniformProofs
  ModelExpansion ModelExtension ModelDevice SpecExtension ExtensionProofs JoinProofs.
Set Implicit Arguments. Unset Strict Implicit. Unset Printing Implicit Defensive.
Import GRing.Theory.
Local Open Scope ring_scope.

Lemma fin_choice A (a0 : A) N (P : nat -> A -> Prop) : (forall m, (m < N)%N -> exists x, P m x) ->
  exists f : nat -> A, forall m, (m < N)%N -> P m (f m).
Proof.
elim: N => [|N ih] h; first by exists (fun _ => a0).
have [|f hf] := ih; first by move=> m hm; apply: h; rewrite ltnW.
have [x hx] := h N (ltnSn N); exists (fun m => if m == N then x else f m) => m; rewrite ltnS leq_eqVlt.
by case: eqP => [->//|_] /= hm; apply: hf.
Qed.

Section Orders.
Variables (F : fieldType) (N kind : nat).
Local Notation n := (N * N)%N.

(** The pair of orders of an order of the sum. *)
Definition cp (j : nat) : nat := copy_of N kind j.
Lemma ow_lt (j : 'I_n) : (own_of N kind j < N)%N.
Proof.
have N0 : (0 < N)%N by case: N j => [|//] [].
rewrite /own_of divn_small // mul0n add0n; case: eqP => _; first by rewrite ltn_mod.
by rewrite ltn_divLR // modn_small.
Qed.
Definition ow (j : 'I_n) : 'I_N := Ordinal (ow_lt j).

Lemma n0 (j : 'I_n) : (0 < n)%N. Proof. by rewrite (leq_ltn_trans (leq0n j)). Qed.
Lemma copy_l (j : 'I_n) : copy kind (lshift n j) = cp j :> nat. Proof. by []. Qed.
Lemma copy_r (j : 'I_n) : copy kind (rshift n j) = cp j :> nat.
Proof. by rewrite /= /cp /copy_of modnDl. Qed.
Lemma own_l (j : 'I_n) : own kind (lshift n j) = lshift N (ow j). Proof. by apply: val_inj. Qed.
Lemma own_r (j : 'I_n) : own kind (rshift n j) = rshift N (ow j).
Proof.
apply: val_inj; rewrite /= /own_of modnDl divnDl ?dvdnn // divnn (n0 j) mulnDl mul1n -addnA; congr addn.
Qed.
Lemma pair_eq (i j : 'I_n) : (i == j) = (cp i == cp j) && (ow i == ow j).
Proof.
rewrite -(inj_eq (@lshift_inj n n)) -(inj_eq (@key_inj N kind)) /key xpair_eqE !own_l (inj_eq (@lshift_inj N N)).
by rewrite -!val_eqE.
Qed.

Lemma placeK (j : 'I_n) : place kind N (cp j) (ow j) = j.
Proof.
have N0 : (0 < N)%N by case: N j => [|//] [].
rewrite /place /cp /copy_of /= /own_of (divn_small (ltn_ord j)) mul0n add0n (modn_small (ltn_ord j)).
by case: eqP => _; rewrite -divn_eq.
Qed.

Definition joinf (a : nat -> 'I_N -> F) : 'I_n -> F := fun j => a (cp j) (ow j).
Lemma join_blk2 (a b c d : nat -> 'I_N -> F) :
  join kind (fun m => blk2 (a m) (b m) (c m) (d m)) = blk2 (joinf a) (joinf b) (joinf c) (joinf d).
Proof.
have e (x : nat -> 'I_N -> F) (i j : 'I_n) :
    (if cp i == cp j then dgf (x (cp i)) (ow i) (ow j) else 0) = dgf (joinf x) i j.
  rewrite !mxE pair_eq; case: (cp i == cp j) => //=.
have cE (i j : 'I_(n + n)) : (copy kind i == copy kind j) = (copy kind i == copy kind j :> nat) by [].
apply/matrixP => i j; rewrite mxE cE; case: (split_ordP i) => i' ->; case: (split_ordP j) => j' ->;
  rewrite ?copy_l ?copy_r ?own_l ?own_r /blk2 ?block_mxEul ?block_mxEur ?block_mxEdl ?block_mxEdr; exact: e.
Qed.
Lemma join_twof (l : nat -> 'I_N -> F) : join kind (fun m => diag_mx (twof (l m))) = diag_mx (twof (joinf l)).
Proof.
rewrite blk2_diag -(join_blk2 l (fun _ _ => 0) (fun _ _ => 0) l); apply: eq_join => m _.
by rewrite blk2_diag.
Qed.

Lemma join_diag (v : nat -> 'rV[F]_(N + N)) : join kind (fun m => diag_mx (v m)) = diag_mx (\row_i v (copy kind i) 0 (own kind i)).
Proof.
apply/matrixP => i j; rewrite !mxE -(inj_eq (@key_inj N kind) i j) /key xpair_eqE.
by case: (copy kind i == copy kind j).
Qed.

Lemma join_build (WI VI W0 V0 : nat -> 'M[F]_(N + N)) (x : nat -> 'rV[F]_(N + N)) y P :
  join kind (fun m => diag_mx (x m)) = diag_mx y ->
  (forall m, (m < N)%N -> build_core (WI m) (VI m) (W0 m) (V0 m) (x m) = Ok (P m)) ->
  build_core (join kind WI) (join kind VI) (join kind W0) (join kind V0) y = Ok (joinS kind P).
Proof.
move=> hx h.
pose A m := invmx (WI m) *m W0 m + invmx (VI m) *m V0 m; pose B m := invmx (WI m) *m W0 m - invmx (VI m) *m V0 m.
pose X m := diag_mx (x m); pose T m := A m - X m *m B m *m (invmx (A m) *m X m) *m B m.
have hm m : (m < N)%N -> [/\ WI m \in unitmx, VI m \in unitmx, A m \in unitmx, T m \in unitmx &
    P m = let s := invmx (T m) *m (X m *m B m *m (invmx (A m) *m X m) *m A m - B m) in
          let t := invmx (T m) *m (X m *m (A m - B m *m (invmx (A m) *m B m))) in Smat s t t s].
  move=> /h; rewrite /build_core /solve; case: ifP => //= u1; case: ifP => //= u2; rewrite -/(A m) -/(B m) -/(X m).
  by case: ifP => //= u3; rewrite -/(T m); case: ifP => //= u4 [<-].
rewrite /build_core join_solve => [|m /hm []] //; cbn [bind].
rewrite join_solve => [|m /hm []] //; cbn [bind]; rewrite joinD joinB -hx.
rewrite (@join_solve _ _ _ A) => [|m /hm []] //; cbn [bind]; rewrite !joinM !joinB.
rewrite (@join_solve _ _ _ T) => [|m /hm []] //; cbn [bind].
rewrite (@join_solve _ _ _ A) => [|m /hm []] //; cbn [bind]; rewrite !joinM !joinB !joinM.
rewrite (@join_solve _ _ _ T) => [|m /hm []] //; cbn [bind].
by congr Ok; congr Smat; apply: eq_join => m /hm [_ _ _ _ ->].
Qed.
End Orders.

(** * Uniform layers *)
Section Uniform.
Variables (N kind : nat).
Local Notation n := (N * N)%N.
Implicit Types (kx ky : nat -> 'rV[C]_N).
Definition joinrow (r : nat -> 'rV[C]_N) : 'rV[C]_n := \row_j r (cp N kind j) 0 (ow kind j).

Lemma join_qmat kx ky e : join kind (fun m => qmat (kx m) (ky m) e) = qmat (joinrow kx) (joinrow ky) e.
Proof. by rewrite /qmat join_blk2; apply: eq_blk2 => j; rewrite /joinf !mxE. Qed.
Lemma join_divcols (Q V : nat -> 'M[C]_(N + N)) (f : nat -> 'I_N -> C) Q' f' :
  (forall m, (m < N)%N -> divcols (Q m) (twice (\row_j f m j)) = Ok (V m)) ->
  Q' = join kind Q -> f' =1 joinf kind f -> divcols Q' (twice (\row_j f' j)) = Ok (join kind V).
Proof.
move=> h -> hf; apply/divcolsP; split.
  apply: twice_neq0E => j; rewrite mxE hf /joinf.
  have hc : (cp N kind j < N)%N by rewrite -copy_l ltn_ord.
  have [h1 _] := (divcolsP _ _ _).1 (h _ hc); have := twice_neq0 h1 (ow kind j); by rewrite mxE.
rewrite twiceE (_ : twof f' = twof (joinf kind f)); last by congr row_mx; apply/rowP => j; rewrite !mxE.
rewrite -join_twof joinM; apply: eq_join => m hm; have [_ <-] := (divcolsP _ _ _).1 (h _ hm).
by rewrite twiceE.
Qed.

Lemma join_free kx ky f : (forall m, (m < N)%N -> free_space_eigenmodes (kx m) (ky m) = Ok (f m)) ->
  free_space_eigenmodes (joinrow kx) (joinrow ky) = Ok (join kind (fun m => (f m).1), join kind (fun m => (f m).2)).
Proof.
move=> h; rewrite /free_space_eigenmodes; set Q := block_mx _ _ _ _.
pose q m := block_mx (diag_mx (\row_j (kx m 0 j * ky m 0 j))) (1%:M - diag_mx (\row_j (kx m 0 j ^+ 2)))
    (diag_mx (\row_j (ky m 0 j ^+ 2)) - 1%:M) (- diag_mx (\row_j (ky m 0 j * kx m 0 j))).
pose l m j := ci * kz_branch (1 - kx m 0 j ^+ 2 - ky m 0 j ^+ 2).
have hm m : (m < N)%N -> divcols (q m) (twice (\row_j l m j)) = Ok (f m).2 /\ (f m).1 = 1%:M.
  move/h; rewrite /free_space_eigenmodes -/(q m).
  rewrite (_ : ci *: _ = \row_j l m j); last by apply/rowP => j; rewrite !mxE.
  by case: (divcols _ _) => [V|//]; cbn [bind] => -[<-].
rewrite (_ : ci *: _ = \row_j (ci * kz_branch (1 - joinrow kx 0 j ^+ 2 - joinrow ky 0 j ^+ 2))); last first.
  by apply/rowP => j; rewrite !mxE.
rewrite (join_divcols (Q := q) (f := l) (V := fun m => (f m).2)).
- cbn [bind]; congr (Ok (_, _)); rewrite -(join1 _ N kind); apply: eq_join => m /hm [_ ->] //.
- by move=> m /hm [].
- rewrite /Q /q -!/(dgf _) dgf_scal !dgfB !dgfN -/(blk2 _ _ _ _).
  rewrite (@eq_join _ _ _ (fun m => block_mx _ _ _ _) (fun m => blk2 (fun j => kx m 0 j * ky m 0 j) (fun j => 1 - kx m 0 j ^+ 2)
     (fun j => ky m 0 j ^+ 2 - 1) (fun j => - (ky m 0 j * kx m 0 j)))) => [|m _].
    by rewrite join_blk2; apply: eq_blk2 => j; rewrite /joinf !mxE.
  by rewrite -!/(dgf _) dgf_scal !dgfB !dgfN.
- by move=> j; rewrite /joinf /l !mxE.
Qed.
Lemma join_uniform kx ky eps w : (0 < N)%N -> (forall m, (m < N)%N -> solve_uniform_layer (kx m) (ky m) eps 1 = Ok (w m)) ->
  exists l, [/\ solve_uniform_layer (joinrow kx) (joinrow ky) eps 1 = Ok (join kind (fun m => (w m).1.1), join kind (fun m => (w m).1.2), twof l),
    (forall m, (m < N)%N -> exists k, (w m).2 = twof k) &
    join kind (fun m => diag_mx (w m).2) = diag_mx (twof l)].
Proof.
move=> N0 h; rewrite /solve_uniform_layer.
pose l m j := ci * kz_branch (1 * eps - kx m 0 j ^+ 2 - ky m 0 j ^+ 2).
have nz : ~~ ((eps == 0) || ((1 : C) == 0)) by move: (h _ N0); rewrite /solve_uniform_layer; case: ifP.
have e0 : eps != 0 by move: nz; rewrite negb_or => /andP [].
have hm m : (m < N)%N -> divcols (uniform_Q (kx m) (ky m) eps 1) (twice (\row_j l m j)) = Ok (w m).1.2 /\ (w m).1.1 = 1%:M /\
    (w m).2 = twof (l m).
  move/h; rewrite /solve_uniform_layer (negbTE nz).
  rewrite (_ : ci *: _ = \row_j l m j); last by apply/rowP => j; rewrite !mxE.
  by case: (divcols _ _) => [V|//]; cbn [bind] => -[<-]; rewrite twiceE.
exists (joinf kind l); split; last first.
- by rewrite -join_twof; apply: eq_join => m /hm [_ [_ ->]].
- by move=> m /hm [_ [_ ->]]; exists (l m).
rewrite (negbTE nz) (_ : ci *: _ = \row_j joinf kind l j); last by apply/rowP => j; rewrite !mxE.
rewrite (join_divcols (Q := fun m => uniform_Q (kx m) (ky m) eps 1) (f := l) (V := fun m => (w m).1.2)).
- cbn [bind]; rewrite twiceE; congr (Ok (_, _, _)); rewrite -(join1 _ N kind); apply: eq_join => m /hm [_ [-> _]] //.
- by move=> m /hm [].
- rewrite uniform_QE // -join_qmat.
  rewrite (@eq_join _ _ _ (fun m => uniform_Q _ _ _ _) (fun m => qmat (kx m) (ky m) (eps * 1))) ?invr1 ?scale1r // => m _.
  by rewrite uniform_QE // invr1 scale1r.
- by [].
Qed.
End Uniform.

(** * The g-vectors of the sum *)
Lemma nth_flatten_rows (A B T : Type) (f : A -> B -> T) (la : seq A) (lb : seq B) a0 b0 t0 i j :
  (i < size la)%N -> (j < size lb)%N ->
  nth t0 (flatten [seq [seq f a b | b <- lb] | a <- la]) (i * size lb + j) = f (nth a0 la i) (nth b0 lb j).
Proof.
elim: la i => [//|a la ih] [|i] hi hj /=; rewrite nth_cat size_map.
  by rewrite mul0n add0n hj (nth_map b0).
by rewrite mulSn -addnA ltnNge leq_addr /= addnC addnK ih.
Qed.
Lemma size_flatten_rows (A B T : Type) (f : A -> B -> T) (la : seq A) (lb : seq B) :
  size (flatten [seq [seq f a b | b <- lb] | a <- la]) = (size la * size lb)%N.
Proof. by elim: la => //= a la ih; rewrite size_cat size_map ih mulSn. Qed.

Definition operand_of (who : operand) (lhs rhs : expansion) : expansion := if who is IsLhs then lhs else rhs.
Definition other_of (who : operand) (lhs rhs : expansion) : expansion := if who is IsLhs then rhs else lhs.

Lemma add_expansionE lhs rhs e : add_expansion lhs rhs = Ok e ->
  [/\ e_g e = flatten [seq [seq add2 g1 g2 | g1 <- e_g rhs] | g2 <- e_g lhs], e_lhs_rhs e = Some (e_g lhs, e_g rhs),
      size (e_g lhs) = size (e_g rhs) & e_size e = (e_size lhs * e_size lhs)%N].
Proof.
rewrite /add_expansion; case: (mk_expansion _ _) => [e'|//]; cbn [bind]; case: eqP => // hs [<-]; split=> //.
by rewrite /e_size /= !expnS !expn0 !muln1 mulnACA.
Qed.
Lemma sum_vectors lhs rhs e who x b N m r : add_expansion lhs rhs = Ok e -> mk_extended e who b = Ok x ->
  size (e_g lhs) = N -> (m < N)%N -> (r < N)%N ->
  [/\ (x_mode x <= 1)%N, x_gs x = e_g (other_of who lhs rhs) &
   nth (0%Re, 0%Re) (e_g e) (place (x_mode x) N m r) =
     let g := nth (0%Re, 0%Re) (e_g (operand_of who lhs rhs)) r in let h := nth (0%Re, 0%Re) (x_gs x) m in
     ((g.1 + h.1)%Re, (g.2 + h.2)%Re)].
Proof.
move=> /add_expansionE [hg hl hs _] + sN hm hr; rewrite /mk_extended hl; rewrite sN in hs.
have hv i j : (i < N)%N -> (j < N)%N -> nth (0%Re, 0%Re) (e_g e) (i * N + j) =
    add2 (nth (0%Re, 0%Re) (e_g rhs) j) (nth (0%Re, 0%Re) (e_g lhs) i).
  by move=> hi hj; rewrite hg {1}hs (nth_flatten_rows (fun g2 g1 => add2 g1 g2) (0%Re, 0%Re) (0%Re, 0%Re)) ?sN -?hs.
case: who => // -[<-] /=; split=> //; rewrite /place /= hv //.
by rewrite /add2; congr pair; rewrite Rplus_comm.
Qed.

Section Solve.
Variables (eig : forall m, 'M[C]_m -> 'rV[C]_m * 'M[C]_m) (J1 : R -> R).

Lemma mapM_get A B (f : A -> option B) e0 (l : seq A) r a0 b0 : mapM (fun s => get (f s) e0) l = Ok r ->
  size r = size l /\ forall i, (i < size l)%N -> f (nth a0 l i) = Some (nth b0 r i).
Proof.
move=> h; have [h1 h2] := mapM_nth a0 b0 h; split=> // i hi; move: (h2 i hi); rewrite /get.
by case: (f _) => // y [->].
Qed.
Definition no_solved N : solved N := Solved None None None None.

(** The matrix of an extended layer, entry by entry. *)
Lemma extended_entries n x kp wl (s : solved n) : extended_solve eig J1 n x kp wl = Ok s ->
  let b := x_base x in let N := e_size (l_exp b) in let base := Layer (l_exp b) (l_form b) (l_depth b) (x_fields x) in
  exists sols : seq (smat C_fieldType (N + N)),
  [/\ size sols = size (x_gs x), (0 < size (x_gs x) <= N)%N, n = (N * N)%N,
      forall m, (m < size (x_gs x))%N -> exists s', layer_solve eig J1 N base (shift_kp (nth (0%Re, 0%Re) (x_gs x) m) kp) wl = Ok s' /\
        sl_S s' = Some (nth (S0 C_fieldType N) sols m) &
      exists S, [/\ sl_S s = Some S, joins (x_mode x) (map (@s11 _ _) sols) (s11 S), joins (x_mode x) (map (@s12 _ _) sols) (s12 S),
                    joins (x_mode x) (map (@s21 _ _) sols) (s21 S) & joins (x_mode x) (map (@s22 _ _) sols) (s22 S)]].
Proof.
move=> h b N base; move: h; rewrite /extended_solve -/b -/N -/base.
case h1 : (mapM _ _) => [sols|//]; cbn [bind]; case h2 : (mapM _ _) => [Ss|//]; cbn [bind].
case h3 : (joint_subspace _ _ _) => [S|//]; cbn [bind] => h4.
have [k1 k2] := mapM_nth (0%Re, 0%Re) (no_solved N) h1; have [k3 k4] := mapM_get (no_solved N) (S0 C_fieldType N) h2.
have [k5 k6 k7] := joint_subspaceE h3.
exists Ss; split=> //; [by rewrite k3|by rewrite -k1 -k3| |].
  by move=> m hm; exists (nth (no_solved N) sols m); rewrite k2 // k4 ?k1.
exists S; have hS : sl_S s = Some S.
  move: h4; case: ifP => _; last by case=> <-.
  case: (mapM _ _) => [?|//]; cbn [bind]; case: (joint_subspace1 _ _ _) => [?|//]; cbn [bind].
  case: (joint_subspace1 _ _ _) => [?|//]; cbn [bind]; case: (extended_freespace _ _ _ _ _ _ _) => [?|//]; cbn [bind].
  by case: (joint_subspace1 _ _ _) => [?|//]; cbn [bind] => -[<-].
move: h3; rewrite /joint_subspace; case j1 : (joint_subspace1 _ _ _) => [b1|//]; cbn [bind].
case j2 : (joint_subspace1 _ _ _) => [b2|//]; cbn [bind]; case j3 : (joint_subspace1 _ _ _) => [b3|//]; cbn [bind].
case j4 : (joint_subspace1 _ _ _) => [b4|//]; cbn [bind] => -[eS]; rewrite hS -eS /=.
have [_ _ _ ?] := joint_subspace1E j1; have [_ _ _ ?] := joint_subspace1E j2.
by have [_ _ _ ?] := joint_subspace1E j3; have [_ _ _ ?] := joint_subspace1E j4; split.
Qed.
End Solve.

(** * An extended uniform layer is a uniform layer of the sum *)
Section ExtendedUniform.
Variables (eig : forall m, 'M[C]_m -> 'rV[C]_m * 'M[C]_m) (J1 : R -> R).

Lemma krowsE n e kp wl eps k : krows n e kp wl eps = Ok k -> size (e_g e) = e_size e ->
  [/\ wl <> 0%Re, e_size e = n, k.1.1 = \row_j ((kp.1 + RtoC (nth (0%Re, 0%Re) (e_g e) j).1) / RtoC (2 * PI / wl)%Re) &
      k.1.2 = \row_j ((kp.2 + RtoC (nth (0%Re, 0%Re) (e_g e) j).2) / RtoC (2 * PI / wl)%Re)].
Proof.
rewrite /krows; case: Req_EM_T => // h; case: ifP => // /negbFE /eqP en; case: ifP => // _ [<-] /= hs.
by split=> //; apply/rowP => j; rewrite !mxE hs en eqxx.
Qed.
Lemma krows_ok n e kp wl eps : wl <> 0%Re -> e_size e = n -> size (e_g e) = n -> exists k, krows n e kp wl eps = Ok k.
Proof. by move=> h1 h2 h3; rewrite /krows h2 h3 eqxx /=; case: (Req_EM_T wl 0%Re) => h; [case: h1|eexists]. Qed.

Lemma layer_uniformE n e eps d fl kp wl s : layer_solve eig J1 n (Layer e (UNIFORM eps) d fl) kp wl = Ok s ->
  exists k f w S, [/\ krows n e kp wl 1 = Ok k, free_space_eigenmodes k.1.1 k.1.2 = Ok f,
     solve_uniform_layer k.1.1 k.1.2 eps 1 = Ok w, build_scatmat w.1.1 w.1.2 f.1 f.2 w.2 d (2 * PI / wl)%Re = Ok S &
     eps != 0 /\ s = if fl then Solved (Some S) (Some w) (Some (inl eps^-1)) None else Solved (Some S) None None None].
Proof.
rewrite /layer_solve; cbn [l_exp l_form l_depth l_fields]; case hk : (krows _ _ _ _ _) => [k|//]; cbn [bind].
case hf : (free_space_eigenmodes _ _) => [f|//]; cbn [bind]; case hw : (solve_uniform_layer _ _ _ _) => [w|//]; cbn [bind].
case hS : (build_scatmat _ _ _ _ _ _ _) => [S|//]; cbn [bind]; rewrite /one_over; case: eqP => // /eqP he; cbn [bind] => -[<-].
by exists k, f, w, S; split=> //; split.
Qed.
Lemma layer_uniform_ok n e eps d fl kp wl k f w S : krows n e kp wl 1 = Ok k -> free_space_eigenmodes k.1.1 k.1.2 = Ok f ->
  solve_uniform_layer k.1.1 k.1.2 eps 1 = Ok w -> build_scatmat w.1.1 w.1.2 f.1 f.2 w.2 d (2 * PI / wl)%Re = Ok S -> eps != 0 ->
  layer_solve eig J1 n (Layer e (UNIFORM eps) d fl) kp wl =
    Ok (if fl then Solved (Some S) (Some w) (Some (inl eps^-1)) None else Solved (Some S) None None None).
Proof.
rewrite /layer_solve; cbn [l_exp l_form l_depth l_fields] => -> hf hw hS /negbTE he; cbn [bind]; rewrite hf; cbn [bind].
by rewrite hw; cbn [bind]; rewrite hS; cbn [bind]; rewrite /one_over he.
Qed.

Lemma propagator_twof n (l : 'I_n -> C) d k0 : propagator (twof l) d k0 = twof (fun j => cexp (- l j * RtoC d * RtoC k0)).
Proof. by rewrite /propagator /twof map_row_mx; congr row_mx; apply/rowP => j; rewrite !mxE. Qed.

Lemma diag_ofE m (v : 'rV[C]_m) : diag_of (diag_mx v) = v.
Proof. by apply/rowP => j; rewrite !mxE eqxx. Qed.

Lemma extended_uniform lhs rhs e who b eps x n kp wl s :
  add_expansion lhs rhs = Ok e -> size (e_g lhs) = e_size lhs -> size (e_g rhs) = e_size rhs ->
  l_exp b = operand_of who lhs rhs -> l_form b = UNIFORM eps -> mk_extended e who b = Ok x ->
  extended_solve eig J1 n x kp wl = Ok s ->
  exists s', [/\ layer_solve eig J1 n (Layer e (UNIFORM eps) (l_depth b) (l_fields b)) kp wl = Ok s',
    sl_S s = sl_S s', sl_modes s = sl_modes s',
    l_fields b -> exists2 k, krows n e kp wl 1 = Ok k & exists2 f, free_space_eigenmodes k.1.1 k.1.2 = Ok f & sl_free s = Some f &
    sl_IC s = Some (inl 1) /\ (l_fields b -> sl_IC s' = Some (inl eps^-1))].
Proof.
move=> he sl sr hb hf hx hs.
have [hge _ hsz hes] := add_expansionE he.
have lr : e_size lhs = e_size rhs by rewrite -sl -sr.
have lN : e_size lhs = e_size (l_exp b) by rewrite hb; case: (who).
have [xb xf] : x_base x = b /\ x_fields x = l_fields b.
  by move: hx; rewrite /mk_extended; case: (e_lhs_rhs e) => // -[? ?]; case: (who) => // -[<-].
have /= := extended_entries hs; rewrite xb; move: hs; rewrite /extended_solve xb xf hf.
have sb : size (e_g (l_exp b)) = e_size (l_exp b) by rewrite hb; case: (who).
rewrite lr in lN; rewrite lr in sl.
have vec m r (hm : (m < _)%N) (hr : (r < _)%N) := sum_vectors he hx sl hm hr.
rewrite lr lN in vec hes sl sr.
set N := e_size (l_exp b) in vec hes sl sr sb *; set kind := x_mode x in vec *.
move=> hs [_ [_ /andP [h1 h2] en _ _]]; have N0 := leq_trans h1 h2; subst n.
have [hk hgs _] := vec 0%N 0%N N0 N0.
have sgs : size (x_gs x) = N by rewrite hgs; case: (who); rewrite /= ?sr ?sl.
move: hs; case q1 : (mapM _ _) => [sols|//]; cbn [bind]; case q2 : (mapM _ _) => [Ss|//]; cbn [bind].
case q3 : (joint_subspace _ _ _) => [Si|//]; cbn [bind] => q4.
have [k1 k2] := mapM_nth (0%Re, 0%Re) (no_solved N) q1; have [k3 k4] := mapM_get (no_solved N) (S0 C_fieldType N) q2.
have k5 := joint_subspaceV q3.
pose gm m := shift_kp (nth (0%Re, 0%Re) (x_gs x) m) kp.
pose T := ('rV[C]_N * 'rV[C]_N * 'rV[C]_N * ('M[C]_(N + N) * 'M[C]_(N + N)) * ('M[C]_(N + N) * 'M[C]_(N + N) * 'rV[C]_(N + N)))%type.
have [|D hD] := @fin_choice T (0, 0, 0, (0, 0), (0, 0, 0)) N (fun m t => let k := t.1.1 in let f := t.1.2 in let w := t.2 in
   [/\ krows N (l_exp b) (gm m) wl 1 = Ok k, free_space_eigenmodes k.1.1 k.1.2 = Ok f, solve_uniform_layer k.1.1 k.1.2 eps 1 = Ok w,
       build_scatmat w.1.1 w.1.2 f.1 f.2 w.2 (l_depth b) (2 * PI / wl)%Re = Ok (nth (S0 C_fieldType N) Ss m) &
       eps != 0 /\ (l_fields b -> sl_modes (nth (no_solved N) sols m) = Some w)]).
  move=> m hm; rewrite -sgs in hm; have hm' := hm; rewrite -k1 in hm'; have := k4 _ hm'.
  have [k [f [w [S [h3 h4 h5 h6 [h7 ->]]]]]] := layer_uniformE (k2 _ hm) => h8.
  exists (k, f, w) => /=; split=> //; last by split=> // ->.
  by rewrite h6; congr Ok; move: h8; case: (l_fields b) => -[].
pose kx m := (D m).1.1.1.1; pose ky m := (D m).1.1.1.2.
have [wl0 _ _ _] : [/\ wl <> 0%Re, N = N, True & True] by have [/krowsE /(_ sb) [] ] := hD _ N0.
have sE : size (e_g e) = (N * N)%N by rewrite hge size_flatten_rows sl sr.
have [k' hk'] := krows_ok kp 1 wl0 hes sE; have [_ _ hkx hky] := krowsE hk' (etrans sE (esym hes)).
have cpl j : (cp N kind (j : 'I_(N * N)) < N)%N by rewrite -copy_l ltn_ord.
have ex : k'.1.1 = joinrow kind kx.
  apply/rowP => j; rewrite hkx !mxE; have [/krowsE /(_ sb) [_ _ h3 _] _ _ _ _] := hD _ (cpl j).
  rewrite /kx h3 mxE /gm /shift_kp /=; have [_ _] := vec _ _ (cpl j) (ltn_ord (ow kind j)).
  by rewrite placeK -hb => -> /=; congr (_ * _); rewrite RtoC_plus; cring.
have ey : k'.1.2 = joinrow kind ky.
  apply/rowP => j; rewrite hky !mxE; have [/krowsE /(_ sb) [_ _ _ h3] _ _ _ _] := hD _ (cpl j).
  rewrite /ky h3 mxE /gm /shift_kp /=; have [_ _] := vec _ _ (cpl j) (ltn_ord (ow kind j)).
  by rewrite placeK -hb => -> /=; congr (_ * _); rewrite RtoC_plus; cring.
have hfree := @join_free N kind kx ky (fun m => (D m).1.2) (fun m hm => let: And5 _ h _ _ _ := hD m hm in h).
have [l [hun hl1 hl2]] := @join_uniform N kind kx ky eps (fun m => (D m).2) N0 (fun m hm => let: And5 _ _ h _ _ := hD m hm in h).
have e0 : eps != 0 by have [_ _ _ _ []] := hD _ N0.
pose P m := nth (S0 C_fieldType N) Ss m.
have hprop : join kind (fun m => diag_mx (propagator (D m).2.2 (l_depth b) (2 * PI / wl)%Re)) =
    diag_mx (propagator (twof l) (l_depth b) (2 * PI / wl)%Re).
  move: hl2; rewrite !join_diag => /matrixP hl2; congr diag_mx; apply/rowP => i; rewrite !mxE.
  by have := hl2 i i; rewrite !mxE eqxx !mulr1n => ->.
have hbuild := @join_build _ N kind (fun m => (D m).2.1.1) (fun m => (D m).2.1.2) (fun m => (D m).1.2.1) (fun m => (D m).1.2.2)
  _ _ P hprop (fun m hm => let: And5 _ _ _ h _ := hD m hm in h).
have hlay := @layer_uniform_ok (N * N) e eps (l_depth b) (l_fields b) kp wl k' (join kind (fun m => (D m).1.2.1), join kind (fun m => (D m).1.2.2))
  (join kind (fun m => (D m).2.1.1), join kind (fun m => (D m).2.1.2), twof l) (joinS kind P) hk'.
rewrite ex ey in hlay; have {hlay} hlay := hlay hfree hun hbuild e0.
rewrite -k5 in hlay; eexists; split; first exact: hlay.
all: clear hlay hbuild; move: q4; case: ifP => hfb; last by case=> <-.
all: case m1 : (mapM _ _) => [ms|//]; cbn [bind]; case w1 : (joint_subspace1 _ _ _) => [W|//]; cbn [bind].
all: case w2 : (joint_subspace1 _ _ _) => [V|//]; cbn [bind]; case w3 : (extended_freespace _ _ _ _ _ _ _) => [f|//]; cbn [bind].
all: case w4 : (joint_subspace1 _ _ _) => [L|//]; cbn [bind] => -[<-] //=.
- have [k6 k7] := mapM_get (no_solved N) (0, 0, 0) m1.
  have hmode m : (m < N)%N -> nth (0, 0, 0) ms m = (D m).2.
    move=> hm; have [_ _ _ _ [_ /(_ hfb)]] := hD m hm; rewrite k7 ?k1 ?sgs //; by case.
  have sms : size ms = N by rewrite k6 k1 sgs.
  rewrite (joint_subspace1_join w1) (joint_subspace1_join w2) (joint_subspace1_join w4).
  rewrite -(diag_ofE (twof l)) -hl2; congr (Some (_, _, diag_of _)); apply: eq_join => m hm;
    by rewrite (nth_map (0, 0, 0)) ?sms // hmode.
- exists k' => //; rewrite ex ey; eexists; first exact: hfree.
  move: w3; rewrite /extended_freespace; case f1 : (mapM _ _) => [fs|//]; cbn [bind].
  case f2 : (joint_subspace1 _ _ _) => [W0|//]; cbn [bind]; case f3 : (joint_subspace1 _ _ _) => [V0|//]; cbn [bind] => -[<-].
  have [k6 k7] := mapM_nth (0%Re, 0%Re) (0, 0) f1.
  have hmode m : (m < N)%N -> nth (0, 0) fs m = (D m).1.2.
    move=> hm; have [h3 h4 _ _ _] := hD m hm; have := k7 m; rewrite sgs => /(_ hm); rewrite -/(gm m) h3; cbn [bind].
    by rewrite h4 => -[].
  have sfs : size fs = N by rewrite k6 sgs.
  rewrite (joint_subspace1_join f2) (joint_subspace1_join f3); congr (Some (_, _)); apply: eq_join => m hm;
    by rewrite (nth_map (0, 0)) ?sfs // hmode.
Qed.
End ExtendedUniform.
