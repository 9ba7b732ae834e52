(** Extended layers of any slab formulation: slabs of the summed lattice. *)
From Coq Require Import Reals Lra.
From mathcomp Require Import all_ssreflect all_algebra.
From Coquelicot Require Import Complex.
From Verif Require Import Base CField CFun Blk ModelRedheffer RedhefferProofs SpecScatter SpecEig ModelLayer SpecLayer UniformProofs
  ModelExpansion SpecExpansion ModelExtension ModelFourier ModelDevice SpecDevice SpecExtension ExtensionProofs JoinProofs ExtendedProofs
  SpecEnergy EnergyAlg SpecFlux FluxProofs ExpansionProofs SolvedProofs SpecReciprocity ReciprocityAlg ReciprocityProofs.
Set Implicit Arguments. Unset Strict Implicit. Unset Printing Implicit Defensive.
Import GRing.Theory.
Local Open Scope ring_scope.
Notation dg := diag_mx.

(** * Joining square matrices of orders *)
Section Jn.
Variables (N kind : nat).
Local Notation n := (N * N)%N.
Local Notation F := C_fieldType.
Implicit Types (A B : nat -> 'M[F]_N).
Definition jn A : 'M[F]_n := \matrix_(i, j) if cp N kind i == cp N kind j then A (cp N kind i) (ow kind i) (ow kind j) else 0.
Lemma join_block A B A' B' : join kind (fun m => block_mx (A m) (B m) (A' m) (B' m)) = block_mx (jn A) (jn B) (jn A') (jn B').
Proof.
have cE (i j : 'I_(n + n)) : (copy kind i == copy kind j) = (copy kind i == copy kind j :> nat) by [].
apply/matrixP => i j; rewrite mxE cE; case: (split_ordP i) => i' ->; case: (split_ordP j) => j' ->;
  rewrite ?copy_l ?copy_r ?own_l ?own_r ?block_mxEul ?block_mxEur ?block_mxEdl ?block_mxEdr mxE //.
Qed.
Lemma cp_lt (j : 'I_n) : (cp N kind j < N)%N. Proof. by rewrite -copy_l ltn_ord. Qed.
Lemma eq_jn A B : (forall m, (m < N)%N -> A m = B m) -> jn A = jn B.
Proof. by move=> h; apply/matrixP => i j; rewrite !mxE h ?cp_lt. Qed.
Lemma jnM A B : jn A *m jn B = jn (fun m => A m *m B m).
Proof.
have := joinM kind (fun m => block_mx (A m) 0 0 0) (fun m => block_mx (B m) 0 0 0).
rewrite (@eq_join _ _ _ (fun m => block_mx (A m) 0 0 0 *m block_mx (B m) 0 0 0) (fun m => block_mx (A m *m B m) 0 0 0)); last first.
  by move=> m _; rewrite mulmx_block !(mulmx0, mul0mx) !addr0.
rewrite !join_block mulmx_block => /eq_block_mx [<- _ _ _].
have z : jn (fun _ => 0) = 0 by apply/matrixP => i j; rewrite !mxE; case: ifP => // _; rewrite mxE.
by rewrite z mul0mx addr0.
Qed.
Lemma jnB A B : jn A - jn B = jn (fun m => A m - B m).
Proof. by apply/matrixP => i j; rewrite !mxE; case: ifP => _; rewrite ?mxE ?subr0. Qed.
Lemma jnN A : - jn A = jn (fun m => - A m).
Proof. by apply/matrixP => i j; rewrite !mxE; case: ifP => _; rewrite ?mxE ?oppr0. Qed.
Lemma jn_dg (r : nat -> 'rV[F]_N) : jn (fun m => dg (r m)) = dg (joinrow kind r).
Proof.
apply/matrixP => i j; rewrite !mxE (@pair_eq N kind); case: (cp N kind i == cp N kind j) => /=; rewrite ?mxE //.
Qed.
Lemma jn1 : jn (fun _ => 1%:M) = 1%:M.
Proof. by apply/matrixP => i j; rewrite !mxE (@pair_eq N kind); case: (cp N kind i == cp N kind j) => //=; rewrite mxE. Qed.
Lemma jn_inv A : (forall m, (m < N)%N -> A m \in unitmx) -> jn A \in unitmx /\ invmx (jn A) = jn (fun m => invmx (A m)).
Proof.
move=> h; have e : jn A *m jn (fun m => invmx (A m)) = 1%:M.
  by rewrite jnM -jn1; apply: eq_jn => m hm; rewrite mulmxV ?h.
have [u _] := mulmx1_unit e; split=> //.
by rewrite -[LHS]mulmx1 -e mulmxA mulVmx // mul1mx.
Qed.
Lemma join_P kx ky A : structured_P (joinrow kind kx) (joinrow kind ky) (jn A) =
  join kind (fun m => structured_P (kx m) (ky m) (A m)).
Proof.
by rewrite /structured_P join_block -!jn_dg -jn1 !jnM !jnB !jnN.
Qed.
Lemma join_Q kx ky A : structured_Q (joinrow kind kx) (joinrow kind ky) (jn A) =
  join kind (fun m => structured_Q (kx m) (ky m) (A m)).
Proof.
by rewrite /structured_Q join_block -!jn_dg !jnM !jnB !jnN.
Qed.
Definition jnrow (l : nat -> 'rV[F]_(N + N)) : 'rV[F]_(n + n) := \row_i l (copy kind i) 0 (own kind i).
Lemma join_modal (P Q W V : nat -> 'M[F]_(N + N)) (l : nat -> 'rV[F]_(N + N)) :
  (forall m, (m < N)%N -> modal_decomposition (P m) (Q m) (W m) (V m) (l m)) ->
  modal_decomposition (join kind P) (join kind Q) (join kind W) (join kind V) (jnrow l).
Proof.
move=> h; split.
- by apply/join_unit => m /h [].
- have -> : map_mx (fun x => x ^+ 2) (jnrow l) = \row_i (map_mx (fun x => x ^+ 2) (l (copy kind i))) 0 (own kind i).
    by apply/rowP => i; rewrite !mxE.
  rewrite -(join_diag kind (fun m => map_mx (fun x => x ^+ 2) (l m))) !joinM; apply: eq_join => m /h [] //.
- by rewrite -(join_diag kind l) !joinM; apply: eq_join => m /h [].
- by move=> j; rewrite mxE; have [_ _ _] := h _ (ltn_ord (copy kind j)).
Qed.
Lemma join_scatmat (W V W0 V0 : nat -> 'M[F]_(N + N)) (l : nat -> 'rV[F]_(N + N)) d k0 P :
  (forall m, (m < N)%N -> build_scatmat (W m) (V m) (W0 m) (V0 m) (l m) d k0 = Ok (P m)) ->
  build_scatmat (join kind W) (join kind V) (join kind W0) (join kind V0) (jnrow l) d k0 = Ok (joinS kind P).
Proof.
move=> h; apply: (@join_build _ N kind W V W0 V0 (fun m => propagator (l m) d k0) _ P) => //.
by rewrite join_diag; congr diag_mx; apply/rowP => i; rewrite !mxE.
Qed.
End Jn.

(** * The slab *)
(** An extended layer that belongs to the sum of [lhs] and [rhs]. *)
Definition ext_of (lhs rhs : expansion) (x : extended) : Prop :=
  exists who, [/\ who <> IsNeither, x_mode x = (if who is IsLhs then 1 else 0)%N, x_gs x = e_g (other_of who lhs rhs),
    l_exp (x_base x) = operand_of who lhs rhs & slab_form (l_form (x_base x))].

Section Slab.
Variables (eig : forall m, 'M[C]_m -> 'rV[C]_m * 'M[C]_m) (J1 : R -> R).
Hypothesis heig : eigen_equation eig.
Variables (lhs rhs e : expansion).
Hypotheses (he : add_expansion lhs rhs = Ok e) (sl : size (e_g lhs) = e_size lhs) (sr : size (e_g rhs) = e_size rhs).

(** The matrix of a slab formulation. *)
Definition form_matrix N (ex : expansion) (f : formulation) (Cm : 'M[C]_N) : Prop :=
  match f with
  | FFT p => convolution_matrix N p (e_pw ex) = Ok Cm
  | ANALYTICAL isl h => analytical_matrix J1 N ex isl h = Ok Cm
  | UNIFORM eps => Cm = eps%:M
  | _ => False
  end.
Lemma extended_slab x kp wl : ext_of lhs rhs x ->
  let b := x_base x in let N := e_size (l_exp b) in
  forall s, extended_solve eig J1 (N * N) x kp wl = Ok s ->
  exists kx ky kz f Cm W V lam Sm,
  [/\ krows (N * N) e kp wl 1 = Ok (kx, ky, kz) /\ free_space_eigenmodes kx ky = Ok f,
      sl_S s = Some Sm, build_scatmat W V f.1 f.2 lam (l_depth b) (2 * PI / wl)%Re = Ok Sm,
      jn (x_mode x) (fun _ => Cm) \in unitmx /\
        modal_decomposition (structured_P kx ky (invmx (jn (x_mode x) (fun _ => Cm))))
                            (structured_Q kx ky (jn (x_mode x) (fun _ => Cm))) W V lam &
      form_matrix (l_exp b) (l_form b) Cm].
Proof.
move=> [who [wn hm hgs hb hf]] b N s hs.
have [hge hel hsz hes] := add_expansionE he.
have lr : e_size lhs = e_size rhs by rewrite -sl -sr.
have lN : e_size lhs = N by rewrite /N /b hb; case: (who); rewrite //= lr.
have sb : size (e_g (l_exp b)) = e_size (l_exp b) by rewrite /b hb; case: (who).
have sgs : size (x_gs x) = N by rewrite hgs -lN; case: (who); rewrite /= ?sr ?sl ?lr.
have vec m r : (m < N)%N -> (r < N)%N -> nth (0%Re, 0%Re) (e_g e) (place (x_mode x) N m r) =
     let g := nth (0%Re, 0%Re) (e_g (l_exp b)) r in let h := nth (0%Re, 0%Re) (x_gs x) m in
     ((g.1 + h.1)%Re, (g.2 + h.2)%Re).
  move=> h1 h2; pose x0 := Extended e (x_mode x) (x_gs x) b (l_fields b).
  have hx : mk_extended e who b = Ok x0.
    by rewrite /mk_extended hel /x0 hm hgs; case: (who) wn.
  have sN : size (e_g lhs) = N by rewrite sl lN.
  by have [_ _ ->] := sum_vectors he hx sN h1 h2; rewrite /b hb.
have [sols [z1 /andP [z2 z3] _ z4 _]] := extended_entries hs.
have N0 : (0 < N)%N := leq_trans z2 z3.
move: hs; rewrite /extended_solve -/b -/N.
case q1 : (mapM _ _) => [ss|//]; cbn [bind]; case q2 : (mapM _ _) => [Ss|//]; cbn [bind].
case q3 : (joint_subspace _ _ _) => [Si|//]; cbn [bind] => q4.
have hS : sl_S s = Some Si.
  move: q4; case: ifP => _; last by case=> <-.
  case: (mapM _ _) => [?|//]; cbn [bind]; case: (joint_subspace1 _ _ _) => [?|//]; cbn [bind].
  case: (joint_subspace1 _ _ _) => [?|//]; cbn [bind]; case: (extended_freespace _ _ _ _ _ _ _) => [?|//]; cbn [bind].
  by case: (joint_subspace1 _ _ _) => [?|//]; cbn [bind] => -[<-].
have [k1 k2] := mapM_nth (0%Re, 0%Re) (no_solved N) q1; have [k3 k4] := mapM_get (no_solved N) (S0 C_fieldType N) q2.
have k5 := joint_subspaceV q3.
pose gm m := shift_kp (nth (0%Re, 0%Re) (x_gs x) m) kp.
set kind := x_mode x in vec *.
pose base := Layer (l_exp b) (l_form b) (l_depth b) (x_fields x).
pose T := ('rV[C]_N * 'rV[C]_N * 'rV[C]_N * ('M[C]_(N + N) * 'M[C]_(N + N)) * 'M[C]_N * ('M[C]_(N + N) * 'M[C]_(N + N) * 'rV[C]_(N + N)))%type.
have [|D hD] := @fin_choice T (0, 0, 0, (0, 0), 0, (0, 0, 0)) N (fun m t => let k := t.1.1.1 in let f := t.1.1.2 in
   let Cm := t.1.2 in let w := t.2 in
   [/\ krows N (l_exp b) (gm m) wl 1 = Ok k, free_space_eigenmodes k.1.1 k.1.2 = Ok f,
       build_scatmat w.1.1 w.1.2 f.1 f.2 w.2 (l_depth b) (2 * PI / wl)%Re = Ok (nth (S0 C_fieldType N) Ss m),
       Cm \in unitmx /\ modal_decomposition (structured_P k.1.1 k.1.2 (invmx Cm)) (structured_Q k.1.1 k.1.2 Cm) w.1.1 w.1.2 w.2 &
       form_matrix (l_exp b) (l_form b) Cm]).
  move=> m hm'; rewrite -sgs in hm'; have hm2 := hm'; rewrite -k1 in hm2.
  have [kx [ky [kz [f [Cm [W [V [lam [Sm [[a1 a2] a3 a4 a5 a6]]]]]]]]]] := slab_inv heig (l := base) hf (k2 _ hm').
  exists (kx, ky, kz, f, Cm, (W, V, lam)) => /=; split=> //.
  by rewrite a4; congr Ok; move: (k4 _ hm2); rewrite a3 => -[].
pose kx m := (D m).1.1.1.1.1; pose ky m := (D m).1.1.1.1.2.
have [wl0 _ _ _] : [/\ wl <> 0%Re, N = N, True & True] by have [/krowsE /(_ sb) [] ] := hD _ N0.
have sE : size (e_g e) = (N * N)%N by rewrite hge size_flatten_rows sl sr -lr lN.
have hes' : e_size e = (N * N)%N by rewrite hes lN.
have [k' hk'] := krows_ok kp 1 wl0 hes' sE; have [_ _ hkx hky] := krowsE hk' (etrans sE (esym hes')).
have ex : k'.1.1 = joinrow kind kx.
  apply/rowP => j; rewrite hkx !mxE; have [/krowsE /(_ sb) [_ _ h3 _] _ _ _ _] := hD _ (cp_lt kind j).
  rewrite /kx h3 mxE /gm /shift_kp /=; have := vec _ _ (cp_lt kind j) (ltn_ord (ow kind j)).
  by rewrite placeK => -> /=; congr (_ * _); rewrite RtoC_plus; cring.
have ey : k'.1.2 = joinrow kind ky.
  apply/rowP => j; rewrite hky !mxE; have [/krowsE /(_ sb) [_ _ _ h3] _ _ _ _] := hD _ (cp_lt kind j).
  rewrite /ky h3 mxE /gm /shift_kp /=; have := vec _ _ (cp_lt kind j) (ltn_ord (ow kind j)).
  by rewrite placeK => -> /=; congr (_ * _); rewrite RtoC_plus; cring.
have hfree := @join_free N kind kx ky (fun m => (D m).1.1.2) (fun m hm => let: And5 _ h _ _ _ := hD m hm in h).
pose Cm := (D 0%N).1.2.
have eC m : (m < N)%N -> (D m).1.2 = Cm.
  move=> hm'; have [_ _ _ _ c1] := hD m hm'; have [_ _ _ _ c2] := hD _ N0; move: c1 c2; rewrite -/Cm.
  case: (l_form b) => //= [p|eps|isl h] //; [by move=> -> [] |by move=> -> ->|by move=> -> []].
have [uJ iJ] : jn kind (fun _ => Cm) \in unitmx /\ invmx (jn kind (fun _ => Cm)) = jn kind (fun _ => invmx Cm).
  by apply: jn_inv => m _; have [_ _ _ []] := hD _ N0.
have hmodal := @join_modal N kind (fun m => structured_P (kx m) (ky m) (invmx Cm)) (fun m => structured_Q (kx m) (ky m) Cm)
  (fun m => (D m).2.1.1) (fun m => (D m).2.1.2) (fun m => (D m).2.2).
have hbuild := @join_scatmat N kind (fun m => (D m).2.1.1) (fun m => (D m).2.1.2) (fun m => (D m).1.1.2.1) (fun m => (D m).1.1.2.2)
  (fun m => (D m).2.2) (l_depth b) (2 * PI / wl)%Re (nth (S0 C_fieldType N) Ss) (fun m hm => let: And5 _ _ h _ _ := hD m hm in h).
exists k'.1.1, k'.1.2, k'.2; eexists; exists Cm; do 4 eexists.
split; last by have [] := hD _ N0.
- by split; [rewrite hk'; case: (k') => [[? ?] ?]|rewrite ex ey; exact: hfree].
- exact: hS.
- by rewrite k5; exact: hbuild.
- split=> //; rewrite ex ey iJ join_P join_Q; apply: hmodal => m hm'.
  by have [_ _ _ [_]] := hD m hm'; rewrite eC.
Qed.
End Slab.

(** * What the joined matrix inherits from that of the base *)
Section Inherit.
Variables (N kind : nat).
Local Notation n := (N * N)%N.
Implicit Types (A : 'M[C]_N).
Local Notation JJ A := (jn kind (fun _ => A)).
Lemma rev_pair (j : 'I_n) : cp N kind (rev_ord j) = (N - (cp N kind j).+1)%N /\ ow kind (rev_ord j) = rev_ord (ow kind j).
Proof.
have N0 : (0 < N)%N by case: N j => [|//] [].
have [h1 h2] := rev_divmod (ltn_ord j).
have hr : (n - j.+1 < n)%N := ltn_ord (rev_ord j).
rewrite /cp /copy_of /= !(modn_small (ltn_ord j)) !(modn_small hr); split; first by case: eqP.
by apply: val_inj; rewrite /= /own_of !(divn_small (ltn_ord j)) !(divn_small hr) !mul0n !add0n !(modn_small (ltn_ord j)) !(modn_small hr); case: eqP.
Qed.
Lemma jn_rev A : A^T *m Rv N = Rv N *m A -> (JJ A)^T *m Rv n = Rv n *m JJ A.
Proof.
move=> h; apply/matrixP => i j; rewrite RvR RvL mxE [LHS]mxE [RHS]mxE.
have [-> ->] := rev_pair i; have [-> ->] := rev_pair j.
have hi := cp_lt kind i; have hj := cp_lt kind j.
have -> : ((N - (cp N kind j).+1)%N == cp N kind i) = ((N - (cp N kind i).+1)%N == cp N kind j).
  apply/eqP/eqP => <-; rewrite subnSK //; rewrite subKn //; exact: ltnW.
case: eqP => // _; have := congr1 (fun M : 'M[C]_N => M (ow kind i) (ow kind j)) h.
by rewrite /= RvR RvL mxE.
Qed.
Lemma jn_lossless A : lossless_op A -> lossless_op (JJ A).
Proof.
rewrite /lossless_op => h; apply/matrixP => i j; rewrite !mxE eq_sym.
case: eqP => e; last exact: conjC0.
by rewrite -{2}h !mxE.
Qed.
Definition sel (m : nat) : 'M[C]_(N, n) := \matrix_(r, i) ((cp N kind i == m) && (ow kind i == r))%:R.
Lemma sel_sum A : JJ A = \sum_(m < N) (sel m)^T *m A *m sel m.
Proof.
apply/matrixP => i j; rewrite [LHS]mxE summxE.
have key (m : 'I_N) : ((sel m)^T *m A *m sel m) i j = (cp N kind i == m)%:R * (cp N kind j == m)%:R * A (ow kind i) (ow kind j).
  rewrite mxE (bigD1 (ow kind j)) //= big1 ?addr0 => [|c hc]; last first.
    by rewrite [sel m c j]mxE (eq_sym _ c) (negbTE hc) andbF mulr0.
  rewrite [sel m _ j]mxE eqxx andbT mxE (bigD1 (ow kind i)) //= big1 ?addr0 => [|c hc]; last first.
    by rewrite !mxE (eq_sym _ c) (negbTE hc) andbF mul0r.
  by rewrite !mxE eqxx andbT mulrAC.
rewrite (eq_bigr _ (fun m _ => key m)) (bigD1 (Ordinal (cp_lt kind i))) //= eqxx mul1r big1 ?addr0 => [|m hm].
  by rewrite eq_sym; case: eqP => _; rewrite ?mul1r ?mul0r.
by rewrite -val_eqE eq_sym /= in hm; rewrite (negbTE hm) !mul0r.
Qed.
Lemma jn_passive A : passive_op A -> passive_op (JJ A).
Proof.
move=> h x; have e m : adj x *m (sel m)^T = adj (sel m *m x).
  rewrite adjM; congr (_ *m _); apply/matrixP => i j; rewrite !mxE.
  by case: (_ && _); rewrite /= ?conjC0 // /Cconj /= /GRing.one /= /RtoC Ropp_0.
rewrite sel_sum mulmx_sumr mulmx_suml summxE.
apply: (@big_ind _ (fun y : C => (snd y <= 0)%Re)) => [|a b|m _].
- by right.
- by rewrite /=; lra.
- by rewrite !mulmxA e -!mulmxA mulmxA; exact: h.
Qed.
End Inherit.
