(** Proofs for C119. *)
From Coq Require Import Reals String Lra.
From mathcomp Require Import all_ssreflect all_algebra.
From Coquelicot Require Import Complex Rbar.
From Verif Require Import Base ZmodTac CField CFun ModelRedheffer SpecScatter RedhefferProofs ModelLayer SpecLayer Blk LayerProofs
  LayerCProofs UniformProofs ModelExpansion ModelFlux ModelFourier ModelDevice SpecDevice StringEq DeviceProofs HistoryProofs
  SpecProfile ProfileProofs ProfileDevice SpecReversed.
Set Implicit Arguments. Unset Strict Implicit. Unset Printing Implicit Defensive.
Import GRing.Theory.
Local Open Scope ring_scope.

(** * A pile crossed from the other side *)
Section Cross.
Variables (m : nat).
Notation modes := ('M[C]_m * 'M[C]_m * 'rV[C]_m)%type.
Notation field := ('cV[C]_m * 'cV[C]_m)%type.
Variables (k0 : R) (mode : formulation -> modes).
Definition seen_back (f : field) : field := (f.1, - f.2).
Lemma back_tangential (W V : 'M[C]_m) cp cm : seen_back (tangential W V cp cm) = tangential W V cm cp.
Proof. by rewrite /seen_back /tangential /= -mulmxN opprB addrC. Qed.
Lemma fwd_bwd lam d (v : 'cV[C]_m) : diag_mx (fwd lam d k0) *m (diag_mx (bwd lam d k0) *m v) = v.
Proof.
rewrite mulmxA mulmx_diag (_ : (\row_j _) = const_mx 1) ?diag_const_mx ?mul1mx //.
by apply/rowP => j; rewrite !mxE -cexpD addNr cexp0.
Qed.
Lemma bwd_fwd lam d (v : 'cV[C]_m) : diag_mx (bwd lam d k0) *m (diag_mx (fwd lam d k0) *m v) = v.
Proof.
rewrite mulmxA mulmx_diag (_ : (\row_j _) = const_mx 1) ?diag_const_mx ?mul1mx //.
by apply/rowP => j; rewrite !mxE -cexpD addrN cexp0.
Qed.
Lemma crosses_back w d f g : crosses k0 w d f g -> crosses k0 w d (seen_back g) (seen_back f).
Proof.
case=> cp [cm [-> ->]]; rewrite !back_tangential.
by do 2 eexists; split; first reflexivity; rewrite fwd_bwd bwd_fwd.
Qed.
Lemma through_rcons l s f g : through k0 mode (rcons l s) f g <-> exists h, through k0 mode l f h /\ crosses k0 (mode s.1) s.2 h g.
Proof.
elim: l f => [|x l ih] f /=.
  by split; [case=> h [h1 <-]; exists f | case=> h [<- h1]; exists g].
split; first by case=> h [h1 /ih [h' [h2 h3]]]; exists h'; split=> //; exists h.
by case=> h [[h' [h1 h2]] h3]; exists h'; split=> //; apply/ih; exists h.
Qed.
Lemma through_back l f g : through k0 mode l f g -> through k0 mode (rev l) (seen_back g) (seen_back f).
Proof.
elim: l f => [|s l ih] f /=; first by move=> ->.
case=> h [h1 /ih h2]; rewrite rev_cons; apply/through_rcons; exists (seen_back h); split=> //; exact: crosses_back.
Qed.
End Cross.

(** * Lists of matrices met in the opposite order *)
Section Chain.
Variable n : nat.
Notation S_t := (smat C_fieldType (n + n)).
Implicit Types (l : seq S_t).
Definition opposed l l' := forall cp a2 cm b2, scat_all l cp a2 cm b2 -> scat_all l' a2 cp b2 cm.
Lemma opposed_cat l1 l2 l1' l2' : opposed l1 l1' -> opposed l2 l2' -> opposed (l1 ++ l2) (l2' ++ l1').
Proof. by move=> h1 h2 cp a2 cm b2 /scat_cat [dp [dm [/h1 p1 /h2 p2]]]; apply/scat_cat; exists dm, dp. Qed.
Lemma scatters_flip (S : S_t) a1 a2 b1 b2 : scatters S a1 a2 b1 b2 -> scatters (flip S) a2 a1 b2 b1.
Proof. by case=> -> ->; split; rewrite /= addrC. Qed.
Lemma opposed1 (S : S_t) : opposed [:: S] [:: flip S].
Proof. by move=> cp a2 cm b2 [dp [dm [h [e1 e2]]]]; subst dp dm; exists cm, cp; split=> //; exact: scatters_flip. Qed.
Lemma flipK (S : S_t) : flip (flip S) = S. Proof. by case: S. Qed.
Lemma chain_opposed l l' S S' : opposed l l' -> chain (scattering_identity C_fieldType (n + n)) l = Ok S ->
  chain (scattering_identity C_fieldType (n + n)) l' = Ok S' -> S' = flip S.
Proof.
move=> h h1 h2; rewrite -[S']flipK; congr flip; apply/esym; apply: scatters_inj => a1 a2 b1 b2.
have idE p q r s : scatters (scattering_identity C_fieldType (n + n)) p q r s <-> r = q /\ s = p.
  by rewrite /scatters /= !mul0mx !mul1mx add0r addr0; split; case=> -> ->.
move/(chain_scat _ _ _ _ h1) => [cp [cm [/idE [e1 e2] /h h4]]]; subst cp cm; apply: scatters_flip.
by apply/(chain_scat _ _ _ _ h2); exists a2, b2; split=> //; apply/idE.
Qed.
End Chain.

Section Dev.
Variables (eig : forall m, 'M[C]_m -> 'rV[C]_m * 'M[C]_m) (J1 : R -> R) (n : nat).
Notation crystal := (crystal n).

Lemma proper_rev l : List.Forall proper_slab l -> List.Forall proper_slab (rev l).
Proof.
elim: l => [|s l ih] h; first exact: List.Forall_nil.
have [h1 h2] : proper_slab s /\ List.Forall proper_slab l by inversion h.
by rewrite rev_cons -cats1; apply/List.Forall_app; split; [exact: ih | apply: List.Forall_cons => //; exact: List.Forall_nil].
Qed.
Lemma made_opposed e kp wl ss ss' l l' : List.Forall proper_slab ss -> List.Forall proper_slab ss' ->
  List.Forall2 (made eig J1 e kp wl) ss l -> List.Forall2 (@made eig J1 n e kp wl) ss' l' -> same_profile (rev ss) ss' -> opposed l l'.
Proof.
move=> p1 p2 h h' hp.
have conv W0 V0 t u : gaps e kp wl W0 V0 -> List.Forall2 (@made eig J1 n e kp wl) t u ->
    List.Forall2 (builds (2 * PI / wl)%Re W0 V0 (mode_of eig J1 n e kp wl)) t u.
  move=> hg h0; elim: h0 => [|s S t' u' [W1 [V1 [hg' hb]]] _ IH]; first exact: List.Forall2_nil.
  by apply: List.Forall2_cons => //; have [e1 e2] := gaps_fun hg hg'; move: hb; rewrite e1 e2.
have main W0 V0 : @gaps n e kp wl W0 V0 -> opposed l l'.
  move=> hg; have [u1 u2] := gaps_unit hg; have c1 := conv _ _ _ _ hg h; have c2 := conv _ _ _ _ hg h'.
  move=> cp a2 cm b2 /(scat_through u1 u2 _ _ _ _ c1) /through_back; rewrite !back_tangential => hb.
  apply/(scat_through u1 u2 _ _ _ _ c2).
  have fineF t u : List.Forall proper_slab t -> List.Forall2 (builds (2 * PI / wl)%Re W0 V0 (mode_of eig J1 n e kp wl)) t u ->
      List.Forall (fine (mode_of eig J1 n e kp wl)) t.
    move=> hp0 h0; elim: h0 hp0 => [|s S t' u' hs _ IH] hp0; first exact: List.Forall_nil.
    have [[_ q1] q2] : proper_slab s /\ List.Forall proper_slab t' by inversion hp0.
    by apply: List.Forall_cons; [split=> //; apply: build_regular hs | apply: IH].
  have fr t : List.Forall (fine (mode_of eig J1 n e kp wl)) t -> List.Forall (fine (mode_of eig J1 n e kp wl)) (rev t).
    elim: t => [|s t ih] ht; first exact: List.Forall_nil.
    have [g1 g2] : fine (mode_of eig J1 n e kp wl) s /\ List.Forall (fine (mode_of eig J1 n e kp wl)) t by inversion ht.
    by rewrite rev_cons -cats1; apply/List.Forall_app; split; [exact: ih | apply: List.Forall_cons => //; exact: List.Forall_nil].
  by apply/(through_profile _ (fr _ (fineF _ _ p1 c1)) (fineF _ _ p2 c2) hp); exact: hb.
have triv : l = [::] -> l' = [::] -> opposed l l' by move=> -> -> cp a2 cm b2 /= [-> ->].
case: h main triv => [|s S t u [W0 [V0 [hg _]]] _] main triv; last exact: main hg.
by case: h' main triv => [|s S t u [W0 [V0 [hg _]]] _] main triv; [exact: triv | exact: main hg].
Qed.

(** The matrices of the outer media. *)
Lemma cores_flip m (W0 V0 W V : 'M[C]_m) S S' : reflection_core W0 V0 W V = Ok S -> transmission_core W0 V0 W V = Ok S' -> S' = flip S.
Proof.
rewrite /reflection_core /transmission_core; case: (solve W0 W) => [w|//]; cbn [bind]; case: (solve V0 V) => [v|//]; cbn [bind].
by case: (solve (w + v) _) => [ab|//]; cbn [bind]; case: (inv (w + v)) => [iA|//]; cbn [bind] => -[<-] [<-].
Qed.
Lemma media_flip e eps d b d' b' kp wl s s' S S' : layer_solve eig J1 n (Layer e (HALF_SPACE_INC eps) d b) kp wl = Ok s ->
  layer_solve eig J1 n (Layer e (HALF_SPACE_TRN eps) d' b') kp wl = Ok s' -> sl_S s = Some S -> sl_S s' = Some S' -> S' = flip S.
Proof.
rewrite /layer_solve; cbn [l_exp l_form l_depth l_fields]; case: (krows _ _ _ _ _) => [k|//]; cbn [bind].
case: (free_space_eigenmodes _ _) => [g|//]; cbn [bind]; rewrite /scattering_reflection /scattering_transmission.
case: ifP => // _; case: (divcols _ _) => [V|//]; cbn [bind].
case h1 : (reflection_core _ _ _ _) => [R1|//]; cbn [bind]; case h2 : (transmission_core _ _ _ _) => [T1|//]; cbn [bind fst snd].
case: (one_over eps) => [ic|//]; cbn [bind] => -[<-] [<-]; have e1 := cores_flip h1 h2.
by case: b; case: b' => /= -[<-] [<-].
Qed.

Theorem reversed_S (c1 c2 c1' c2' : crystal) l1 l2 sol1 sol2 : exchanged_outside c1 c2 -> piled c1 l1 -> piled c2 l2 -> same_profile (rev l1) l2 ->
  step eig J1 c1 Solve c1' -> step eig J1 c2 Solve c2' -> c_solution c1' = Some sol1 -> c_solution c2' = Some sol2 -> r_S sol2 = flip (r_S sol1).
Proof.
case=> hv he hsrc hkp hmed [st1 [m1 [d1 z1 p1 q1]]] [st2 [m2 [d2 z2 p2 q2]]] hp s1 s2.
inversion s1 as [| | | | | | | |o1 cc1 pe1 h1 e1]; inversion s2 as [| | | | | | | |o2 cc2 pe2 h2 e2]; subst cc1 cc2.
move/solve_parts: h1 => [src1 [dev1 [dd1 [es1 [pos1 [Ss1 [t1 [[a1 a2 a3 a4] a5 a6 a7 ->]]]]]]]].
move/solve_parts: h2 => [src2 [dev2 [dd2 [es2 [pos2 [Ss2 [t2 [[b1 b2 b3 b4] b5 b6 b7 ->]]]]]]]] /=.
case=> <- [<-] /=.
have ew : s_wl src2 = s_wl src1 by move: hsrc; rewrite a1 b1 /= => -[].
have ed1 : dev1 = (st1, global_stacking (c_void c1) st1, m1) by move: a2; rewrite d1 => -[].
have ed2 : dev2 = (st2, global_stacking (c_void c2) st2, m2) by move: b2; rewrite d2 => -[].
have o1E : o1 =i global_stacking (c_void c1) st1 by move=> k; rewrite (perm_mem (pe1 _ a2)) mem_undup ed1.
have o2E : o2 =i global_stacking (c_void c2) st2 by move=> k; rewrite (perm_mem (pe2 _ b2)) mem_undup ed2.
have k1 := solvedS_all a4 a6; have k2 := solvedS_all b4 b6; rewrite ed1 in k1; rewrite ed2 in k2.
cbn [fst snd] in k1, k2; apply: (chain_opposed _ (stack_chain a7) (stack_chain b7)).
rewrite ew in b3; rewrite -hv in o2E k2; move: hmed o1E o2E k1 k2; case: (c_void c1); rewrite /global_stacking => hmed o1E o2E k1 k2.
  have m1' := piled_made a3 (fun k hk => etrans (o1E k) hk) z1 p1 q1 k1.
  have m2' := piled_made b3 (fun k hk => etrans (o2E k) hk) z2 p2 q2 k2.
  by rewrite -he -hkp in m2'; exact: (made_opposed p1 p2 m1' m2' hp).
have [up [dn [[x1 [y1 [w1 r1]]] [x2 [y2 [w2 r2]]] [x3 [y3 [w3 r3]]] [x4 [y4 [w4 r4]]]]]] := hmed erefl.
rewrite -he in r3 r4.
case: Ss1 k1 {a6 a7} => [//|R1 T1] [f1 g1]; have [u1 [v1 [-> i1 j1]]] := rcons_map g1.
case: Ss2 k2 {b6 b7} => [//|R2 T2] [f2 g2]; have [u2 [v2 [-> i2 j2]]] := rcons_map g2.
have n1 : Sref \in o1 by rewrite o1E mem_head.
have n2 : Sref \in o2 by rewrite o2E mem_head.
have n3 : Strans \in o1 by rewrite o1E in_cons mem_rcons mem_head orbT.
have n4 : Strans \in o2 by rewrite o2E in_cons mem_rcons mem_head orbT.
have sub1 : {subset st1 <= o1} by move=> k hk; rewrite o1E in_cons mem_rcons in_cons hk !orbT.
have sub2 : {subset st2 <= o2} by move=> k hk; rewrite o2E in_cons mem_rcons in_cons hk !orbT.
have [A [A1 A2 _]] := found_S a3 n1 r1 f1; have [B [B1 B2 _]] := found_S a3 n3 r2 j1.
have [D [D1 D2 _]] := found_S b3 n2 r3 f2; have [E [E1 E2 _]] := found_S b3 n4 r4 j2.
rewrite -hkp in D1 E1.
have -> : v2 = flip R1 by exact: (media_flip A1 E1 A2 E2).
have -> : R2 = flip v1 by rewrite (media_flip D1 B1 D2 B2) flipK.
have m1' := piled_made a3 sub1 z1 p1 q1 i1; have m2' := piled_made b3 sub2 z2 p2 q2 i2.
rewrite -he -hkp in m2'; have hop := made_opposed p1 p2 m1' m2' hp.
rewrite -(cats1 u1) -(cats1 u2) -cat1s -(cat1s _ (u2 ++ _)) (catA [:: flip v1]).
apply: opposed_cat; first exact: opposed1.
by apply: opposed_cat => //; exact: opposed1.
Qed.
End Dev.

Lemma symmetric_S eig J1 n (c c' : crystal n) l sol : exchanged_outside c c -> piled c l -> same_profile (rev l) l ->
  step eig J1 c Solve c' -> c_solution c' = Some sol -> s22 (r_S sol) = s11 (r_S sol) /\ s12 (r_S sol) = s21 (r_S sol).
Proof. by move=> ho hl hp hs hc; have e := reversed_S ho hl hl hp hs hs hc hc; split; [rewrite {1}e | rewrite {1}e]. Qed.

Lemma flip_factor n (S : smat C_fieldType n) w : w != 0 -> cell_factor S w -> cell_factor (flip S) w^-1.
Proof.
move=> w0 [a [b [hn [h1 h2]]]]; exists (w *: b), (w *: a); split.
  case=> /eqP; rewrite scaler_eq0 (negbTE w0) /= => /eqP eb /eqP; rewrite scaler_eq0 (negbTE w0) /= => /eqP ea.
  by apply: hn.
by split; rewrite !scalerA mulVf // !scale1r /= addrC.
Qed.
Lemma flip_factor_iff n (S : smat C_fieldType n) w : w != 0 -> cell_factor S w <-> cell_factor (flip S) w^-1.
Proof. by move=> w0; split; [exact: flip_factor | move=> /(flip_factor (invr_neq0 w0)); rewrite invrK; case: S]. Qed.
Lemma reversed_factor eig J1 n (c1 c2 c1' c2' : crystal n) l1 l2 sol1 sol2 w : exchanged_outside c1 c2 -> piled c1 l1 -> piled c2 l2 -> same_profile (rev l1) l2 ->
  step eig J1 c1 Solve c1' -> step eig J1 c2 Solve c2' -> c_solution c1' = Some sol1 -> c_solution c2' = Some sol2 -> w != 0 ->
  cell_factor (r_S sol1) w <-> cell_factor (r_S sol2) w^-1.
Proof. by move=> ho h1 h2 hp s1 s2 e1 e2 w0; rewrite (reversed_S ho h1 h2 hp s1 s2 e1 e2); exact: flip_factor_iff. Qed.
