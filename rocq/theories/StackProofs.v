(** Partial stacks around a layer. *)
From Coq Require Import Reals Lra Lia String.
From mathcomp Require Import all_ssreflect all_algebra.
From Coquelicot Require Import Complex Rbar.
From Verif Require Import Base ZmodTac CField CFun ModelRedheffer SpecScatter SpecStack RedhefferProofs ModelLayer
  ModelExpansion ModelFlux ModelFourier ModelExtension ModelDevice StringEq DeviceProofs ModelFields.
Set Implicit Arguments. Unset Strict Implicit. Unset Printing Implicit Defensive.
Import GRing.Theory.
Local Open Scope ring_scope.

Section Cascade.
Variables (F : fieldType) (n : nat).
Notation I0 := (scattering_identity F n).
Lemma cascade_cat l1 l2 (a1 a2 b1 b2 : 'cV[F]_n) : cascade (l1 ++ l2) a1 a2 b1 b2 <->
  exists p q, cascade l1 a1 q b1 p /\ cascade l2 p a2 q b2.
Proof.
elim: l1 a1 b1 => [|S1 l1 IH] a1 b1 /=.
  split; first by move=> h; exists a1, b1.
  by case=> p [q [[-> ->]]].
split.
  case=> p [q [h1 /IH [p' [q' [h2 h3]]]]]; exists p', q'; split=> //; by exists p, q.
by case=> p [q [[p' [q' [h1 h2]]] h3]]; exists p', q'; split=> //; apply/IH; exists p, q.
Qed.
Lemma responds0 : responds I0 [::].
Proof.
by move=> a1 a2 b1 b2; rewrite /scatters /= !mul0mx !mul1mx add0r addr0.
Qed.
Lemma responds1 (S : smat F n) : responds S [:: S].
Proof.
move=> a1 a2 b1 b2 /=; split; first by move=> h; exists b2, a2.
by case=> p [q [h [e1 e2]]]; subst.
Qed.
Lemma responds_cat (A B S : smat F n) l1 l2 : responds A l1 -> responds B l2 -> redheffer_product A B = Ok S ->
  responds S (l1 ++ l2).
Proof.
move=> hA hB h a1 a2 b1 b2; rewrite cascade_cat; split.
  by move=> /(joinedE a1 a2 b1 b2 h) [p [q [/hA h1 /hB h2]]]; exists p, q.
by case=> p [q [/hA h1 /hB h2]]; apply/(joinedE a1 a2 b1 b2 h); exists p, q.
Qed.
Lemma responds_inj (S S' : smat F n) l : responds S l -> responds S' l -> S = S'.
Proof. by move=> h h'; apply: scatters_inj => a1 a2 b1 b2; rewrite h h'. Qed.
End Cascade.

Section Stack.
Variable n : nat.
Notation S_t := (smat C_fieldType (n + n)).
Notation I0 := (scattering_identity C_fieldType (n + n)).
Implicit Types (l : seq S_t) (mask : seq bool).

Lemma chain_responds S0 l0 l S : responds S0 l0 -> chain S0 l = Ok S -> responds S (l0 ++ l).
Proof.
elim: l S0 l0 => [|S1 l IH] S0 l0 h /=; first by case=> <-; rewrite cats0.
case h1 : (redheffer_product S0 S1) => [S2|//] /= h2; rewrite -cat_rcons.
by apply: IH h2; rewrite -cats1; apply: responds_cat h1 => //; apply: responds1.
Qed.

Lemma stack_leftP S0 i l mask r : stack_left S0 i l mask = Ok r ->
  size r.1 = size l /\ (size l = 0 \/ i + size l <= size mask)%N /\
  forall j, (j < size l)%N -> exists Sj, chain S0 (take j.+1 l) = Ok Sj /\
    nth None r.1 j = (if nth false mask (i + j) then Some Sj else None).
Proof.
elim: l S0 i r => [|S1 l IH] S0 i r /=; first by case=> <- /=; split=> //; split=> //; left.
case h1 : (redheffer_product S0 S1) => [S2|//] /=.
rewrite /mask_at; case: ifP => // hi /=.
case h : (stack_left _ _ _ _) => [r'|//] /= [<-] /=; have [hs [hm hn]] := IH _ _ _ h.
split; first by rewrite hs.
split; first by right; case: hm => [->|]; rewrite ?addn1 // addSnnS.
case=> [|j] hj /=.
  by exists S2; rewrite addn0 take0 /=.
by have [Sj [h2 h3]] := hn j hj; exists Sj; rewrite h3 addSnnS.
Qed.

(** Products grown to the left. *)
Fixpoint rchain (S0 : S_t) l : res S_t :=
  match l with [::] => Ok S0 | S1 :: r => do S2 <- redheffer_product S1 S0; rchain S2 r end.
Lemma rchain_rcons S0 l S1 : rchain S0 (rcons l S1) = do S2 <- rchain S0 l; redheffer_product S1 S2.
Proof.
elim: l S0 => [|Sx l IH] S0 /=; first by case: (redheffer_product S1 S0).
by case: (redheffer_product Sx S0) => [S2|//] /=.
Qed.
Lemma rchain_responds S0 l0 l S : responds S0 l0 -> rchain S0 l = Ok S -> responds S (rev l ++ l0).
Proof.
elim: l S0 l0 => [|S1 l IH] S0 l0 h /=; first by case=> <-.
case h1 : (redheffer_product S1 S0) => [S2|//] /= h2; rewrite rev_cons cat_rcons.
by apply: IH h2; rewrite -cat1s; apply: responds_cat h1 => //; apply: responds1.
Qed.
Lemma stack_rightP S0 i l mask r : stack_right S0 i l mask = Ok r ->
  size r = (size l).+1 /\ (exists S, rchain S0 l = Ok S /\ nth None r (size l) = Some S) /\
  forall j, (j < size l)%N -> exists Sj, rchain S0 (take j l) = Ok Sj /\
    nth None r j = (if nth false mask (i + j) then Some Sj else None).
Proof.
elim: l S0 i r => [|S1 l IH] S0 i r /=; first by case=> <- /=; split=> //; split=> //; exists S0.
rewrite /mask_at; case: ifP => // hi /=.
case h1 : (redheffer_product S1 S0) => [S2|//] /=.
case h : (stack_right _ _ _ _) => [r'|//] /= [<-] /=; have [hs [hm hn]] := IH _ _ _ h.
split; first by rewrite hs.
split; first exact: hm.
case=> [|j] hj /=.
  by exists S0; rewrite addn0.
by have [Sj [h2 h3]] := hn j hj; exists Sj; rewrite h1 /= h2 h3 addSnnS.
Qed.

Lemma rev_take (T : Type) (s : seq T) j : (j <= size s)%N -> take j (rev s) = rev (drop (size s - j) s).
Proof. by move=> h; rewrite take_rev. Qed.

Lemma stack_layersP l mask Sls Srs Stot : stack_layers l mask = Ok (Sls, Srs, Stot) -> (0 < size l)%N ->
  [/\ chain I0 l = Ok Stot, size Sls = size l, size Srs = size l, (size l <= size mask)%N &
   forall i, (i < size l)%N -> exists Sl Sr,
     [/\ chain I0 (take i.+1 l) = Ok Sl, rchain I0 (rev (drop i.+1 l)) = Ok Sr,
         nth None Sls i = (if nth false mask i then Some Sl else None) &
         nth None Srs i = (if (i == 0)%N || nth false mask (i + (size mask - size l)) then Some Sr else None)]].
Proof.
move=> h hl; have hc := stack_chain h; move: h; rewrite /stack_layers.
case h1 : (stack_left _ _ _ _) => [r1|//] /=; case h2 : (stack_right _ _ _ _) => [r2|//] /= [<- <- er].
have [s1 [m1 n1]] := stack_leftP h1; have [s2 [[S2 [e2 m2]] n2]] := stack_rightP h2.
have hm : (size l <= size mask)%N by case: m1 => // e; rewrite e in hl.
rewrite size_rev size_behead in s2 m2 n2.
have hp : (size l).-1.+1 = size l by rewrite prednK.
split=> //; first by rewrite size_rev s2.
move=> i hi; have [Sl [l1 l2]] := n1 i hi; exists Sl.
have es : size (rev r2) = size l by rewrite size_rev s2.
case: i hi l1 l2 => [|i] hi l1 l2 /=.
  exists S2; split=> //.
    by rewrite -e2; congr rchain; case: (l) => //= x t; rewrite drop0.
  by rewrite nth_rev s2 ?hp // subn1 -hp /= m2.
have hj : (size l - i.+2 < (size l).-1)%N by rewrite -subn1 ltn_sub2l // (leq_trans _ hi).
have [Sr [r1' r2']] := n2 _ hj; exists Sr; split=> //.
- rewrite -r1'; congr rchain; rewrite take_rev size_behead; congr rev.
  have -> : ((size l).-1 - (size l - i.+2) = i.+1)%N.
    by rewrite -subn1 subnAC subKn // subn1.
  by case: (l) => //= x t; rewrite drop0.
- rewrite nth_rev ?s2 ?hp // r2' add0n; congr (if _ then _ else _).
  rewrite nth_rev size_behead; last first.
    by rewrite (leq_trans hj) // -subn1 -[X in (_ <= X)%N]subn1 leq_sub2r.
  rewrite nth_behead; congr nth.
  move: (size l) (size mask) hi hm => a b /ltP hi /leP hm; rewrite -!minusE -!plusE; lia.
Qed.

(** The two parts around a gap make the whole. *)
Lemma chain_split S0 l1 l2 Stot Sl Sr : chain S0 (l1 ++ l2) = Ok Stot -> chain S0 l1 = Ok Sl ->
  rchain I0 (rev l2) = Ok Sr -> redheffer_product Sl Sr = Ok Stot.
Proof.
rewrite chain_cat => h h1; rewrite h1 /= in h; elim: l2 Sl Sr h {h1} => [|S1 l2 IH] Sl Sr /=.
  by case=> <- [<-]; rewrite rh_idR.
case h2 : (redheffer_product Sl S1) => [S2|//] /= h3.
rewrite rev_cons rchain_rcons; case h4 : (rchain _ _) => [Sr2|//] /= h5.
have h6 := IH _ _ h3 h4.
by rewrite -(rh_assoc h2 h5) h6.
Qed.

Lemma stack_reassemble l mask Sls Srs Stot : stack_layers l mask = Ok (Sls, Srs, Stot) -> (0 < size l)%N ->
  [/\ responds Stot l, size Sls = size l, size Srs = size l, (size l <= size mask)%N &
   forall i, (i < size l)%N -> exists Sl Sr,
     [/\ responds Sl (take i.+1 l), responds Sr (drop i.+1 l), redheffer_product Sl Sr = Ok Stot,
         nth None Sls i = (if nth false mask i then Some Sl else None) &
         nth None Srs i = (if (i == 0)%N || nth false mask (i + (size mask - size l)) then Some Sr else None)]].
Proof.
move=> h hl; have [h1 h2 h3 h4 h5] := stack_layersP h hl; split=> //.
  exact: (@chain_responds _ [::] _ _ (@responds0 _ _) h1).
move=> i hi; have [Sl [Sr [c1 c2 c3 c4]]] := h5 i hi; exists Sl, Sr; split=> //.
- exact: (@chain_responds _ [::] _ _ (@responds0 _ _) c1).
- by have := @rchain_responds _ [::] _ _ (@responds0 _ _) c2; rewrite revK cats0.
- by apply: chain_split c1 c2; rewrite cat_take_drop.
Qed.
(** Only two things can go wrong. *)
Lemma stack_err l mask e : stack_layers l mask = Err e -> e = LinAlgError \/ (e = IndexError /\ (size mask < size l)%N).
Proof.
have hl : forall S0 i l1, (i + size l1 = size l)%N -> forall e, stack_left S0 i l1 mask = Err e ->
    e = LinAlgError \/ (e = IndexError /\ (size mask < size l)%N).
  move=> S0 i l1; elim: l1 S0 i => [|S1 l1 IH] S0 i //= hi e'.
  case h1 : (redheffer_product S0 S1) => [S2|e1] /=; last by case=> <-; left; exact: (rh_err h1).1.
  rewrite /mask_at; case: ifP => hm /=; last first.
    by case=> <-; right; split=> //; rewrite -hi -addSnnS ltnS (leq_trans (n := i)) ?leq_addr // leqNgt hm.
  by case h : (stack_left _ _ _ _) => [r|e2] //= [<-]; apply: IH h; rewrite addSnnS.
have hr : forall S0 i l1, (i + size l1 = (size l).-1)%N -> forall e, stack_right S0 i l1 (rev (behead mask)) = Err e ->
    e = LinAlgError \/ (e = IndexError /\ (size mask < size l)%N).
  move=> S0 i l1; elim: l1 S0 i => [|S1 l1 IH] S0 i //= hi e'.
  rewrite /mask_at; case: ifP => hm /=; last first.
    case=> <-; right; split=> //; move: hm hi; rewrite size_rev size_behead.
    move: (size l) (size mask) (size l1) => a b k /negbT /ltP hm; rewrite -!plusE => hi; apply/ltP; lia.
  case h1 : (redheffer_product S1 S0) => [S2|e1] /=; last by case=> <-; left; exact: (rh_err h1).1.
  by case h : (stack_right _ _ _ _) => [r|e2] //= [<-]; apply: IH h; rewrite addSnnS.
rewrite /stack_layers; case h : (stack_left _ _ _ _) => [r1|e1] /=; last by case=> <-; apply: hl h.
case h2 : (stack_right _ _ _ _) => [r2|e2] //= [<-]; apply: hr h2.
by rewrite size_rev size_behead.
Qed.
End Stack.

(** * Waves in the gaps *)
Section Gaps.
Variable m : nat.
Implicit Types (Sl Sr S : smat C_fieldType m).
Lemma amplitudesP Sl Sr c1p c1m c2p (cp cm : 'cV[C]_m) : translate_mode_amplitudes Sl Sr c1p c1m c2p = Ok (cp, cm) ->
  (forall p q, gap_waves Sl Sr c1p 0 p q <-> p = cp /\ q = cm).
Proof.
rewrite /translate_mode_amplitudes /solve; case: ifP => // u /= [<- <-] p q.
have uD : gapD Sl Sr \in unitmx by rewrite -gap_unit.
rewrite gap_wavesE (gap_solve c1p 0 p q uD) !mulmx0 !addr0 -/(gapF Sl Sr).
suff -> : invmx (gapD Sl Sr) *m (s11 Sr *m (s21 Sl *m c1p)) = s11 Sr *m (invmx (gapF Sl Sr) *m (s21 Sl *m c1p)) by [].
apply: (can_inj (mulKmx uD)); rewrite mulKVmx // /gapD mulmxBl mul1mx.
have uF : gapF Sl Sr \in unitmx by rewrite gap_unit.
set x := invmx _ *m _; have ex : s21 Sl *m c1p = gapF Sl Sr *m x by rewrite mulKVmx.
by rewrite ex /gapF; mxz.
Qed.
Lemma amplitudes_out Sl Sr S c1p c1m c2p (cp cm : 'cV[C]_m) : redheffer_product Sl Sr = Ok S ->
  translate_mode_amplitudes Sl Sr c1p c1m c2p = Ok (cp, cm) ->
  scatters Sl c1p cm (s11 S *m c1p) cp /\ scatters Sr cp 0 cm (s21 S *m c1p).
Proof.
move=> hS /amplitudesP h; have : scatters S c1p 0 (s11 S *m c1p) (s21 S *m c1p) by rewrite /scatters !mulmx0 !addr0.
move=> /(joinedE _ _ _ _ hS) [p [q [h1 h2]]].
have [e1 e2] : p = cp /\ q = cm by apply/h; split; [exists (s11 S *m c1p)|exists (s21 S *m c1p)].
by subst p q.
Qed.
Lemma amplitudes_def Sl Sr c1p c1m c2p : is_ok (translate_mode_amplitudes Sl Sr c1p c1m c2p) <-> is_ok (redheffer_product Sl Sr).
Proof.
rewrite /translate_mode_amplitudes /solve -/(gapF Sl Sr) gap_unit rhE; case: ifP => _ /=.
  by split=> _; eexists.
by split=> -[].
Qed.
(** From one gap to the next. *)
Lemma gap_step Sl S1 Sr Sl' Sr' c1p a b a' b' (cp cm cp' cm' : 'cV[C]_m) :
  redheffer_product Sl S1 = Ok Sl' -> redheffer_product S1 Sr' = Ok Sr ->
  translate_mode_amplitudes Sl Sr c1p a b = Ok (cp, cm) ->
  translate_mode_amplitudes Sl' Sr' c1p a' b' = Ok (cp', cm') ->
  scatters S1 cp cm' cm cp'.
Proof.
move=> hl hr /amplitudesP h /amplitudesP h'.
have [[b1 g1] [b2 g2]] : gap_waves Sl' Sr' c1p 0 cp' cm' by apply/h'.
have [p [q [k1 k2]]] := (joinedE _ _ _ _ hl).2 g1.
have k3 : scatters Sr p 0 q b2 by apply/(joinedE _ _ _ _ hr); exists cp', cm'.
have [e1 e2] : p = cp /\ q = cm by apply/h; split; [exists b1|exists b2].
by subst p q.
Qed.
End Gaps.
