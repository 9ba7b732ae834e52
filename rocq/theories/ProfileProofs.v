(** Proofs for C116. *)
From Coq Require Import Reals String Lra.
From mathcomp Require Import all_ssreflect all_algebra.
From Coquelicot Require Import Complex Rbar.
From Verif Require Import Base ZmodTac CField CFun ModelRedheffer SpecScatter RedhefferProofs ModelLayer SpecLayer Blk LayerProofs
  LayerCProofs UniformProofs ModelExpansion ModelFlux ModelFourier ModelDevice SpecDevice StringEq DeviceProofs HistoryProofs SpecProfile.
Set Implicit Arguments. Unset Strict Implicit. Unset Printing Implicit Defensive.
Import GRing.Theory.
Local Open Scope ring_scope.

(** * Lists of slabs of the same profile *)
Section Found.
Variables (T : Type) (ok : T -> Prop).
Implicit Types (s : T * R) (l : seq (T * R)).
Definition laid s := ok s.1 /\ (0 <= s.2)%Re.
Lemma found_head s l : (0 < s.2)%Re -> found_at (s :: l) 0 = Some s.1.
Proof. by move=> h /=; destruct (Rlt_dec 0 s.2). Qed.
Lemma found_skip0 s l z : s.2 = 0%Re -> (0 <= z)%Re -> found_at (s :: l) z = found_at l z.
Proof.
by move=> h hz /=; rewrite h; destruct (Rlt_dec z 0) as [hh|hh]; [lra | rewrite Rminus_0_r].
Qed.
Lemma found_past s l z : (0 <= z)%Re -> found_at (s :: l) (z + s.2)%Re = found_at l z.
Proof.
move=> hz /=; destruct (Rlt_dec (z + s.2) s.2) as [hh|hh]; first lra.
by congr found_at; lra.
Qed.
Lemma found_cut a d1 d2 l z : (0 <= z)%Re -> (0 <= d1)%Re -> 
  found_at ((a, d2) :: l) (z + d1)%Re = found_at ((a, d2 - d1)%Re :: l) z.
Proof.
move=> hz h1 /=; destruct (Rlt_dec (z + d1) d2) as [hh|hh]; destruct (Rlt_dec z (d2 - d1)) as [hh'|hh'] => //; try lra.
by congr found_at; lra.
Qed.

Lemma profile_step (P : seq (T * R) -> seq (T * R) -> Prop) :
  P [::] [::] -> (forall l l', P l l' -> P l' l) ->
  (forall s l l', laid s -> s.2 = 0%Re -> P l l' -> P (s :: l) l') ->
  (forall a d l l', ok a -> P l l' -> P ((a, d) :: l) ((a, d) :: l')) ->
  (forall a d1 d2 l l', ok a -> P ((a, d1) :: (a, d2) :: l) l' -> P ((a, d1 + d2)%Re :: l) l') ->
  forall l l', List.Forall laid l -> List.Forall laid l' -> same_profile l l' -> P l l'.
Proof.
move=> p0 psym pz pc ps l l'; have [k] := ubnP (size l + size l').
elim: k l l' => // k IH l l' hk fl fl' hp.
case: l hk fl hp => [|[a d] l] hk fl hp.
  case: l' hk fl' hp => [//|[a' d'] l'] hk fl' hp.
  have [f1 f2] : laid (a', d') /\ List.Forall laid l' by inversion fl'.
  have [h0|h0] : d' = 0%Re \/ (0 < d')%Re by case: f1 => _ /=; lra.
    apply: (psym _ _); apply: pz => //; apply: (psym _ _); apply: IH => //.
    by move=> z hz; rewrite hp // found_skip0.
  by have := hp 0%Re (Rle_refl 0); rewrite (@found_head (a', d')).
have [f1 f2] : laid (a, d) /\ List.Forall laid l by inversion fl.
have [h0|h0] : d = 0%Re \/ (0 < d)%Re by case: f1 => _ /=; lra.
  apply: pz => //; apply: IH => //.
  by move=> z hz; rewrite -hp // found_skip0.
case: l' hk fl' hp => [|[a' d'] l'] hk fl' hp.
  by have := hp 0%Re (Rle_refl 0); rewrite (@found_head (a, d)).
have [f1' f2'] : laid (a', d') /\ List.Forall laid l' by inversion fl'.
have [h0'|h0'] : d' = 0%Re \/ (0 < d')%Re by case: f1' => _ /=; lra.
  apply: (psym _ _); apply: pz => //; apply: (psym _ _); apply: IH => //.
    by move: hk => /=; rewrite !addnS !ltnS.
  by move=> z hz; rewrite hp // found_skip0.
have ea : a' = a by have := hp 0%Re (Rle_refl 0); rewrite (@found_head (a, d)) // (@found_head (a', d')) // => -[].
subst a'; have [r1 _] := f1.
have [lt|[eq|gt]] := Rtotal_order d d'.
- apply: (psym _ _); have -> : d' = (d + (d' - d))%Re by lra.
  apply: ps => //; apply: pc => //; apply: (psym _ _); apply: IH => //.
  + by apply: List.Forall_cons => //; split=> //=; lra.
  by move=> z hz; rewrite -(@found_past (a, d) l z hz) hp; [apply: found_cut; cbn [snd]; lra | cbn [snd]; lra].
- subst d'; apply: pc => //; apply: IH => //.
    by move: hk => /=; rewrite addSn addnS !ltnS; apply: ltnW.
  by move=> z hz; rewrite -(@found_past (a, d) l z hz) hp; [exact: (@found_past (a, d)) | cbn [snd]; lra].
have -> : d = (d' + (d - d'))%Re by lra.
apply: ps => //; apply: pc => //; apply: IH => //.
+ by move: hk => /=; rewrite addnS ltnS.
+ by apply: List.Forall_cons => //; split=> //=; lra.
by move=> z hz; rewrite -(@found_past (a, d') l' z hz) -hp; [apply/esym/found_cut; cbn [snd]; lra | cbn [snd]; lra].
Qed.

End Found.

Section Cross.
Variables (m : nat).
Notation modes := ('M[C]_m * 'M[C]_m * 'rV[C]_m)%type.
Notation field := ('cV[C]_m * 'cV[C]_m)%type.
Variable k0 : R.

(** Tangential fields on the two faces of a slab. *)
Definition crosses (w : modes) (d : R) (f g : field) : Prop :=
  exists cp cm, f = tangential w.1.1 w.1.2 cp cm /\
    g = tangential w.1.1 w.1.2 (diag_mx (fwd w.2 d k0) *m cp) (diag_mx (bwd w.2 d k0) *m cm).
Definition regular (w : modes) := w.1.1 \in unitmx /\ w.1.2 \in unitmx.

Lemma tangential_inj (W V : 'M[C]_m) a b c d : W \in unitmx -> V \in unitmx ->
  tangential W V a b = tangential W V c d -> a = c /\ b = d.
Proof.
move=> uW uV [/(can_inj (mulKmx uW)) h1 /(can_inj (mulKmx uV)) h2].
have e1 : a *+ 2 = c *+ 2.
  have -> : a *+ 2 = (a + b) - (b - a) by zmod.
  by rewrite h1 h2; zmod.
have e2 : b *+ 2 = d *+ 2.
  have -> : b *+ 2 = (a + b) + (b - a) by zmod.
  by rewrite h1 h2; zmod.
by split; apply: (two_inj two_neq0).
Qed.
Lemma tangential_sur (W V : 'M[C]_m) (f : field) : W \in unitmx -> V \in unitmx -> exists cp cm, f = tangential W V cp cm.
Proof.
move=> uW uV; case: f => e h; pose s := invmx W *m e; pose t := invmx V *m h.
have h2p (u : 'cV[C]_m) : (2%:R^-1 *: u) *+ 2 = u by rewrite mulr2n (half_two two_neq0).
exists (2%:R^-1 *: (s - t)), (2%:R^-1 *: (s + t)); rewrite /tangential; congr pair.
  have {1}-> : e = W *m s by rewrite mulKVmx.
  congr (W *m _); apply: (two_inj two_neq0).
  by rewrite mulrnDl !h2p; zmod.
have {1}-> : h = V *m t by rewrite mulKVmx.
congr (V *m _); apply: (two_inj two_neq0).
by rewrite mulrnBl !h2p; zmod.
Qed.

Lemma bwdD lam d1 d2 : bwd lam (d1 + d2)%Re k0 = \row_j (bwd lam d1 k0 0 j * bwd lam d2 k0 0 j) :> 'rV[C]_m.
Proof.
apply/rowP => j; rewrite !mxE -cexpD; congr cexp.
by rewrite Rmult_plus_distr_r RtoC_plus; cring.
Qed.
Lemma dmul (x y : 'rV[C]_m) (v : 'cV[C]_m) : diag_mx (\row_j (x 0 j * y 0 j)) *m v = diag_mx y *m (diag_mx x *m v).
Proof.
rewrite mulmxA mulmx_diag; congr (diag_mx _ *m v); apply/rowP => j; by rewrite !mxE mulrC.
Qed.

Lemma crossesD w d1 d2 f g : regular w -> crosses w (d1 + d2)%Re f g <-> exists h, crosses w d1 f h /\ crosses w d2 h g.
Proof.
case=> uW uV; split.
  case=> cp [cm [-> ->]]; rewrite fwdD bwdD !dmul.
  by eexists; split; [exists cp, cm; split; reflexivity | do 2 eexists; split; reflexivity].
case=> h [[cp [cm [-> ->]]] [dp [dm [/(tangential_inj uW uV) [<- <-] ->]]]].
by exists cp, cm; split=> //; rewrite fwdD bwdD !dmul.
Qed.
Lemma crosses0 w f g : regular w -> crosses w 0%Re f g <-> f = g.
Proof.
case=> uW uV; rewrite /crosses fwd0 bwd0.
have e1 : diag_mx (const_mx 1 : 'rV[C]_m) = 1%:M by rewrite diag_const_mx.
rewrite e1; split; first by case=> cp [cm [-> ->]]; rewrite !mul1mx.
move=> <-; have [cp [cm ->]] := tangential_sur f uW uV.
by exists cp, cm; rewrite !mul1mx.
Qed.

(** Through a pile. *)
Variable mode : formulation -> modes.
Fixpoint through (l : seq slab) (f g : field) : Prop :=
  match l with [::] => f = g | s :: r => exists h, crosses (mode s.1) s.2 f h /\ through r h g end.

Definition fine (s : slab) := laid (fun a => regular (mode a)) s.

Lemma through0 s l f g : fine s -> s.2 = 0%Re -> through (s :: l) f g <-> through l f g.
Proof.
move=> [hr _] h0 /=; rewrite h0; split; first by case=> h [/(crosses0 _ _ hr) ->].
by move=> hl; exists f; split=> //; apply/crosses0.
Qed.
Lemma through_split a d1 d2 l f g : regular (mode a) ->
  through ((a, d1 + d2)%Re :: l) f g <-> through [:: (a, d1), (a, d2) & l] f g.
Proof.
move=> hr /=; split.
  by case=> h [/(crossesD _ _ _ _ hr) [q [h1 h2]] h3]; exists q; split=> //; exists h.
by case=> q [h1 [h [h2 h3]]]; exists h; split=> //; apply/crossesD => //; exists q.
Qed.

Lemma through_profile l l' : List.Forall fine l -> List.Forall fine l' -> same_profile l l' ->
  forall f g, through l f g <-> through l' f g.
Proof.
move=> fl fl' hp; apply: (profile_step (P := fun l l' => forall f g, through l f g <-> through l' f g)) fl fl' hp => //.
- by move=> a b h f g; rewrite h.
- by move=> s a b hs h0 h f g; rewrite through0.
- by move=> a d b b' hr h f g /=; split; case=> q [h1 /h h2]; exists q.
- by move=> a d1 d2 b b' hr h f g; rewrite through_split // h.
Qed.
End Cross.
