(** Proofs for C118. *)
From Coq Require Import Reals ZArith String Lra.
From mathcomp Require Import all_ssreflect all_algebra.
From Coquelicot Require Import Complex Rbar.
From Verif Require Import Base ZmodTac CField CFun Blk StringEq ModelRedheffer ModelExpansion ModelFourier SpecFourier ModelTmat SpecTmat TmatProofs
  ModelLattice SpecLattice LatticeProofs SpecExp ExpProofs TmatTheorems ModelEz SpecEz EzProofs SpecScale SpecBloch TmatEnergyProofs SpecLoss LossPiles DetProofs SpecProfile ProfileProofs
  SpecTprofile TprofileProofs SpecSupercell SpecUpside.
Set Implicit Arguments. Unset Strict Implicit. Unset Printing Implicit Defensive.
Import GRing.Theory.
Local Open Scope ring_scope.

Lemma mirroredK n : mirrored *m mirrored = 1%:M :> 'M[C]_(n + n).
Proof. by rewrite /mirrored mulmx_block !mulmx0 !mul0mx mulmx1 mulmxN mulmx1 opprK !addr0 add0r -scalar_mx_block. Qed.
Lemma upsideK n : upside *m upside = 1%:M :> 'M[C]_((n + n) + (n + n)).
Proof. by rewrite /upside mulmx_block !mulmx0 !mul0mx !mirroredK !addr0 !add0r -scalar_mx_block. Qed.
Lemma upside_col n (a b : 'cV[C]_(n + n)) : upside *m col_mx a b = col_mx (mirrored *m b) (mirrored *m a).
Proof. by rewrite /upside mul_block_col !mul0mx add0r addr0. Qed.

Lemma upside_bloch n (S : 'M[C]_((n + n) + (n + n))) w : w != 0 -> (exists v, bloch_wave S w v) -> exists v, bloch_wave (upside *m S *m upside) w^-1 v.
Proof.
move=> w0 [v [v0 h]]; exists (upside *m v); split.
  by apply: contra v0 => /eqP /(congr1 (mulmx upside)); rewrite mulmxA upsideK mul1mx mulmx0 => ->.
move: h; have ev : upside *m v = col_mx (mirrored *m dsubmx v) (mirrored *m usubmx v) by rewrite -upside_col vsubmxK.
rewrite /tscatters ev col_mxKu col_mxKd; set a := usubmx v; set b := dsubmx v => h.
have mm (x : 'cV[C]_(n + n)) : mirrored *m (mirrored *m x) = x by rewrite mulmxA mirroredK mul1mx.
have e : upside *m col_mx (mirrored *m b) (w^-1 *: (mirrored *m a)) = w^-1 *: col_mx a (w *: b).
  by rewrite upside_col -scalemxAr !mm scale_col_mx scalerA mulVf // scale1r.
by rewrite -!mulmxA e -scalemxAr -h -scalemxAr upside_col scale_col_mx -scalemxAr scalerA mulVf // scale1r.
Qed.
Lemma upside_twice n (S : 'M[C]_((n + n) + (n + n))) : upside *m (upside *m S *m upside) *m upside = S.
Proof. by rewrite !mulmxA upsideK mul1mx -mulmxA upsideK mulmx1. Qed.
Lemma upside_bloch_iff n (S S' : 'M[C]_((n + n) + (n + n))) w : w != 0 -> S' = upside *m S *m upside ->
  bloch_factor S w <-> bloch_factor S' w^-1.
Proof.
have conv (Z : 'M[C]_((n + n) + (n + n))) z : bloch_factor Z z <-> exists v, bloch_wave Z z v.
  by split; case=> v /blochE hv; exists v.
move=> w0 ->; rewrite !conv; split; first exact: upside_bloch.
by move=> h; have := upside_bloch (invr_neq0 w0) h; rewrite upside_twice invrK.
Qed.

(** Fields (Ex, Ey, Hx, Hy) seen in the mirror. *)
Definition seen {n} : 'M[C]_((n + n) + (n + n)) := block_mx 1%:M 0 0 (- 1%:M).
Lemma seenK n : seen *m seen = 1%:M :> 'M[C]_((n + n) + (n + n)).
Proof. by rewrite /seen mulmx_block !mulmx0 !mul0mx mulmx1 mulmxN mulmx1 opprK !addr0 add0r -scalar_mx_block. Qed.
Lemma seen_anti n (X Y : 'M[C]_(n + n)) : seen *m block_mx 0 X Y 0 *m seen = - block_mx 0 X Y 0.
Proof.
by rewrite /seen !mulmx_block !mulmx0 !mul0mx !mul1mx !mulNmx !mulmxN !mulmx1 !mul1mx !opp_block_mx !(oppr0, addr0, add0r).
Qed.
Lemma matrix_a_anti n ind w e v wl kp A : matrix_a n ind w e v wl kp = Ok A -> seen *m A *m seen = - A.
Proof.
rewrite /matrix_a; destruct (Req_EM_T wl 0) as [h|h] => //; case: ifP => // _.
case: (order_lookups _ _ _ _ e) => [e'|//]; cbn [bind]; case: (order_lookups _ _ _ _ v) => [v'|//]; cbn [bind] => -[<-].
by rewrite /quad !block_mx0; exact: seen_anti.
Qed.
Lemma matrix_v_mirror n eta mu eps V : @matrix_v n eta mu eps = Ok V -> seen *m V = V *m upside.
Proof.
rewrite /matrix_v; case: (np_sqrt eps) => [s|//]; cbn [bind] => -[<-].
have -> : seen = quad (fun a b => if (a == b) then (if (a < 2)%N then 1%:M else - 1%:M) else 0) :> 'M[C]_((n + n) + (n + n)).
  by rewrite /seen /quad /= !block_mx0 !(scalar_mx_block n n) opp_block_mx oppr0.
have -> : upside = quad (fun a b => match a, b with 0%N, 2%N | 2%N, 0%N => 1%:M | 1%N, 3%N | 3%N, 1%N => - 1%:M | _, _ => 0 end) :> 'M[C]_((n + n) + (n + n)).
  by rewrite /upside /mirrored /quad /= !block_mx0.
rewrite !quadM; apply: eq_quad.
apply: below4; apply: below4; rewrite /= !(mulmx0, mul0mx, mulmxN, mulNmx, mul1mx, mulmx1, add0r, addr0, oppr0, opprK) ?dgfN //;
  apply/matrixP => i j; rewrite !mxE; congr (_ *+ _); by rewrite ?mulNr ?opprK.
Qed.

Section Pile.
Variables (J1 : R -> R) (n : nat) (expm : 'M[C]_((n + n) + (n + n)) -> 'M[C]_((n + n) + (n + n))).
Variables (p : nat * nat) (L : lattice) (wl : R) (kp : vec2).
Hypothesis hx : is_expm expm.
Notation M := 'M[C]_((n + n) + (n + n)).
Variables (U Vi : M).
Hypotheses (hU : lattice_U n L wl kp = Ok U) (hV : lattice_Vi n L wl kp = Ok Vi).
Notation T_of := (T_of J1 expm p L wl kp U Vi).
Notation T_all := (T_all J1 expm p L wl kp U Vi).

Lemma matA_anti c : seen *m matA J1 n p L wl kp c *m seen = - matA J1 n p L wl kp c.
Proof.
rewrite /matA; case h : (matA_res _ _ _ _ _ _ _) => [A|]; last by rewrite mulmx0 mul0mx oppr0.
move: h; rewrite /matA_res; case: (grid_size p) => [nq|//]; cbn [bind]; case: (mapM _ _) => [data|//]; cbn [bind].
case: (epsilon_g _ _ _ false) => [e1|//]; cbn [bind]; case: (epsilon_g _ _ _ true) => [e2|//]; cbn [bind].
case: (mapM _ _) => [ind|//]; cbn [bind]; exact: matrix_a_anti.
Qed.
Lemma T_back a d : upside *m T_of (a, d) *m upside *m T_of (a, d) = 1%:M.
Proof.
have hv : seen *m Vi = Vi *m upside by case/lattice_VE: hV => _ _ _; exact: matrix_v_mirror.
have UV := lattice_UV hU hV; have VU := mulmx1C UV.
have hu : upside *m U = U *m seen.
  have : U *m (seen *m Vi) *m U = U *m (Vi *m upside) *m U by rewrite hv.
  by rewrite -!mulmxA VU mulmx1 !mulmxA UV mul1mx => ->.
have -> : upside *m T_of (a, d) *m upside = T_of (a, (- d)%Re).
  rewrite /TprofileProofs.T_of; cbn [fst snd].
  rewrite !mulmxA hu -!mulmxA -hv !mulmxA; congr (_ *m _); rewrite -!mulmxA; congr (_ *m _); rewrite !mulmxA.
  rewrite -((expm_exponential hx).1 _ _ _ (seenK n)); congr expm.
  rewrite -scalemxAr -scalemxAl mulmxN mulNmx matA_anti opprK.
  have -> : RtoC (- d)%Re = - RtoC d by rewrite RtoC_opp.
  by rewrite scaleNr scalerN opprK.
rewrite -(T_split J1 p hx hU hV).
have -> : (- d + d = 0)%Re by ring.
exact: (T_zero J1 p hx hU hV).
Qed.
Lemma T_rcons l s : T_all (rcons l s) = T_all l *m T_of s.
Proof. by elim: l => [|x l ih] /=; [rewrite mul1mx mulmx1 | rewrite ih mulmxA]. Qed.
Lemma T_rev l : upside *m T_all (rev l) *m upside *m T_all l = 1%:M.
Proof.
elim: l => [|[a d] l ih] /=; first by rewrite /rev /= mulmx1 mulmx1 upsideK.
rewrite rev_cons T_rcons.
have -> : upside *m (T_all (rev l) *m T_of (a, d)) *m upside = upside *m T_all (rev l) *m upside *m (upside *m T_of (a, d) *m upside).
  by rewrite -!mulmxA (mulmxA upside upside) upsideK mul1mx.
by rewrite -mulmxA (mulmxA (upside *m T_of (a, d) *m upside)) T_back mul1mx.
Qed.
Lemma T_turn l lp lm rp rm : transfers (T_all l) lp lm rp rm ->
  transfers (T_all (rev l)) (mirrored *m rm) (mirrored *m rp) (mirrored *m lm) (mirrored *m lp).
Proof.
rewrite /transfers -!upside_col => ->.
have e : T_all (rev l) *m upside *m T_all l = upside by have := congr1 (mulmx upside) (T_rev l); rewrite !mulmxA upsideK mul1mx mulmx1.
by rewrite !mulmxA e.
Qed.
End Pile.

Lemma no_negative_rev l : no_negative_depth l -> no_negative_depth (rev l).
Proof.
rewrite /no_negative_depth; elim: l => [|s l ih] h; first exact: List.Forall_nil.
have [h1 h2] : (0 <= s.2)%Re /\ List.Forall (fun s => 0 <= s.2)%Re l by inversion h.
rewrite rev_cons -cats1; apply/List.Forall_app; split; [exact: ih | by constructor].
Qed.

Section Same.
Variables (J1 : R -> R) (n : nat) (expm : 'M[C]_((n + n) + (n + n)) -> 'M[C]_((n + n) + (n + n))).
Variables (p : nat * nat) (L : lattice) (wl : R) (kp : vec2).
Hypothesis hx : is_expm expm.
Variables (q q' : string -> option recipe) (st st' : stackings) (name name' : string) (l l' : seq (contents * R)).
Hypotheses (hs : sound_project q st) (hs' : sound_project q' st').
Hypotheses (hm : made_of q st name l) (hm' : made_of q' st' name' l').
Hypotheses (hd : no_negative_depth l) (hd' : no_negative_depth l') (hp : same_profile (rev l) l').

Lemma pile_upside d d' S S' : pile_at J1 expm p L wl kp q st d name S -> pile_at J1 expm p L wl kp q' st' d' name' S' -> S' = upside *m S *m upside.
Proof.
move=> /(pile_names hs hm) [r [ns [c1 e1 t1]]] /(pile_names hs' hm') [r' [ns' [c2 e2 t2]]].
suff main : forall lp lm rp rm, tscatters S lp lm rp rm -> tscatters S' (mirrored *m rm) (mirrored *m rp) (mirrored *m lm) (mirrored *m lp).
  have -> : S = upside *m S' *m upside.
    apply: tscatters_inj => lp lm rp rm /main; rewrite /tscatters -!upside_col => h.
    by rewrite -!mulmxA -h mulmxA upsideK mul1mx.
  by rewrite !mulmxA upsideK mul1mx -mulmxA upsideK mulmx1.
have hr : no_negative_depth (rev l) by apply: no_negative_rev.
move=> lp lm rp rm /t1 h; apply/t2; move: h.
have used U Vi : lattice_U n L wl kp = Ok U -> lattice_Vi n L wl kp = Ok Vi ->
    SpecEz.chain (pmap r ns) lp lm rp rm -> SpecEz.chain (pmap r' ns') (mirrored *m rm) (mirrored *m rp) (mirrored *m lm) (mirrored *m lp).
  move=> hU hV /(chain_T hx hU hV _ _ _ _ c1 e1) /(T_turn hx hU hV) h.
  by apply/(chain_T hx hU hV _ _ _ _ c2 e2); rewrite -(T_profile J1 p hx hU hV hr hd' hp); exact: h.
have found (q0 : string -> option recipe) r0 ns0 k : computed_at J1 expm p L wl kp q0 r0 -> map (fun x => omap slab_of (q0 x)) ns0 = map Some k -> k <> [::] ->
    SpecEz.chain (pmap r ns) lp lm rp rm -> SpecEz.chain (pmap r' ns') (mirrored *m rm) (mirrored *m rp) (mirrored *m lm) (mirrored *m lp).
  case: ns0 k => [|x ns0] [|s k] // hq [hsx _] _; have := hq x; case: (q0 x) hsx => [[[[isl host] dd] pow]|//] _ [A _].
  by move=> /islands_parts [U [Vi [hU hV _ _]]]; exact: used hU hV.
case: (l) e1 => [|s k] e1; last exact: (found _ _ _ _ c1 e1).
case: (l') e2 => [|s' k'] e2; last exact: (found _ _ _ _ c2 e2).
have z1 : ns = [::] by case: (ns) e1.
have z2 : ns' = [::] by case: (ns') e2.
by rewrite z1 z2 /= => -[-> ->].
Qed.
End Same.

Section Corollaries.
Variables (J1 : R -> R) (n : nat) (expm : 'M[C]_((n + n) + (n + n)) -> 'M[C]_((n + n) + (n + n))).
Variables (p : nat * nat) (L : lattice) (wl : R) (kp : vec2).
Variables (q : string -> option recipe) (st : stackings) (name : string) (l : seq (contents * R)).

Lemma pile_symmetric d S : is_expm expm -> sound_project q st -> made_of q st name l -> no_negative_depth l -> same_profile (rev l) l ->
  pile_at J1 expm p L wl kp q st d name S -> S = upside *m S *m upside /\ forall w, w != 0 -> bloch_factor S w <-> bloch_factor S w^-1.
Proof.
move=> hx hs hm hd hp hS; have e := pile_upside hx hs hs hm hm hd hd hp hS hS; split=> // w w0.
exact: upside_bloch_iff.
Qed.
End Corollaries.
