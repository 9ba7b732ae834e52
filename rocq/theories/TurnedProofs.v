(** Proofs for C120: reciprocity between a device and the same device turned upside down. *)
From Coq Require Import Reals ZArith String Lra.
From mathcomp Require Import all_ssreflect all_algebra.
From Coquelicot Require Import Complex Rbar.
From Verif Require Import Base CField CFun ModelRedheffer SpecScatter ModelLayer SpecLayer ModelExpansion SpecExpansion
  ModelFlux ModelFourier ModelDevice SpecDevice StringEq ModelFields SpecFields SpecReciprocity SpecTwisted ReciprocityTheorems TwistedTheorems
  HistoryProofs FilmDevice DeviceExamples SpecProfile SpecReversed ReversedProofs.
Set Implicit Arguments. Unset Strict Implicit. Unset Printing Implicit Defensive.
Import GRing.Theory.
Local Open Scope ring_scope.

Lemma turned_transmission eig J1 n ei ee (c0 c ca ca' cb cb' c2 c2' : crystal n) ops wl te tm te' tm'
    (th ph th' ph' : R) kp kp' sa sb s2 mL mL' mR mR' l l2 : eigen_equation eig ->
  created c0 false ei ee -> all_calls (slab_call (fun f _ => is_slab f) (c_exp c0)) ops -> history eig J1 c0 ops c ->
  step eig J1 c (SetSource wl te tm th ph kp) ca -> step eig J1 ca Solve ca' ->
  step eig J1 c (SetSource wl te' tm' th' ph' kp') cb -> step eig J1 cb Solve cb' ->
  (c_kp cb).1 = - (c_kp ca).1 -> (c_kp cb).2 = - (c_kp ca).2 ->
  c_solution ca' = Some sa -> c_solution cb' = Some sb ->
  named_modes ca' Sref = Ok mL -> named_modes cb' Sref = Ok mL' ->
  named_modes ca' Strans = Ok mR -> named_modes cb' Strans = Ok mR' ->
  exchanged_outside cb c2 -> piled cb l -> piled c2 l2 -> same_profile (rev l) l2 ->
  step eig J1 c2 Solve c2' -> c_solution c2' = Some s2 ->
  forall a a' : 'cV[C]_(n + n), exchange mL.1 mL'.1 a (s21 (r_S s2) *m a') = exchange mR.1 mR'.1 (s21 (r_S sa) *m a) a'.
Proof.
move=> he h0 hc hh sa1 sa2 sb1 sb2 k1 k2 ea eb m1 m2 m3 m4 ho p1 p2 hp t2 e2 a a'.
have [_ _ /(_ a a') [h _ _]] := th_twisted_reciprocal he h0 hc hh sa1 sa2 sb1 sb2 k1 k2 ea eb m1 m2 m3 m4.
by rewrite (reversed_S ho p1 p2 hp sb2 t2 eb e2).
Qed.

Lemma symmetric_transmission eig J1 n ei ee (c0 c ca ca' cb cb' : crystal n) ops wl te tm te' tm'
    (th ph th' ph' : R) kp kp' sa sb mL mL' mR mR' l : eigen_equation eig ->
  created c0 false ei ee -> all_calls (slab_call (fun f _ => is_slab f) (c_exp c0)) ops -> history eig J1 c0 ops c ->
  step eig J1 c (SetSource wl te tm th ph kp) ca -> step eig J1 ca Solve ca' ->
  step eig J1 c (SetSource wl te' tm' th' ph' kp') cb -> step eig J1 cb Solve cb' ->
  (c_kp cb).1 = - (c_kp ca).1 -> (c_kp cb).2 = - (c_kp ca).2 ->
  c_solution ca' = Some sa -> c_solution cb' = Some sb ->
  named_modes ca' Sref = Ok mL -> named_modes cb' Sref = Ok mL' ->
  named_modes ca' Strans = Ok mR -> named_modes cb' Strans = Ok mR' ->
  exchanged_outside cb cb -> piled cb l -> same_profile (rev l) l ->
  forall a a' : 'cV[C]_(n + n), exchange mL.1 mL'.1 a (s21 (r_S sb) *m a') = exchange mR.1 mR'.1 (s21 (r_S sa) *m a) a'.
Proof.
move=> he h0 hc hh sa1 sa2 sb1 sb2 k1 k2 ea eb m1 m2 m3 m4 ho p1 hp.
exact: (turned_transmission he h0 hc hh sa1 sa2 sb1 sb2 k1 k2 ea eb m1 m2 m3 m4 ho p1 p1 hp sb2 eb).
Qed.

(** The example of C68, and the same film with the glasses exchanged. *)
Section Film.
Variables (eig : forall m, 'M[C]_m -> 'rV[C]_m * 'M[C]_m) (J1 : R -> R).
Variables (n1 n3 d wl : R) (w te tm : C).
Hypotheses (h1 : (0 < n1)%Re) (h3 : (0 < n3)%Re) (hw : (0 < fst w)%Re) (hw' : (snd w <= 0)%Re)
  (hd : (0 <= d)%Re) (hl : (0 < wl)%Re).
Lemma film_turned : exists (c0 c ca ca' c2 c2' : crystal 1) ops sa s2 mL mR l l2,
  [/\ created c0 false (RtoC (n1 * n1)%Re) (RtoC (n3 * n3)%Re), all_calls (slab_call (fun f _ => is_slab f) (c_exp c0)) ops & history eig J1 c0 ops c] /\
  [/\ step eig J1 c (SetSource wl te tm 0%Re 0%Re None) ca, step eig J1 ca Solve ca',
      (c_kp ca).1 = - (c_kp ca).1 /\ (c_kp ca).2 = - (c_kp ca).2, c_solution ca' = Some sa &
      named_modes ca' Sref = Ok mL /\ named_modes ca' Strans = Ok mR] /\
  [/\ exchanged_outside ca c2, piled ca l /\ piled c2 l2, same_profile (rev l) l2, step eig J1 c2 Solve c2' & c_solution c2' = Some s2].
Proof.
have [e [he _ hpw hg]] := multilayer_exp (RtoC (n1 * n1)%Re) (RtoC (n3 * n3)%Re).
have [sol [hs hS]] := @film_solve eig J1 e hpw hg n1 n3 d wl w te tm h1 h3 hw hw' hd hl None None None None.
have [sol2 [hs2 _]] := @film_solve eig J1 e hpw hg n3 n1 d wl w te tm h3 h1 hw hw' hd hl None None None None.
have hh := @film_setup eig J1 e n1 n3 d wl w te tm h1 hl.
inversion hh as [|o ops c1 c2 s1 hh1]; subst.
inversion hh1 as [|o ops c3 c4 s2 hh2]; subst.
inversion hh2 as [|o ops c5 c6 s3 hh3]; subst.
inversion hh3; subst.
have pl a b x y (z : crystal 1) : z = film_crystal e a b d wl w te tm x y None None -> piled z [:: (UNIFORM (w * w), d)].
  move=> ->; exists [:: "film"%string]; eexists; split; [reflexivity | reflexivity | | ].
    by apply: List.Forall_cons; [split | exact: List.Forall_nil].
  by case=> [_|//]; do 2 eexists; reflexivity.
exists (crystal_of 1 e false (RtoC (n1 * n1)%Re) (RtoC (n3 * n3)%Re)), c3; do 4 eexists.
exists [:: AddUniform "film"%string (w * w) d; SetDevice [:: "film"%string] (inl true)]; do 4 eexists.
exists [:: (UNIFORM (w * w), d)], [:: (UNIFORM (w * w), d)]; split; split.
- exact: multilayer_created he.
- by split; [split; [exact: film_user|]|split; [exact: film_stack|]].
- apply: history_cons s1 _; apply: history_cons s2 _; exact: history_nil.
- split; [exact: s3 | exact: hs | by rewrite /= oppr0 | reflexivity | by split; reflexivity].
- split; [ | split; [apply: (pl n1 n3 None None); reflexivity | apply: (pl n3 n1 None None); reflexivity] | by [] | exact: hs2 | reflexivity].
  split=> // _; exists (RtoC (n1 * n1)%Re), (RtoC (n3 * n3)%Re); split; do 3 eexists; reflexivity.
Qed.
Lemma film_in_air : exists (c0 c ca ca' : crystal 1) ops sa mL mR l,
  [/\ created c0 false (RtoC (n1 * n1)%Re) (RtoC (n1 * n1)%Re), all_calls (slab_call (fun f _ => is_slab f) (c_exp c0)) ops & history eig J1 c0 ops c] /\
  [/\ step eig J1 c (SetSource wl te tm 0%Re 0%Re None) ca, step eig J1 ca Solve ca',
      (c_kp ca).1 = - (c_kp ca).1 /\ (c_kp ca).2 = - (c_kp ca).2, c_solution ca' = Some sa &
      named_modes ca' Sref = Ok mL /\ named_modes ca' Strans = Ok mR] /\
  [/\ exchanged_outside ca ca, piled ca l & same_profile (rev l) l].
Proof.
have [e [he _ hpw hg]] := multilayer_exp (RtoC (n1 * n1)%Re) (RtoC (n1 * n1)%Re).
have [sol [hs hS]] := @film_solve eig J1 e hpw hg n1 n1 d wl w te tm h1 h1 hw hw' hd hl None None None None.
have hh := @film_setup eig J1 e n1 n1 d wl w te tm h1 hl.
inversion hh as [|o ops c1 c2 s1 hh1]; subst.
inversion hh1 as [|o ops c3 c4 s2 hh2]; subst.
inversion hh2 as [|o ops c5 c6 s3 hh3]; subst.
inversion hh3; subst.
have pl a b x y (z : crystal 1) : z = film_crystal e a b d wl w te tm x y None None -> piled z [:: (UNIFORM (w * w), d)].
  move=> ->; exists [:: "film"%string]; eexists; split; [reflexivity | reflexivity | | ].
    by apply: List.Forall_cons; [split | exact: List.Forall_nil].
  by case=> [_|//]; do 2 eexists; reflexivity.
exists (crystal_of 1 e false (RtoC (n1 * n1)%Re) (RtoC (n1 * n1)%Re)), c3; do 2 eexists.
exists [:: AddUniform "film"%string (w * w) d; SetDevice [:: "film"%string] (inl true)]; do 3 eexists.
exists [:: (UNIFORM (w * w), d)]; split; split.
- exact: multilayer_created he.
- by split; [split; [exact: film_user|]|split; [exact: film_stack|]].
- apply: history_cons s1 _; apply: history_cons s2 _; exact: history_nil.
- split; [exact: s3 | exact: hs | by rewrite /= oppr0 | reflexivity | by split; reflexivity].
- split; [ | apply: (pl n1 n1 None None); reflexivity | by []].
  split=> // _; exists (RtoC (n1 * n1)%Re), (RtoC (n1 * n1)%Re); split; do 3 eexists; reflexivity.
Qed.
End Film.
