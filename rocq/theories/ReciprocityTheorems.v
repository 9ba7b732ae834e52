(** An example for the reciprocity of devices. *)
From Coq Require Import Reals ZArith Lra String.
From mathcomp Require Import all_ssreflect all_algebra.
From Coquelicot Require Import Complex.
From Verif Require Import Base CField CFun ModelRedheffer ModelLayer SpecLayer ModelExpansion SpecExpansion ModelFlux
  ModelFourier ModelDevice SpecDevice StringEq DeviceEnergy FilmDevice HistoryProofs DeviceExamples NormalProofs
  ModelFields SpecFields SolvedProofs SpecReciprocity SpecTwisted ReciprocityAlg ReciprocityProofs.
Set Implicit Arguments. Unset Strict Implicit. Unset Printing Implicit Defensive.
Import GRing.Theory.
Local Open Scope ring_scope.

Section Film.
Variables (eig : forall m, 'M[C]_m -> 'rV[C]_m * 'M[C]_m) (J1 : R -> R).
Variables (n1 n3 d wl : R) (w te tm : C).
Hypotheses (h1 : (0 < n1)%Re) (h3 : (0 < n3)%Re) (hw : (0 < fst w)%Re) (hw' : (snd w <= 0)%Re)
  (hd : (0 <= d)%Re) (hl : (0 < wl)%Re).
(** An absorbing film between two glasses, at normal incidence. *)
Lemma film_reciprocity : exists (c0 c ca ca' : crystal 1) ops sa mL mR,
  [/\ created c0 false (RtoC (n1 * n1)%Re) (RtoC (n3 * n3)%Re), all_calls (slab_call (fun f _ => is_slab f) (c_exp c0)) ops & history eig J1 c0 ops c] /\
  [/\ step eig J1 c (SetSource wl te tm 0%Re 0%Re None) ca, step eig J1 ca Solve ca',
      (c_kp ca).1 = - (c_kp ca).1 /\ (c_kp ca).2 = - (c_kp ca).2, c_solution ca' = Some sa &
      named_modes ca' Sref = Ok mL /\ named_modes ca' Strans = Ok mR].
Proof.
have [e [he _ hpw hg]] := multilayer_exp (RtoC (n1 * n1)%Re) (RtoC (n3 * n3)%Re).
have [sol [hs hS]] := @film_solve eig J1 e hpw hg n1 n3 d wl w te tm h1 h3 hw hw' hd hl None None None None.
have hh := @film_setup eig J1 e n1 n3 d wl w te tm h1 hl.
inversion hh as [|o ops c1 c2 s1 hh1]; subst.
inversion hh1 as [|o ops c3 c4 s2 hh2]; subst.
inversion hh2 as [|o ops c5 c6 s3 hh3]; subst.
inversion hh3; subst.
exists (crystal_of 1 e false (RtoC (n1 * n1)%Re) (RtoC (n3 * n3)%Re)), c3; do 2 eexists.
exists [:: AddUniform "film"%string (w * w) d; SetDevice [:: "film"%string] (inl true)]; do 3 eexists; split; split.
- exact: multilayer_created he.
- by split; [split; [exact: film_user|]|split; [exact: film_stack|]].
- apply: history_cons s1 _; apply: history_cons s2 _; exact: history_nil.
- exact: s3.
- exact: hs.
- by rewrite /= oppr0.
- reflexivity.
- by split; reflexivity.
Qed.
End Film.
