(** A device for C119: a film between two media, and the same film with the media
    exchanged. *)
From Coq Require Import Reals String Lra.
From mathcomp Require Import all_ssreflect all_algebra.
From Coquelicot Require Import Complex Rbar.
From Verif Require Import Base ZmodTac CField CFun ModelRedheffer SpecScatter RedhefferProofs ModelLayer SpecLayer Blk LayerProofs
  LayerCProofs UniformProofs LayerApiProofs NormalProofs ScalarProofs SpecThinFilm ThinFilmProofs ModelExpansion SpecExpansion ExpansionProofs SpecMaxwell ModelFlux SpecFlux SpecEnergy EnergyAlg
  FluxProofs IncidentProofs OuterFlux ModelFourier ModelDevice SpecDevice StringEq DeviceProofs HistoryProofs
  FilmDevice DeviceExamples SpecProfile SpecReversed.
Set Implicit Arguments. Unset Strict Implicit. Unset Printing Implicit Defensive.
Import GRing.Theory.
Local Open Scope ring_scope.

Lemma reversed_devices eig J1 : exists e (c1 c2 c1' c2' : crystal 1) o1 o2 l1 l2,
  [/\ history eig J1 (crystal_of 1 e false (RtoC (1 * 1)%Re) (RtoC (2 * 2)%Re)) o1 c1, history eig J1 (crystal_of 1 e false (RtoC (2 * 2)%Re) (RtoC (1 * 1)%Re)) o2 c2,
      [/\ exchanged_outside c1 c2, piled c1 l1, piled c2 l2 & same_profile (rev l1) l2],
      step eig J1 c1 Solve c1' & step eig J1 c2 Solve c2'].
Proof.
have [e [he _ hpw hg]] := multilayer_exp (RtoC (1 * 1)%Re) (RtoC (1 * 1)%Re).
have hw : (0 < fst (RtoC 3))%Re by rewrite /=; lra.
have hw' : (snd (RtoC 3) <= 0)%Re by rewrite /=; lra.
have hd : (0 <= 2)%Re by lra.
have hl : (0 < 1)%Re by lra.
have h2 : (0 < 2)%Re by lra.
have [s1 [t1 _]] := @film_solve eig J1 e hpw hg 1 2 2 1 (RtoC 3) 1 0 hl h2 hw hw' hd hl None None None None.
have [s2 [t2 _]] := @film_solve eig J1 e hpw hg 2 1 2 1 (RtoC 3) 1 0 h2 hl hw hw' hd hl None None None None.
exists e; do 4 eexists; exists (film_calls 2 1 (RtoC 3) 1 0), (film_calls 2 1 (RtoC 3) 1 0).
exists [:: (UNIFORM (RtoC 3 * RtoC 3), 2%Re)], [:: (UNIFORM (RtoC 3 * RtoC 3), 2%Re)].
have pl a b c d (x : crystal 1) : x = film_crystal e a b 2 1 (RtoC 3) 1 0 c d None None -> piled x [:: (UNIFORM (RtoC 3 * RtoC 3), 2%Re)].
  move=> ->; exists [:: "film"%string]; eexists; split; [reflexivity | reflexivity | | ].
    by apply: List.Forall_cons; [split=> //=; lra | exact: List.Forall_nil].
  by case=> [_|//]; do 2 eexists; reflexivity.
split.
- exact: film_setup.
- exact: film_setup.
- split; [ | exact: pl erefl | exact: pl erefl | by []].
  split=> // _; exists (RtoC (1 * 1)%Re), (RtoC (2 * 2)%Re); split; do 3 eexists; reflexivity.
- exact: t1.
exact: t2.
Qed.

Lemma symmetric_device eig J1 : exists e (c c' : crystal 1) o l,
  [/\ history eig J1 (crystal_of 1 e false (RtoC (1 * 1)%Re) (RtoC (1 * 1)%Re)) o c, exchanged_outside c c, piled c l,
      same_profile (rev l) l & step eig J1 c Solve c'].
Proof.
have [e [he _ hpw hg]] := multilayer_exp (RtoC (1 * 1)%Re) (RtoC (1 * 1)%Re).
have hw : (0 < fst (RtoC 3))%Re by rewrite /=; lra.
have hw' : (snd (RtoC 3) <= 0)%Re by rewrite /=; lra.
have hd : (0 <= 2)%Re by lra.
have hl : (0 < 1)%Re by lra.
have [s1 [t1 _]] := @film_solve eig J1 e hpw hg 1 1 2 1 (RtoC 3) 1 0 hl hl hw hw' hd hl None None None None.
exists e; do 2 eexists; exists (film_calls 2 1 (RtoC 3) 1 0), [:: (UNIFORM (RtoC 3 * RtoC 3), 2%Re)].
split; [exact: film_setup | | | by [] | exact: t1].
  split=> // _; exists (RtoC (1 * 1)%Re), (RtoC (1 * 1)%Re); split; do 3 eexists; reflexivity.
exists [:: "film"%string]; eexists; split; [reflexivity | reflexivity | | ].
  by apply: List.Forall_cons; [split=> //=; lra | exact: List.Forall_nil].
by case=> [_|//]; do 2 eexists; reflexivity.
Qed.

Lemma doubling_cell : cell_factor (Smat 0 (RtoC 2)%:M (RtoC 2)%:M 0 : smat C_fieldType 1) (RtoC 2) /\ RtoC 2 != 0 :> C.
Proof.
split; last by apply/eqP => -[] h; lra.
exists 1%:M, 0; split.
  by case=> /matrixP /(_ 0 0); rewrite !mxE => -[] h _; lra.
by split=> /=; rewrite ?scaler0 ?mulmx0 ?mul0mx ?addr0 // mul_scalar_mx.
Qed.
