(** Property C106: the Bloch factors of a periodic pile, whichever period describes it. *)
From Coq Require Import Reals ZArith String.
From mathcomp Require Import all_ssreflect all_algebra.
From Coquelicot Require Import Complex.
From Verif Require Import Base CField CFun ModelTmat SpecTmat ModelEz SpecEz SpecSupercell SupercellProofs.
Set Implicit Arguments. Unset Strict Implicit. Unset Printing Implicit Defensive.
Import GRing.Theory.
Local Open Scope ring_scope.

(** The factors do not depend on the layer with which the period starts, nor on the way
    the period is nested. *)
Theorem C106_start (F : fieldType) k p layers (mat : string -> 'M[F]_(k + k)) n1 n2 l1 l2 S1 S2 w :
  positive_repeats p -> cell_of p layers mat n1 (l1 ++ l2) S1 -> cell_of p layers mat n2 (l2 ++ l1) S2 ->
  w != 0 -> bloch_factor S1 w -> bloch_factor S2 w.
Proof. exact (fun pos => @cell_shift F k p layers mat pos n1 n2 l1 l2 S1 S2 w). Qed.
Print Assumptions C106_start.

(** N periods multiply a Bloch wave by the N-th power of the factor of one. *)
Theorem C106_repeat (F : fieldType) k p layers (mat : string -> 'M[F]_(k + k)) n1 n2 l N S1 S2 w :
  positive_repeats p -> cell_of p layers mat n1 l S1 -> cell_of p layers mat n2 (flatten (nseq N l)) S2 ->
  bloch_factor S1 w -> bloch_factor S2 (w ^+ N).
Proof. exact (fun pos => @cell_repeat F k p layers mat pos n1 n2 l N S1 S2 w). Qed.
Print Assumptions C106_repeat.

(** And the repeated cell has no other factors: its bands are the folded ones. *)
Theorem C106_fold k p layers (mat : string -> 'M[C]_(k + k)) n1 n2 l N S1 S2 W :
  positive_repeats p -> (0 < N)%N -> cell_of p layers mat n1 l S1 -> cell_of p layers mat n2 (flatten (nseq N l)) S2 ->
  W != 0 -> bloch_factor S2 W -> exists w, w ^+ N = W /\ bloch_factor S1 w.
Proof. exact (@cell_fold k p layers mat n1 n2 l N S1 S2 W). Qed.
Print Assumptions C106_fold.

(** A crystal of two layers, its period read from either layer and three times. *)
Example C106_hypotheses_met : exists S1 S2 S3 : 'M[C]_(1 + 1), let layers := [:: "a"; "b"]%string in
  [/\ positive_repeats crystal2, cell_of crystal2 layers two_mats "ab" ([:: "a"%string] ++ [:: "b"%string]) S1,
      cell_of crystal2 layers two_mats "ba" ([:: "b"%string] ++ [:: "a"%string]) S2 &
      cell_of crystal2 layers two_mats "thrice" (flatten (nseq 3 [:: "a"; "b"]))%string S3] /\
  [/\ (2%:R : C) != 0, bloch_factor S1 2%:R & bloch_factor S3 (2%:R ^+ 3)].
Proof. exact supercell_example. Qed.
