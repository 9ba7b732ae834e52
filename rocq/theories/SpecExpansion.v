(** Vocabulary for the statements about lattices and expansions. *)
From Coq Require Import Reals.
From mathcomp Require Import all_ssreflect all_algebra.
From Coquelicot Require Import Complex.
From Verif Require Import Base CField ModelExpansion.
Set Implicit Arguments. Unset Strict Implicit. Unset Printing Implicit Defensive.

Definition dot2 (a b : vec2) : R := (a.1 * b.1 + a.2 * b.2)%Re.
Definition det2 (a b : vec2) : R := (a.1 * b.2 - a.2 * b.1)%Re.
Definition len2 (g : vec2) : R := (g.1 * g.1 + g.2 * g.2)%Re.
Definition opp2 (g : vec2) : vec2 := ((- g.1)%Re, (- g.2)%Re).

(** The i-th g-vector of an expansion. *)
Definition gth (e : expansion) (i : nat) : vec2 := nth (0%Re, 0%Re) (e_g e) i.

(** Every Expansion a program can build. *)
Inductive built : expansion -> Prop :=
| built_init pw lat e : mk_expansion pw lat = Ok e -> built e
| built_rotate theta e : built e -> built (rotate theta e)
| built_add e1 e2 e : built e1 -> built e2 -> add_expansion e1 e2 = Ok e -> built e.

