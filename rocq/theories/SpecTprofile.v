(** Specification vocabulary for C117: what a pile of the T-matrix API is made of, as a
    function of the depth. *)
From Coq Require Import Reals String.
From mathcomp Require Import all_ssreflect all_algebra.
From Coquelicot Require Import Complex.
From Verif Require Import Base CField CFun ModelFourier ModelEz SpecEz SpecBloch SpecProfile.
Set Implicit Arguments. Unset Strict Implicit. Unset Printing Implicit Defensive.
Local Open Scope ring_scope.

(** The contents of a layer: islands and host medium. *)
Definition contents := (seq (shape * C) * C)%type.
(** A layer as a slab; the number of halvings of its depth is left out. *)
Definition slab_of (r : recipe) : contents * R := let: (islands, host, depth, _) := r in ((islands, host), depth).

(** [name] stands for this pile of slabs. *)
Definition made_of (recipes : string -> option recipe) (stacking : stackings) (name : string) (l : seq (contents * R)) : Prop :=
  exists2 names, unrolled stacking name names & map (fun x => omap slab_of (recipes x)) names = map Some l.
Definition no_negative_depth (l : seq (contents * R)) : Prop := List.Forall (fun s => 0 <= s.2)%Re l.

(** Repeats are at least 1, and no layer has the name of a stacking. *)
Definition sound_project (recipes : string -> option recipe) (stacking : stackings) : Prop :=
  positive_repeats stacking /\ forall name, recipes name <> None -> look stacking name = None.
