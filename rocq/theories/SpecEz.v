(** Specification vocabulary for project files: the layers of a nested, repeated
    stacking in the order in which light meets them. *)
From Coq Require Import ZArith String.
From mathcomp Require Import all_ssreflect all_algebra.
From Verif Require Import Base StringEq ModelTmat SpecTmat ModelEz.
Set Implicit Arguments. Unset Strict Implicit. Unset Printing Implicit Defensive.
Import GRing.Theory.
Local Open Scope ring_scope.

(** How often a stacking is repeated. *)
Definition copies (r : option Z) : nat := if r is Some z then Z.to_nat z else 1%N.

(** [unrolled p name ls]: [name] stands for the layers [ls], from left to right.  A
    name of a stacking is unrolled, any other name is a layer. *)
Inductive unrolled (p : stackings) : string -> seq string -> Prop :=
| unrolled_layer name : look p name = None -> unrolled p name [:: name]
| unrolled_stack name names rep ls :
    look p name = Some (names, rep) -> unrolled_all p names ls ->
    unrolled p name (flatten (nseq (copies rep) ls))
with unrolled_all (p : stackings) : seq string -> seq string -> Prop :=
| unrolled_nil : unrolled_all p [::] [::]
| unrolled_cons name names l ls :
    unrolled p name l -> unrolled_all p names ls -> unrolled_all p (name :: names) (l ++ ls).

Section Spec.
Variables (F : fieldType) (k : nat).
Implicit Types (S : 'M[F]_(k + k)) (lp lm rp rm : 'cV[F]_k).

(** Waves on the two sides of a pile of layers, with waves that match in every gap. *)
Fixpoint chain (ls : seq 'M[F]_(k + k)) lp lm rp rm : Prop :=
  match ls with
  | [::] => lp = rp /\ lm = rm
  | Si :: ls' => exists gp gm, tscatters Si lp lm gp gm /\ chain ls' gp gm rp rm
  end.
End Spec.

(** Every repeat of the project is at least 1. *)
Definition positive_repeats (p : stackings) : Prop :=
  forall name names z, look p name = Some (names, Some z) -> Z.le (Zpos xH) z.
(** The levels of nesting below a name are at most [n]. *)
Fixpoint nested_within (p : stackings) (n : nat) (name : string) : Prop :=
  match n with
  | 0%N => False
  | n'.+1 => match look p name with
             | None => True
             | Some (names, _) => List.Forall (nested_within p n') names
             end
  end.
(** No stacking of the project is empty. *)
Definition nonempty_stackings (p : stackings) : Prop := forall name rep, look p name <> Some ([::], rep).
(** The matrices of the layers [req], as khepri/ez.py:111-126 stores them. *)
Definition computed {A} (req : seq string) (mat : string -> A) (name : string) : option A :=
  if name \in req then Some (mat name) else None.
