(** Specification vocabulary for C116: what a device is made of, as a function of the
    depth. *)
From Coq Require Import Reals String.
From mathcomp Require Import all_ssreflect all_algebra.
From Coquelicot Require Import Complex.
From Verif Require Import Base CField CFun ModelExpansion ModelFourier ModelDevice SpecDevice StringEq.
Set Implicit Arguments. Unset Strict Implicit. Unset Printing Implicit Defensive.
Local Open Scope ring_scope.

(** A slab: its contents and its depth. *)
Definition slab := (formulation * R)%type.
Definition inner (f : formulation) : Prop :=
  match f with FFT _ | UNIFORM _ | ANALYTICAL _ _ => True | _ => False end.
Definition proper_slab (s : slab) : Prop := inner s.1 /\ (0 <= s.2)%Re.

(** What is found at the depth [z] of a pile of slabs, if anything, whatever the slabs
    are made of. *)
Fixpoint found_at {T : Type} (l : seq (T * R)) (z : R) : option T :=
  match l with
  | [::] => None
  | s :: r => if Rlt_dec z s.2 then Some s.1 else found_at r (z - s.2)%Re
  end.
Definition same_profile {T : Type} (l l' : seq (T * R)) : Prop := forall z, (0 <= z)%Re -> found_at l z = found_at l' z.

(** The current device of a crystal is this pile of slabs, with the expansion of the
    crystal. *)
Definition piled {n} (c : crystal n) (l : seq slab) : Prop :=
  exists stack mask, [/\ c_device c = Some (stack, global_stacking (c_void c) stack, mask),
    size l = size stack, List.Forall proper_slab l &
    forall i, (i < size l)%N -> exists b s,
      dict_get (c_layers c) (nth ""%string stack i) =
      Some (Plain (Layer (c_exp c) (nth (NoFormulation, 0%Re) l i).1 (nth (NoFormulation, 0%Re) l i).2 b), s)].

(** The same medium under a name in two crystals. *)
Definition same_medium {n} (c c' : crystal n) (name : string) : Prop :=
  exists l s l' s', [/\ dict_get (c_layers c) name = Some (Plain l, s),
    dict_get (c_layers c') name = Some (Plain l', s') & same_layer l l'].

(** The same outside and the same light. *)
Definition same_outside {n} (c c' : crystal n) : Prop :=
  [/\ c_void c = c_void c', c_exp c = c_exp c', c_epsi c = c_epsi c' /\ c_epse c = c_epse c',
      [/\ c_source c = c_source c', c_kp c = c_kp c' & c_kzi c = c_kzi c'] &
      c_void c = false -> same_medium c c' Sref /\ same_medium c c' Strans].
