(** Model of khepri/ez.py: project files.  Definitions only. *)
From Coq Require Import Reals ZArith String.
From mathcomp Require Import all_ssreflect all_algebra.
From Coquelicot Require Import Complex.
From Verif Require Import Base CField CFun StringEq ModelRedheffer ModelExpansion ModelFourier ModelTmat.
Set Implicit Arguments. Unset Strict Implicit. Unset Printing Implicit Defensive.
Import GRing.Theory.

(** * Stackings *)

(** config.stacking: the names in each stacking and its "repeat", if any. *)
Definition stackings := seq (string * (seq string * option Z)).
Fixpoint look {A} (d : seq (string * A)) (k : string) : option A :=
  match d with [::] => None | (k', v) :: r => if k' == k then Some v else look r k end.

(** khepri/ez.py:95-101 gather_s: the names of the layers that must be computed.
    [depth] is the number of calls that Python's stack can hold. *)
Fixpoint gather_s (stacking : stackings) (layers : seq string) (depth : nat) (name : string) (required : seq string) :
    res (seq string) :=
  match depth with
  | 0 => Err RecursionError
  | d.+1 =>
      match look stacking name with
      | Some (ls, _) =>
          (fix go (ls : seq string) (required : seq string) : res (seq string) :=
             match ls with
             | [::] => Ok required
             | l :: ls' => do r <- gather_s stacking layers d l required; go ls' r
             end) ls required
      | None => Ok (if (name \in layers) && (name \notin required) then rcons required name else required)
      end
  end.

Section Stack.
Variables (F : fieldType) (k : nat).
Notation S_t := 'M[F]_(k + k).

(** x @ y where x, y are LayerMatrix objects or None: None has no operator, and an
    array cannot be multiplied by None. *)
Definition at_op (x y : option S_t) : res (option S_t) :=
  match x, y with
  | None, _ => Err TypeError
  | Some _, None => Err ValueError
  | Some a, Some b => do p <- multS a b; Ok (Some p)
  end.

(** khepri/ez.py:142-144: the loop of the repetitions. *)
Fixpoint repeats (n : nat) (acc S0 : option S_t) : res (option S_t) :=
  match n with 0 => Ok acc | n'.+1 => do a <- at_op acc S0; repeats n' a S0 end.

(** khepri/ez.py:130-149 stack_s.  [required] maps the names of the computed layers
    to their matrices; an unknown name yields None. *)
Fixpoint stack_s (stacking : stackings) (required : string -> option S_t) (depth : nat) (name : string) : res (option S_t) :=
  match depth with
  | 0 => Err RecursionError
  | d.+1 =>
      match required name with
      | Some Si => Ok (Some Si)
      | None =>
          match look stacking name with
          | None => Ok None
          | Some (ls, rep) =>
              match ls with
              | [::] => Err IndexError
              | l0 :: rest =>
                  do S0 <- stack_s stacking required d l0;
                  do S1 <- (fix go (acc : option S_t) (ls : seq string) : res (option S_t) :=
                              match ls with
                              | [::] => Ok acc
                              | ss :: ls' => do T <- stack_s stacking required d ss; do a <- at_op acc T; go a ls'
                              end) S0 rest;
                  let repeat := if rep is Some r then r else Zpos xH in
                  if Z.ltb (Zpos xH) repeat then
                    match S1 with
                    | None => Err AttributeError
                    | Some _ => repeats (Z.to_nat (Z.sub repeat (Zpos xH))) S1 S1
                    end
                  else Ok S1
              end
          end
      end
  end.
End Stack.

(** * Islands *)

(** An island of a project file: khepri/ez.py:65-76 reads "shape", "center" and
    "radius" or "size". *)
Record island := Island { i_shape : string; i_center : R * R; i_radius : option R; i_size : option (R * R) }.
(** khepri/ez.py:68-73 the list island_params, times the pitch (:119). *)
Definition island_params (a : R) (i : island) : seq R :=
  [seq (p * a)%Re | p <- [:: (i_center i).1; (i_center i).2] ++
    (if i_radius i is Some r then [:: r] else if i_size i is Some s then [:: s.1; s.2] else [::])].
(** khepri/tmat/scattering.py:57 and khepri/fourier.py:23-25, :28-29, :42-43: the call
    of transform_<shape> with this list.  A wrong number of parameters raises
    TypeError. *)
Definition island_shape (a : R) (i : island) : res shape :=
  let p := island_params a i in
  if String.eqb (i_shape i) "rectangle" then
    if size p == 4 then Ok (Rectangle (nth 0%Re p 0) (nth 0%Re p 1) (nth 0%Re p 2) (nth 0%Re p 3)) else Err TypeError
  else if String.eqb (i_shape i) "disc" then
    if size p == 3 then Ok (Disc (nth 0%Re p 0) (nth 0%Re p 1) (nth 0%Re p 2)) else Err TypeError
  else Err AttributeError.
