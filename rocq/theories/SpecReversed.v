(** Specification vocabulary for C119: a device turned upside down. *)
From Coq Require Import Reals String.
From mathcomp Require Import all_ssreflect all_algebra.
From Coquelicot Require Import Complex.
From Verif Require Import Base CField CFun ModelRedheffer SpecScatter ModelExpansion ModelFourier ModelDevice SpecDevice StringEq.
Set Implicit Arguments. Unset Strict Implicit. Unset Printing Implicit Defensive.
Local Open Scope ring_scope.

(** The layer under this name has these contents, and the expansion of the crystal. *)
Definition has_medium {n} (c : crystal n) (name : string) (f : formulation) : Prop :=
  exists d b s, dict_get (c_layers c) name = Some (Plain (Layer (c_exp c) f d b), s).

(** The outer media are exchanged; expansion, wavelength and in-plane wavevector are the
    same. *)
Definition exchanged_outside {n} (c c' : crystal n) : Prop :=
  [/\ c_void c = c_void c', c_exp c = c_exp c', omap s_wl (c_source c) = omap s_wl (c_source c'), c_kp c = c_kp c' &
      c_void c = false -> exists above below,
        [/\ has_medium c Sref (HALF_SPACE_INC above), has_medium c Strans (HALF_SPACE_TRN below),
            has_medium c' Sref (HALF_SPACE_INC below) & has_medium c' Strans (HALF_SPACE_TRN above)]].

(** A wave that a cell passes on multiplied by w: the waves on its far side are w times
    those on its near side. *)
Definition cell_factor {n} (S : smat C_fieldType n) (w : C) : Prop :=
  exists a b, [/\ ~ (a = 0 /\ b = 0) & scatters S a (w *: b) b (w *: a)].
