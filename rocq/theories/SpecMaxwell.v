(** Specification: Maxwell's equations for one plane wave
    exp(-i k0 (kx x + ky y + kz z)) (time factor exp(+i omega t)) in a uniform
    medium of relative permittivity [eps] and permeability [mu].
    Wavevectors are in units of k0; [H] is the magnetic field times the
    impedance of free space. *)
From Coq Require Import Reals.
From mathcomp Require Import all_ssreflect all_algebra.
From Coquelicot Require Import Complex.
From Verif Require Import CField CFun.
Set Implicit Arguments. Unset Strict Implicit. Unset Printing Implicit Defensive.
Import GRing.Theory.
Local Open Scope ring_scope.

Definition vec3 := (C * C * C)%type.
Definition vx (v : vec3) : C := v.1.1.
Definition vy (v : vec3) : C := v.1.2.
Definition vz (v : vec3) : C := v.2.
Definition cross (a b : vec3) : vec3 :=
  (vy a * vz b - vz a * vy b, vz a * vx b - vx a * vz b, vx a * vy b - vy a * vx b).
Definition dot3 (a b : vec3) : C := vx a * vx b + vy a * vy b + vz a * vz b.
Definition scale3 (c : C) (v : vec3) : vec3 := (c * vx v, c * vy v, c * vz v).

Definition maxwell (eps mu : C) (k E H : vec3) : Prop :=
  cross k E = scale3 mu H /\ cross k H = scale3 (- eps) E.

(** In the library's convention the stored magnetic field is u = -i H. *)
Definition H_of_u (u : vec3) : vec3 := scale3 ci u.
