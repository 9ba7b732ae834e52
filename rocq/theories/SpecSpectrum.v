(** Specification of the spectra of project files. *)
From Coq Require Import Reals String.
From mathcomp Require Import all_ssreflect all_algebra.
From Coquelicot Require Import Complex.
From Verif Require Import Base CField CFun ModelFourier ModelLattice SpecLattice ModelEz ModelSpectrum.
Set Implicit Arguments. Unset Strict Implicit. Unset Printing Implicit Defensive.
Import GRing.Theory.

(** The lattice of the project. *)
Definition project_lattice (P : project) (ei ee : R) (L : lattice) : Prop :=
  [/\ look (p_materials P) (p_incident P) = Some ei, look (p_materials P) (p_substrate P) = Some ee &
      mk_lattice (p_pw P) ((p_a1 P).1 * p_size P, (p_a1 P).2 * p_size P)%Re ((p_a2 P).1 * p_size P, (p_a2 P).2 * p_size P)%Re
        (Float ei) (Float ee) = Ok L].
(** At normal incidence every order is propagating or clearly evanescent in both outer
    media. *)
Definition clear_project (P : project) (wl : R) : Prop :=
  forall ei ee L, project_lattice P ei ee L ->
    clear_orders L (Float ei) wl (0%Re, 0%Re) /\ clear_orders L (Float ee) wl (0%Re, 0%Re).

(** A sheet of air of thickness [d] on glass, a square pitch of 1 and one plane wave. *)
Definition sheet (d : R) : project :=
  Project 1 (1%Re, 0%Re) (0%Re, 1%Re) (1, 1)%N "air" "glass" [:: ("air"%string, 1%Re); ("glass"%string, (16 / 9)%Re)]
    [:: ("sheet"%string, LayerConf "air" d [::])] [:: ("device"%string, ([:: "sheet"%string], None))].
(** One angle of incidence, one frequency: the wavelength is 2 pi. *)
Definition one_angle (theta : R) : ranges :=
  Ranges (0%Re, 0%Re, 1%N) (theta, theta, 1%N) ((/ (2 * PI))%Re, (/ (2 * PI))%Re, 1%N).
