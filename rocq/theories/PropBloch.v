(** Properties C103 and C104: the Bloch waves and the reciprocity of piles of layers
    (T-matrix API). *)
From Coq Require Import Reals String Lra.
From mathcomp Require Import all_ssreflect all_algebra.
From Coquelicot Require Import Complex.
From Verif Require Import Base CField CFun ModelRedheffer ModelExpansion ModelFourier ModelTmat SpecTmat TmatProofs ModelLattice SpecLattice
  SpecExp ExpProofs ModelEz SpecBloch TmatExamples BlochProofs ReciprocalPiles.
Set Implicit Arguments. Unset Strict Implicit. Unset Printing Implicit Defensive.
Import GRing.Theory.
Local Open Scope ring_scope.

(** ** C103 The Bloch waves of a cell *)

(** In a lossless cell the Bloch factors are not 0 and come in pairs w, 1 / w*. *)
Theorem C103_pairs J1 n (expm : 'M[C]_((n + n) + (n + n)) -> 'M[C]_((n + n) + (n + n))) p a1 a2 ei ee L wl kp recipes
    stacking d name S w v :
  is_expm expm -> mk_lattice p a1 a2 ei ee = Ok L -> window_fits p ->
  (forall layer r, recipes layer = Some r -> lossless_recipe r) ->
  pile_at J1 expm p L wl kp recipes stacking d name S -> eigenpair (scattering_splitlr S) w v ->
  w != 0 /\ exists v', eigenpair (scattering_splitlr S) (Cconj w)^-1 v'.
Proof. exact (fun hexp hL hf hr hS hv => @bloch_pair J1 n expm hexp p a1 a2 ei ee L hL hf wl kp recipes hr stacking d name S hS w v hv). Qed.
Print Assumptions C103_pairs.

(** A Bloch wave of a lossless cell that grows or decays carries no power. *)
Theorem C103_no_power J1 n (expm : 'M[C]_((n + n) + (n + n)) -> 'M[C]_((n + n) + (n + n))) p a1 a2 ei ee L wl kp recipes
    stacking d name S w v V :
  is_expm expm -> mk_lattice p a1 a2 ei ee = Ok L -> window_fits p ->
  (forall layer r, recipes layer = Some r -> lossless_recipe r) ->
  pile_at J1 expm p L wl kp recipes stacking d name S -> eigenpair (scattering_splitlr S) w v ->
  Cmod w <> 1%Re -> lattice_Vi n L wl kp = Ok V -> power (V *m v) = 0%Re.
Proof. exact (fun hexp hL hf hr hS hv => @bloch_no_power J1 n expm hexp p a1 a2 ei ee L hL hf wl kp recipes hr stacking d name S hS w v hv V). Qed.
Print Assumptions C103_no_power.

(** With or without losses, the factors for the opposite in-plane wavevector are the
    inverses (windows with an odd number of orders). *)
Theorem C103_opposite J1 n (expm : 'M[C]_((n + n) + (n + n)) -> 'M[C]_((n + n) + (n + n))) p a1 a2 ei ee L wl kp recipes
    stacking d name S S' w v :
  is_expm expm -> mk_lattice p a1 a2 ei ee = Ok L -> window_fits p -> odd p.1 ->
  pile_at J1 expm p L wl kp recipes stacking d name S -> pile_at J1 expm p L wl (opposite kp) recipes stacking d name S' ->
  eigenpair (scattering_splitlr S) w v -> w != 0 /\ exists v', eigenpair (scattering_splitlr S') w^-1 v'.
Proof. exact (fun hexp hL hf ho hS hS' => opposed_factor (pile_opposed hL hf ho hexp hS hS')). Qed.
Print Assumptions C103_opposite.

(** A layer of air, for an in-plane wavevector beyond the light line. *)
Example C103_hypotheses_met J1 : exists L V v, let expm := @mexp ((1 + 1) + (1 + 1)) in let kp := ((5 / 4)%Re, 0%Re) in
  let S := (RtoC (exp (- (3 / 4))))%:M in let wl := (2 * PI)%Re in
  [/\ is_expm expm, mk_lattice (1, 1)%N (1%Re, 0%Re) (0%Re, 1%Re) (Float 1) (Float 1) = Ok L,
      forall layer r, air_layer layer = Some r -> lossless_recipe r &
      pile_at J1 expm (1, 1)%N L wl kp air_layer [::] 1 "air" S] /\
  [/\ pile_at J1 expm (1, 1)%N L wl (opposite kp) air_layer [::] 1 "air" S,
      eigenpair (scattering_splitlr S) (RtoC (exp (- (3 / 4)))) v, Cmod (RtoC (exp (- (3 / 4)))) <> 1%Re &
      lattice_Vi 1 L wl kp = Ok V].
Proof. exact (bloch_example J1). Qed.

(** ** C104 Reciprocity *)

(** Light that goes from the order h to the order g through the structure goes back
    from the order -g to the order -h for the opposite in-plane wavevector: with the
    normalisation of the waves, the coefficients are the same.  Any permittivities,
    islands, stacking and media; windows with an odd number of orders. *)
Theorem C104_transmission J1 n (expm : 'M[C]_((n + n) + (n + n)) -> 'M[C]_((n + n) + (n + n))) p a1 a2 ei ee L wl kp recipes
    stacking d name S S' a b (g h : 'I_n) :
  is_expm expm -> mk_lattice p a1 a2 ei ee = Ok L -> window_fits p -> odd p.1 ->
  closed_at J1 expm p L wl kp recipes stacking d name S -> closed_at J1 expm p L wl (opposite kp) recipes stacking d name S' ->
  weight L (l_emerg L) wl kp a g * ulsubmx S (wave a g) (wave b h) =
  weight L (l_incid L) wl kp b h * drsubmx S' (wave b (rev_ord h)) (wave a (rev_ord g)).
Proof. exact (fun hexp hL hf hp hS hS' => pile_transmission hL hf hp hexp hS hS' a b g h). Qed.
Print Assumptions C104_transmission.

(** Reflection, seen from the left and from the right. *)
Theorem C104_reflection J1 n (expm : 'M[C]_((n + n) + (n + n)) -> 'M[C]_((n + n) + (n + n))) p a1 a2 ei ee L wl kp recipes
    stacking d name S S' a b (g h : 'I_n) :
  is_expm expm -> mk_lattice p a1 a2 ei ee = Ok L -> window_fits p -> odd p.1 ->
  closed_at J1 expm p L wl kp recipes stacking d name S -> closed_at J1 expm p L wl (opposite kp) recipes stacking d name S' ->
  weight L (l_incid L) wl kp a g * dlsubmx S (wave a g) (wave b h) =
  weight L (l_incid L) wl kp b h * dlsubmx S' (wave b (rev_ord h)) (wave a (rev_ord g)) /\
  weight L (l_emerg L) wl kp a g * ursubmx S (wave a g) (wave b h) =
  weight L (l_emerg L) wl kp b h * ursubmx S' (wave b (rev_ord h)) (wave a (rev_ord g)).
Proof.
exact (fun hexp hL hf hp hS hS' => conj (pile_reflection hL hf hp hexp hS hS' a b g h) (pile_back_reflection hL hf hp hexp hS hS' a b g h)).
Qed.
Print Assumptions C104_reflection.

(** The specular reflection of each polarisation is the same for opposite directions of
    incidence. *)
Theorem C104_specular J1 n (expm : 'M[C]_((n + n) + (n + n)) -> 'M[C]_((n + n) + (n + n))) p a1 a2 ei ee L wl kp recipes
    stacking d name S S' a (g : 'I_n) :
  is_expm expm -> mk_lattice p a1 a2 ei ee = Ok L -> window_fits p -> odd p.1 ->
  closed_at J1 expm p L wl kp recipes stacking d name S -> closed_at J1 expm p L wl (opposite kp) recipes stacking d name S' ->
  rev_ord g = g -> dlsubmx S (wave a g) (wave a g) = dlsubmx S' (wave a g) (wave a g).
Proof. exact (fun hexp hL hf hp hS hS' => @pile_specular _ _ _ _ _ _ hL hf hp _ _ _ hexp _ _ _ _ _ _ _ _ hS hS' a g). Qed.
Print Assumptions C104_specular.

(** A layer of air on glass; the wavevector is beyond the light line of the air. *)
Example C104_hypotheses_met J1 : exists L S S', let expm := @mexp ((1 + 1) + (1 + 1)) in let kp := ((5 / 4)%Re, 0%Re) in
  [/\ is_expm expm, mk_lattice (1, 1)%N (1%Re, 0%Re) (0%Re, 1%Re) (Float 1) (Float (16 / 9)) = Ok L,
      closed_at J1 expm (1, 1)%N L (2 * PI) kp air_layer [::] 1 "air" S &
      closed_at J1 expm (1, 1)%N L (2 * PI) (opposite kp) air_layer [::] 1 "air" S'].
Proof. exact (closed_example J1). Qed.

(** ** C105 Windows with an even number of orders *)

(** The symmetry of C103 holds only for windows symmetric about the order 0: with
    2 x 2 orders a layer of air has a Bloch factor at k whose inverse is not a factor
    at -k. *)
Theorem C105_even_window_refuted J1 : exists L S S' w v, let expm := @mexp ((4 + 4) + (4 + 4)) in let kp := ((PI / 2)%Re, 0%Re) in
  [/\ is_expm expm, mk_lattice (2, 2)%N (1%Re, 0%Re) (0%Re, 1%Re) (Float 1) (Float 1) = Ok L,
      pile_at J1 expm (2, 2)%N L 8 kp air_layer [::] 1 "air" S, pile_at J1 expm (2, 2)%N L 8 (opposite kp) air_layer [::] 1 "air" S' &
      eigenpair (scattering_splitlr S) w v /\ forall v', ~ eigenpair (scattering_splitlr S') w^-1 v'].
Proof. exact (even_windows J1). Qed.
Print Assumptions C105_even_window_refuted.
