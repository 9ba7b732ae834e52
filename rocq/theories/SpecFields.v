(** Specification vocabulary for field maps. *)
From Coq Require Import Reals String.
From mathcomp Require Import all_ssreflect all_algebra.
From Coquelicot Require Import Complex Rbar.
From Verif Require Import Base CField CFun SpecMaxwell ModelRedheffer ModelExpansion ModelFlux ModelFourier ModelDevice StringEq SpecDevice ModelFields Calculus.
Set Implicit Arguments. Unset Strict Implicit. Unset Printing Implicit Defensive.
Import GRing.Theory.
Local Open Scope ring_scope.

Definition nonneg (ds : seq R) : Prop := forall i, (0 <= nth 0%Re ds i)%Re.
Definition all_positive (ds : seq R) : Prop := forall i, (i < size ds)%N -> (0 < nth 0%Re ds i)%Re.

(** Where the depth [z] lies in a device with outer media and layers of depths
    [ds]: the incidence medium up to 0, layer i in (start of i, end of i], the
    emergence medium beyond; with the offset from the start of the layer.  The
    number is the place in the device counted from 1 (the incidence medium). *)
Definition located {n} (c : crystal n) (ds : seq R) (z : R) (r : res (entry n * nat * Rbar)) : Prop :=
  exists dev, c_device c = Some dev /\
  [/\ (z <= 0)%Re -> exists x, dict_get (c_layers c) Sref = Some x /\ r = Ok (x, 1%N, Finite z),
      (depth_before ds (size ds) < z)%Re -> exists x, dict_get (c_layers c) Strans = Some x /\
        r = Ok (x, (size ds).+2, Finite (z - depth_before ds (size ds))%Re) &
      forall i, (i < size ds)%N -> (depth_before ds i < z)%Re -> (z <= depth_before ds i.+1)%Re ->
        exists x, dict_get (c_layers c) (nth ""%string dev.1.1 i) = Some x /\
          r = Ok (x, i.+2, Finite (z - depth_before ds i)%Re)].

(** Calls that only use the crystal's own expansion. *)
Definition own_call (o : op) : Prop :=
  match o with
  | AddUniform name _ _ | AddPixmap name _ _ | AddPixmapOrUniform name _ _
  | AddAnalytical name _ _ _ => user_name name
  | AddLayer _ _ | AddExtended _ _ _ => False
  | SetDevice stack _ => user_stack stack
  | SetSource _ _ _ _ _ _ | Solve => True
  end.

(** The computed tangential fields, as a function of the depth, are continuous at
    [z0]: defined around it, and as close as one wants to the value at [z0]. *)
Definition fields_continuous {n} (c : crystal n) (inc : 'cV[C]_((n + n) + (n + n))) (z0 : R) : Prop :=
  exists v, fourier_fields c z0 inc = Ok v /\
  forall eps, (0 < eps)%Re -> exists delta, (0 < delta)%Re /\
    forall z, (Rabs (z - z0) < delta)%Re -> exists w, fourier_fields c z inc = Ok w /\
      forall j, (Cmod (w.1 j 0%R - v.1 j 0%R)%R < eps)%Re.

(** No phasor of a layer of the device reaches the clipping threshold. *)
Definition unclipped {n} (c : crystal n) : Prop :=
  forall dev src name l s m, c_device c = Some dev -> c_source c = Some src -> name \in dev.1.1 ->
    dict_get (c_layers c) name = Some (Plain l, Some s) -> sl_modes s = Some m ->
    forall j, (Rabs (fst (m.2 0%R j)) * Rabs (2 * PI / s_wl src) * l_depth l < ln big_phasor)%Re.

(** What the user's mask says about the i-th layer of the stack: one bool for
    all, or one per layer. *)
Definition user_mask (mask : bool + seq bool) (i : nat) : bool :=
  match mask with inl b => b | inr m => nth false m i end.

(** The amplitude of the incoming wave that field maps use for the incident
    fields [inc], and the one the fluxes use. *)
Definition map_amplitude {n} (c : crystal n) (inc : 'cV[C]_((n + n) + (n + n))) (a : 'cV[C]_(n + n)) : Prop :=
  exists mr amp, [/\ named_modes c Sref = Ok mr,
    solve (layer_eigenbasis_matrix mr.1.1 mr.1.2) inc = Ok amp & a = usubmx amp].
Definition flux_amplitude {n} (c : crystal n) (a : 'cV[C]_(n + n)) : Prop :=
  exists src mr ef iW, [/\ c_source c = Some src, named_modes c Sref = Ok mr,
    incident n (s_te src) (s_tm src) ((c_kp c).1, (c_kp c).2, c_kzi c) true = Ok ef,
    inv mr.1.1 = Ok iW & a = iW *m ef].

(** The electric field of a map has the divergence [d] at a point: near it the map
    is defined, and the derivatives of its components along their own axes add up
    to [d]. *)
Definition has_divergence (fields : R -> R -> R -> res (C * C * C * (C * C * C))) (x y z : R) (d : C) : Prop :=
  exists (E : R -> R -> R -> C * C * C) (a b e : C),
  [/\ (exists delta, (0 < delta)%Re /\ forall x' y' z', (Rabs (x' - x) < delta)%Re -> (Rabs (y' - y) < delta)%Re ->
        (Rabs (z' - z) < delta)%Re -> exists H, fields x' y' z' = Ok (E x' y' z', H)),
      cder (fun t => (E t y z).1.1) x a, cder (fun t => (E x t z).1.2) y b, cder (fun t => (E x y t).2) z e &
      d = a + b + e].

(** The six components of the field of the waves [s] (electric) and [u]
    (stored magnetic), for the order [j]. *)
Definition fieldE {n} (kx ky : 'rV[C]_n) ic (s u : 'cV[C]_(n + n)) j : vec3 :=
  (s (lshift n j) 0, s (rshift n j) 0,
   (longitudinal_fields (usubmx s) (dsubmx s) (usubmx u) (dsubmx u) kx ky ic).1 j 0).
Definition fieldH {n} (kx ky : 'rV[C]_n) ic (s u : 'cV[C]_(n + n)) j : vec3 :=
  H_of_u (u (lshift n j) 0, u (rshift n j) 0,
   (longitudinal_fields (usubmx s) (dsubmx s) (usubmx u) (dsubmx u) kx ky ic).2 j 0).

