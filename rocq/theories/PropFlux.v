(** Properties C15, C17 and C18: the incident wave and the flux formula. *)
From Coq Require Import Reals Lra.
From mathcomp Require Import all_ssreflect all_algebra.
From Coquelicot Require Import Complex.
From Verif Require Import Base CField CFun SpecMaxwell ModelExpansion SpecExpansion ModelFlux
  ExpansionProofs IncidentProofs.
Set Implicit Arguments. Unset Strict Implicit. Unset Printing Implicit Defensive.
Import GRing.Theory.
Local Open Scope ring_scope.

(** ** C15 The incident plane wave is a unit transverse wave in the zero order.
    Outside the sliver 0 < |k_parallel| < 1e-8 the x and y amplitudes of the
    zero order are those of a vector orthogonal to k and of norm 1; TE waves
    have no z component; every other order is 0. *)
Theorem C15_unit_transverse (n : nat) (te tm : C) (x y z : R) (v : 'cV[C]_(n + n)) :
  (x = 0 /\ y = 0)%Re \/ (1 / 100000000 <= sqrt (x * x + y * y))%Re ->
  incident n te tm (RtoC x, RtoC y, RtoC z) true = Ok v ->
  exists (j0 : 'I_n) (sz : C),
  [/\ j0 = ((n - 1) %/ 2)%N :> nat,
      (forall j, j != j0 -> v (lshift n j) 0 = 0 /\ v (rshift n j) 0 = 0),
      dot3 (RtoC x, RtoC y, RtoC z) (v (lshift n j0) 0, v (rshift n j0) 0, sz) = 0,
      (abs2 (v (lshift n j0) 0%R) + abs2 (v (rshift n j0) 0%R) + abs2 sz = 1)%Re &
      tm = 0 -> sz = 0].
Proof. exact (@incident_transverse n te tm x y z v). Qed.
Print Assumptions C15_unit_transverse.

Theorem C15_defined (n : nat) (te tm : C) (x y z : R) :
  (x = 0 /\ y = 0)%Re \/ (1 / 100000000 <= sqrt (x * x + y * y))%Re ->
  (0 < n)%N -> (te, tm) <> (0, 0) ->
  is_ok (incident n te tm (RtoC x, RtoC y, RtoC z) true).
Proof. exact (@incident_def n te tm x y z). Qed.
Print Assumptions C15_defined.

(** Position (n-1)/2 is the zero order of every expansion. *)
Theorem C15_zero_order (e : expansion) : built e ->
  gth e ((size (e_g e) - 1) %/ 2) = (0%Re, 0%Re).
Proof. exact (fun h => let: And3 _ g _ := built_centred h in g). Qed.
Print Assumptions C15_zero_order.

Example C15_hypotheses_met :
  is_ok (incident 5 (RtoC 3) ci (RtoC 3, RtoC 4, RtoC 12) true).
Proof.
apply: C15_defined => //; last by case=> h _; lra.
by right; rewrite (_ : (_ + _ = 5 * 5)%Re); [rewrite sqrt_square; lra | ring].
Qed.

(** The TE frame at normal incidence is not the limit of the oblique one: for
    every in-plane wavevector along x above the threshold a TE wave is polarised
    along y, at normal incidence along x. *)
Theorem C15_normal_limit_refuted :
  exists te tm : C, forall (n : nat) (z : R), (0 < n)%N ->
  let zero_order := \col_(j < n) (if j == ((n - 1) %/ 2)%N :> nat then 1 else 0) in
  (forall x, (1 / 100000000 <= x)%Re ->
     incident n te tm (RtoC x, 0, RtoC z) true = Ok (col_mx 0 zero_order)) /\
  incident n te tm (0, 0, RtoC z) true = Ok (col_mx zero_order 0).
Proof. exact normal_limit_witness. Qed.
Print Assumptions C15_normal_limit_refuted.

(** Inside the sliver a TE wave with k_parallel along x is polarised along
    k_parallel: it is not transverse to k (with kx <> 0, ky = 0). *)
Theorem C15_sliver_refuted :
  exists (te tm : C) (x : R), (x <> 0)%Re /\ forall (n : nat) (z : R), (0 < n)%N ->
  incident n te tm (RtoC x, 0, RtoC z) true =
  Ok (col_mx (\col_(j < n) (if j == ((n - 1) %/ 2)%N :> nat then 1 else 0)) 0).
Proof. exact sliver_witness. Qed.
Print Assumptions C15_sliver_refuted.

(** ** C17 Reflectance and transmittance are non-negative: for every output
    amplitudes, order by order and in total. *)
Theorem C17_nonnegative (n : nat) (e : expansion) (c : 'cV[C]_(n + n)) (kp : C * C) (wl : R)
    (epsi epse : C) (t : 'rV[R]_n) :
  (0 < wl)%Re -> poynting_fluxes e c kp wl epsi epse = Ok t ->
  (forall j, (0 <= t 0%R j)%Re) /\ (0 <= total t)%Re.
Proof. exact (@fluxes_nonneg n e c kp wl epsi epse t). Qed.
Print Assumptions C17_nonnegative.

(** ** C18 Only the polarisation state matters, not its scale *)
Theorem C18_scale (n : nat) (te tm : C) (k : C * C * C) (c : R) :
  (0 < c)%Re ->
  incident n (RtoC c * te) (RtoC c * tm) k true = incident n te tm k true.
Proof. exact (@incident_scale n te tm k c). Qed.
Print Assumptions C18_scale.

Theorem C18_phase (n : nat) (te tm : C) (k : C * C * C) (w : C) (v : 'cV[C]_(n + n)) :
  Cmod w = 1%Re -> incident n te tm k true = Ok v ->
  incident n (w * te) (w * tm) k true = Ok (w *: v) /\
  forall (e : expansion) (A : 'M[C]_(n + n)) (kp : C * C) (wl : R) (epsi epse : C),
    poynting_fluxes e (A *m (w *: v)) kp wl epsi epse = poynting_fluxes e (A *m v) kp wl epsi epse.
Proof. exact (@phase_api n te tm k w v). Qed.
Print Assumptions C18_phase.

Example C18_hypotheses_met : Cmod ci = 1%Re /\ is_ok (incident 3 1 ci (0, 0, RtoC 2) true).
Proof.
split; first by rewrite /Cmod /=; rewrite (_ : (_ + _ = 1)%Re); [exact: sqrt_1 | ring].
by apply: C15_defined => //; [left | case=> h _; lra].
Qed.
