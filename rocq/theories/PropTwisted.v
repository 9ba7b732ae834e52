(** C79, C80: layers and devices of several lattices. *)
From Coq Require Import Reals ZArith Lra String.
From mathcomp Require Import all_ssreflect all_algebra.
From Coquelicot Require Import Complex.
From Verif Require Import Base CField CFun ModelRedheffer SpecScatter ModelLayer SpecLayer SpecEig ModelExpansion SpecExpansion
  ModelFlux ModelFourier ModelExtension ModelDevice SpecDevice SpecExtension LayerRoutes SpecTwisted ExtensionTheorems TwistedTheorems TwistedExamples.
Set Implicit Arguments. Unset Strict Implicit. Unset Printing Implicit Defensive.
Import GRing.Theory.
Local Open Scope ring_scope.

(** ** C79 An extended structured layer is a structured slab of the summed lattice *)
(** Joining the scattering matrices of a pixmap, uniform or analytical layer,
    solved once per wavevector of the other lattice, gives the scattering matrix
    that the slab formulas give on the orders of the sum, for the permittivity that
    acts on the layer's own orders and leaves the orders of the other lattice alone. *)
Theorem C79_structured eig J1 lhs rhs e who b x kp wl : eigen_equation eig ->
  built lhs -> built rhs -> add_expansion lhs rhs = Ok e ->
  l_exp b = (if who is IsLhs then lhs else rhs) -> is_slab (l_form b) -> mk_extended e who b = Ok x ->
  let N := e_size (l_exp b) in
  forall s, extended_solve eig J1 (N * N) x kp wl = Ok s ->
  exists kx ky kz f (Cm : 'M[C]_N) (CJ : 'M[C]_(N * N)) W V lam Sm,
  [/\ krows (N * N) e kp wl 1 = Ok (kx, ky, kz) /\ free_space_eigenmodes kx ky = Ok f,
      permittivity_matrix J1 (l_exp b) (l_form b) Cm /\ acts_on_own (if who is IsLhs then 1 else 0) Cm CJ,
      CJ \in unitmx /\ modal_decomposition (structured_P kx ky (invmx CJ)) (structured_Q kx ky CJ) W V lam,
      build_scatmat W V f.1 f.2 lam (l_depth b) (2 * PI / wl)%Re = Ok Sm &
      sl_S s = Some Sm].
Proof. exact (@th_structured eig J1 lhs rhs e who b x kp wl). Qed.
Print Assumptions C79_structured.

(** A layer of a three-order grating in the sum with its copy turned by one radian. *)
Example C79_hypotheses_met J1 : exists e es x, [/\ eigen_equation scalar_eig, built e, add_expansion e (rotate 1%Re e) = Ok es,
  mk_extended es IsLhs (Layer e (UNIFORM 1) 3%Re true) = Ok x &
  e_size es = 9%N /\ is_ok (extended_solve scalar_eig J1 9 x (0, 0) (/ 10)%Re)].
Proof.
have [e [es [x [h1 h2 h3 h4 h5]]]] := twisted_pair scalar_eig J1; exists e, es, x.
by split=> //; exact: scalar_eig_ok.
Qed.

(** ** C80 Energy balance of devices with layers of several lattices *)
Theorem C80_lossless eig J1 (n : nat) (ei ee : R) (c0 c c' : crystal n) (ops : seq op) (R T : R) : eigen_equation eig ->
  created c0 false (RtoC ei) (RtoC ee) -> all_calls (slab_call (fun f _ => lossless_slab f) (c_exp c0)) ops ->
  history eig J1 c0 ops c -> step eig J1 c Solve c' -> good_source c' -> poynting_flux_end c' = Ok (R, T) -> (R + T = 1)%Re.
Proof. exact (@th_twisted_lossless eig J1 n ei ee c0 ops c c' R T). Qed.
Print Assumptions C80_lossless.
Example C80_lossless_met J1 : eigen_equation scalar_eig /\ exists (c0 c c' : crystal 9) ops RT,
  [/\ created c0 false (RtoC 1%Re) (RtoC 1%Re), all_calls (slab_call (fun f _ => lossless_slab f) (c_exp c0)) ops /\
      (exists name who l, List.In (AddExtended name who l) ops), history scalar_eig J1 c0 ops c &
      [/\ step scalar_eig J1 c Solve c', good_source c' & poynting_flux_end c' = Ok RT]].
Proof. by split; [exact: scalar_eig_ok|exact: twisted_energy]. Qed.

Theorem C80_passive eig J1 (n : nat) (ei ee : R) (c0 c c' : crystal n) (ops : seq op) (R T : R) : eigen_equation eig ->
  created c0 false (RtoC ei) (RtoC ee) ->
  all_calls (slab_call (fun f d => passive_slab f /\ (0 <= d)%Re) (c_exp c0)) ops ->
  history eig J1 c0 ops c -> step eig J1 c Solve c' -> good_source c' -> poynting_flux_end c' = Ok (R, T) -> (R + T <= 1)%Re.
Proof. exact (@th_twisted_passive eig J1 n ei ee c0 ops c c' R T). Qed.
Print Assumptions C80_passive.
Example C80_passive_met J1 : eigen_equation scalar_eig /\ exists (c0 c c' : crystal 9) ops RT,
  [/\ created c0 false (RtoC 1%Re) (RtoC 1%Re), all_calls (slab_call (fun f d => passive_slab f /\ (0 <= d)%Re) (c_exp c0)) ops /\
      (exists name who l, List.In (AddExtended name who l) ops), history scalar_eig J1 c0 ops c &
      [/\ step scalar_eig J1 c Solve c', good_source c' & poynting_flux_end c' = Ok RT]].
Proof. by split; [exact: scalar_eig_ok|apply: twisted_energy; split=> /=; lra]. Qed.
