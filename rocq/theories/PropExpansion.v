(** Properties C14, C27, C28, C29, C65 and C67: lattices, expansions, k vectors. *)
From Coq Require Import Reals ZArith Lra.
From mathcomp Require Import all_ssreflect all_algebra.
From Coquelicot Require Import Complex.
From Verif Require Import Base CField CFun ModelExpansion SpecExpansion ExpansionProofs.
Set Implicit Arguments. Unset Strict Implicit. Unset Printing Implicit Defensive.
Import GRing.Theory.
Local Open Scope ring_scope.

(** ** C27 Reciprocal lattice duality *)
Theorem C27_duality (a1 a2 b1 b2 : vec2) :
  reciproc a1 a2 = Ok (b1, b2) ->
  det2 a1 a2 <> 0%Re /\
  [/\ dot2 a1 b1 = twopi, dot2 a1 b2 = 0%Re, dot2 a2 b1 = 0%Re & dot2 a2 b2 = twopi].
Proof. exact (@reciproc_ok a1 a2 b1 b2). Qed.
Print Assumptions C27_duality.

Theorem C27_defined_off_collinear (a1 a2 : vec2) :
  (det2 a1 a2 <> 0%Re -> is_ok (reciproc a1 a2)) /\
  (reciproc a1 a2 = Err NonFinite <-> det2 a1 a2 = 0%Re).
Proof. exact (conj (@reciproc_def a1 a2) (@reciproc_err a1 a2)). Qed.
Print Assumptions C27_defined_off_collinear.

Theorem C27_unique (a1 a2 b1 b2 c1 c2 : vec2) :
  reciproc a1 a2 = Ok (b1, b2) ->
  [/\ dot2 a1 c1 = twopi, dot2 a1 c2 = 0%Re, dot2 a2 c1 = 0%Re & dot2 a2 c2 = twopi] ->
  c1 = b1 /\ c2 = b2.
Proof. exact (@reciproc_unique a1 a2 b1 b2 c1 c2). Qed.
Print Assumptions C27_unique.

Theorem C27_area (a1 a2 b1 b2 : vec2) :
  reciproc a1 a2 = Ok (b1, b2) ->
  (unitcellarea b1 b2 * unitcellarea a1 a2 = twopi * twopi)%Re.
Proof. exact (@reciproc_area a1 a2 b1 b2). Qed.
Print Assumptions C27_area.

(** An oblique lattice. *)
Example C27_hypothesis_met : is_ok (reciproc (3%Re, 1%Re) (1%Re, 2%Re)).
Proof. by apply: reciproc_def; rewrite /det2 /=; lra. Qed.

(** ** C28 The expansion is complete, centred and symmetric *)
Theorem C28_complete (pw : nat * nat) (l : seq (Z * Z)) :
  generate_expansion_indices pw = Ok l ->
  let M := ((pw.1 - 1) %/ 2)%N in let N := ((pw.2 - 1) %/ 2)%N in
  [/\ size l = (pw.1 * pw.2)%N,
      forall i, (i < size l)%N -> Z.le (Z.abs (nth (Z0, Z0) l i).1) (Z.of_nat M) /\
                                  Z.le (Z.abs (nth (Z0, Z0) l i).2) (Z.of_nat N) &
      forall m n, Z.le (Z.abs m) (Z.of_nat M) -> Z.le (Z.abs n) (Z.of_nat N) ->
        exists! i, (i < size l)%N /\ nth (Z0, Z0) l i = (m, n)].
Proof. exact (fun h => And3 (indices_size h) (indices_bound h) (indices_once h)). Qed.
Print Assumptions C28_complete.

Theorem C28_centred_and_symmetric (pw : nat * nat) (l : seq (Z * Z)) :
  generate_expansion_indices pw = Ok l ->
  nth (Z0, Z0) l ((size l - 1) %/ 2) = (Z0, Z0) /\
  forall i, (i < size l)%N ->
    nth (Z0, Z0) l (size l - 1 - i) = (Z.opp (nth (Z0, Z0) l i).1, Z.opp (nth (Z0, Z0) l i).2).
Proof. exact (fun h => conj (indices_centre h) (indices_opposite h)). Qed.
Print Assumptions C28_centred_and_symmetric.

Theorem C28_even_rejected (pw : nat * nat) :
  (odd pw.1 -> odd pw.2 -> is_ok (generate_expansion_indices pw)) /\
  (forall e, generate_expansion_indices pw = Err e ->
     e = AssertionError /\ ~~ (odd pw.1 && odd pw.2)).
Proof. exact (conj (@indices_def pw) (@indices_err pw)). Qed.
Print Assumptions C28_even_rejected.

Example C28_example : generate_expansion_indices (3, 1)%N
  = Ok [:: (Zneg 1, Z0); (Z0, Z0); (Zpos 1, Z0)].
Proof. by []. Qed.

(** The same for the g-vectors of every expansion a program can build (by
    construction, rotation and addition): number, centre, central symmetry. *)
Theorem C28_every_expansion (e : expansion) :
  built e ->
  [/\ size (e_g e) = ((e_pw e).1 * (e_pw e).2)%N,
      gth e ((size (e_g e) - 1) %/ 2) = (0%Re, 0%Re) &
      forall i, (i < size (e_g e))%N -> gth e (size (e_g e) - 1 - i) = opp2 (gth e i)].
Proof. exact (@built_centred e). Qed.
Print Assumptions C28_every_expansion.

(** ** C29 The sum of two expansions is their Minkowski sum *)
Theorem C29_minkowski (e1 e2 e : expansion) :
  built e1 -> built e2 -> add_expansion e1 e2 = Ok e ->
  let n := size (e_g e1) in
  [/\ size (e_g e2) = n, size (e_g e) = (n * n)%N, ((e_pw e).1 * (e_pw e).2)%N = (n * n)%N,
      gth e ((size (e_g e) - 1) %/ 2) = (0%Re, 0%Re) &
      (forall i j, (i < n)%N -> (j < n)%N -> gth e (i * n + j) = add2 (gth e2 j) (gth e1 i)) /\
      (forall k, (k < n * n)%N -> gth e k = add2 (gth e2 (k %% n)) (gth e1 (k %/ n)))].
Proof. exact (@add_minkowski e1 e2 e). Qed.
Print Assumptions C29_minkowski.

(** The only failure: operands of different sizes. *)
Theorem C29_outcome (e1 e2 : expansion) :
  built e1 ->
  (size (e_g e1) = size (e_g e2) /\ is_ok (add_expansion e1 e2)) \/
  (size (e_g e1) <> size (e_g e2) /\ add_expansion e1 e2 = Err ValueError).
Proof. exact (fun h => add_outcome e2 (built_wf h)). Qed.
Print Assumptions C29_outcome.

(** Two twisted copies of a 3x3 expansion can be added. *)
Example C29_hypotheses_met : exists e,
  [/\ mk_expansion (3, 3)%N unit_lattice = Ok e, built (rotate 1%Re e) &
      is_ok (add_expansion e (rotate 1%Re e))].
Proof.
have [e he] : is_ok (mk_expansion (3, 3)%N unit_lattice).
  by rewrite /mk_expansion; have [b ->] := reciproc_unit; eexists.
exists e; have be := built_init he; split=> //; first exact: built_rotate.
case: (add_outcome (rotate 1%Re e) (built_wf be)) => -[]; first by [].
by rewrite /= size_map.
Qed.

(** ** C65 Rotating an expansion *)
Theorem C65_rotation (e : expansion) (s t : R) :
  [/\ forall i, len2 (gth (rotate t e) i) = len2 (gth e i),
      forall i, gth e i = (0%Re, 0%Re) -> gth (rotate t e) i = (0%Re, 0%Re),
      rotate s (rotate t e) = rotate (s + t)%Re e, rotate 0%Re e = e &
      rotate (- t)%Re (rotate t e) = e].
Proof. exact (rotate_facts e s t). Qed.
Print Assumptions C65_rotation.

(** ** C14 Dispersion relation and evanescent branch of the k vectors *)
Theorem C14_dispersion (e : expansion) (kp : C * C) (wl : R) (eps : C)
    (kx ky kz : 'rV[C]_(e_size e)) :
  built e -> k_vectors e kp wl eps = Ok (kx, ky, kz) ->
  snd kp.1 = 0%Re -> snd kp.2 = 0%Re ->
  forall j : 'I_(e_size e),
  [/\ RtoC (2 * PI / wl)%Re * kx 0 j = kp.1 + RtoC (gth e j).1,
      RtoC (2 * PI / wl)%Re * ky 0 j = kp.2 + RtoC (gth e j).2 &
      kx 0 j ^+ 2 + ky 0 j ^+ 2 + kz 0 j ^+ 2 = eps].
Proof. exact (@kvec_summary e kp wl eps kx ky kz). Qed.
Print Assumptions C14_dispersion.

(** Forward waves exp(-i kz z): propagating forward, and decaying in passive
    media (Im eps <= 0). *)
Theorem C14_branch (e : expansion) (kp : C * C) (wl : R) (eps : C)
    (kx ky kz : 'rV[C]_(e_size e)) :
  built e -> k_vectors e kp wl eps = Ok (kx, ky, kz) ->
  snd kp.1 = 0%Re -> snd kp.2 = 0%Re -> (0 < wl)%Re ->
  forall j, (0 <= fst (kz 0%R j))%Re /\ ((snd eps <= 0)%Re -> (snd (kz 0%R j) <= 0)%Re).
Proof. exact (fun h => @kvec_branch e kp wl eps kx ky kz (built_wf h)). Qed.
Print Assumptions C14_branch.

(** For real epsilon an order is either propagating or evanescent. *)
Theorem C14_real_epsilon (e : expansion) (kp : C * C) (wl eps : R)
    (kx ky kz : 'rV[C]_(e_size e)) :
  built e -> k_vectors e kp wl (RtoC eps) = Ok (kx, ky, kz) ->
  snd kp.1 = 0%Re -> snd kp.2 = 0%Re -> (0 < wl)%Re ->
  forall j, let q := (fst (kx 0%R j) * fst (kx 0%R j) + fst (ky 0%R j) * fst (ky 0%R j))%Re in
  ((q < eps)%Re -> snd (kz 0%R j) = 0%Re /\ (0 < fst (kz 0%R j))%Re) /\
  ((eps < q)%Re -> fst (kz 0%R j) = 0%Re /\ (snd (kz 0%R j) < 0)%Re).
Proof. exact (fun h hk hx hy hl j => @kvec_real e kp wl (RtoC eps) kx ky kz (built_wf h) hk hx hy hl j eps erefl). Qed.
Print Assumptions C14_real_epsilon.

Theorem C14_defined (e : expansion) (kp : C * C) (wl : R) (eps : C) :
  built e -> (wl <> 0)%Re -> is_ok (k_vectors e kp wl eps).
Proof. exact (fun h hl => k_vectors_def kp eps hl (wf_size (built_wf h))). Qed.
Print Assumptions C14_defined.

(** Without a real in-plane wavevector the relation fails: compute_kplanar
    returns a complex one for an absorbing or metallic incidence medium. *)
Theorem C14_complex_kp_refuted :
  exists (eps : C) (wl th ph : R) (e : expansion) (kp : C * C) kx ky kz,
  [/\ (snd eps < 0)%Re, built e, compute_kplanar eps wl th ph = Ok kp,
      k_vectors e kp wl 1 = Ok (kx, ky, kz) &
      exists j, kx 0 j ^+ 2 + ky 0 j ^+ 2 + kz 0 j ^+ 2 <> 1].
Proof. exact kvec_complex_refuted. Qed.
Print Assumptions C14_complex_kp_refuted.

(** ** C67 In-plane wavevector of the source *)
Theorem C67_source_wavevector (eps wl th ph : R) (kp : C * C) :
  (0 <= eps)%Re -> (0 < wl)%Re ->
  compute_kplanar (RtoC eps) wl th ph = Ok kp ->
  let k0 := (2 * PI / wl)%Re in let q := (sqrt eps * k0 * sin (deg2rad th))%Re in
  [/\ kp = (RtoC (q * cos (deg2rad ph))%Re, RtoC (q * sin (deg2rad ph))%Re),
      (fst kp.1 * fst kp.1 + fst kp.2 * fst kp.2 = q * q)%Re,
      source_kzi k0 (RtoC eps) kp = RtoC (sqrt eps * k0 * Rabs (cos (deg2rad th)))%Re &
      kp.1 ^+ 2 + kp.2 ^+ 2 + source_kzi k0 (RtoC eps) kp ^+ 2 = RtoC (eps * (k0 * k0))%Re].
Proof. exact (@kplanar_summary eps wl th ph kp). Qed.
Print Assumptions C67_source_wavevector.

Example C67_defined : is_ok (compute_kplanar (RtoC 2%Re) 1%Re 30%Re 45%Re).
Proof. by rewrite /compute_kplanar; case: Req_EM_T => h; [lra | eexists]. Qed.
