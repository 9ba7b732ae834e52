(** Properties C30, C31, C72 and C73: the sum of two lattices. *)
From Coq Require Import Reals Lra.
From mathcomp Require Import all_ssreflect all_algebra.
From Coquelicot Require Import Complex.
From Verif Require Import Base CField CFun ModelRedheffer SpecScatter ModelLayer ModelExpansion SpecExpansion ModelExtension ModelFourier
  ModelDevice SpecExtension ExtensionProofs JoinProofs ExtendedProofs ExtensionTheorems.
Set Implicit Arguments. Unset Strict Implicit. Unset Printing Implicit Defensive.
Import GRing.Theory.
Local Open Scope ring_scope.

(** ** C30 Joining the matrices of sub-lattices *)

(** Every entry of the joined matrix. *)
Theorem C30_entries (F : fieldType) N n (subs : seq 'M[F]_(N + N)) kind M :
  joint_subspace1 n subs kind = Ok M ->
  [/\ (0 < size subs <= N)%N, (kind <= 1)%N, n = (N * N)%N & joins kind subs M].
Proof. exact (@joint_subspace1E F N n subs kind M). Qed.
Print Assumptions C30_entries.

Theorem C30_defined (F : fieldType) N n (subs : seq 'M[F]_(N + N)) kind :
  is_ok (joint_subspace1 n subs kind) <-> [/\ (0 < size subs <= N)%N, (kind <= 1)%N & n = (N * N)%N].
Proof. exact (@joint_subspace1_ok F N n subs kind). Qed.
Print Assumptions C30_defined.

(** The positions of the spec are all the positions, each once. *)
Theorem C30_positions kind N i : (i < N * N + N * N)%N ->
  exists! t : nat * nat * nat, [/\ (t.1.1 < 2)%N, (t.1.2 < N)%N, (t.2 < N)%N & i = spot kind N t.1.1 t.1.2 t.2].
Proof. exact (@spot_unique kind N i). Qed.
Print Assumptions C30_positions.

(** The strided reads and writes stay inside the buffers ... *)
Theorem C30_inside kind N a b i r c : (kind <= 1)%N ->
  (a < 2)%N -> (b < 2)%N -> (i < N)%N -> (r < N)%N -> (c < N)%N ->
  (off_view kind N a b i r c < (2 * N ^ 2) * (2 * N ^ 2))%N /\ (off_sub N a b r c < (2 * N) * (2 * N))%N.
Proof. exact (@view_inside kind N a b i r c). Qed.
Print Assumptions C30_inside.

(** ... and no place is written twice. *)
Theorem C30_disjoint kind N a b i r c a' b' i' r' c' : (kind <= 1)%N ->
  (a < 2)%N -> (b < 2)%N -> (i < N)%N -> (r < N)%N -> (c < N)%N ->
  (a' < 2)%N -> (b' < 2)%N -> (i' < N)%N -> (r' < N)%N -> (c' < N)%N ->
  off_view kind N a b i r c = off_view kind N a' b' i' r' c' -> (a, b, i, r, c) = (a', b', i', r', c').
Proof. exact (@view_disjoint kind N a b i r c a' b' i' r' c'). Qed.
Print Assumptions C30_disjoint.

(** The places used are those of the summed expansion: the vector found there is
    the sum of the vectors of the two orders. *)
Theorem C30_vectors lhs rhs e who b x N m r : add_expansion lhs rhs = Ok e -> mk_extended e who b = Ok x ->
  size (e_g lhs) = N -> (m < N)%N -> (r < N)%N ->
  [/\ (x_mode x <= 1)%N, x_gs x = e_g (if who is IsLhs then rhs else lhs) &
   nth (0%Re, 0%Re) (e_g e) (place (x_mode x) N m r) =
     let g := nth (0%Re, 0%Re) (e_g (if who is IsLhs then lhs else rhs)) r in let h := nth (0%Re, 0%Re) (x_gs x) m in
     ((g.1 + h.1)%Re, (g.2 + h.2)%Re)].
Proof. exact (@sum_vectors lhs rhs e who x b N m r). Qed.
Print Assumptions C30_vectors.

(** Hence the matrix of an extended layer consists of those of its base, solved at
    the in-plane wavevectors shifted by the vectors of the other lattice. *)
Theorem C30_extended eig J1 n x kp wl (s : solved n) : extended_solve eig J1 n x kp wl = Ok s ->
  let b := x_base x in let N := e_size (l_exp b) in let base := Layer (l_exp b) (l_form b) (l_depth b) (x_fields x) in
  exists sols : seq (smat C_fieldType (N + N)),
  [/\ size sols = size (x_gs x), (0 < size (x_gs x) <= N)%N, n = (N * N)%N,
      forall m, (m < size (x_gs x))%N -> exists s', layer_solve eig J1 N base (shift_kp (nth (0%Re, 0%Re) (x_gs x) m) kp) wl = Ok s' /\
        sl_S s' = Some (nth (S0 C_fieldType N) sols m) &
      exists S, [/\ sl_S s = Some S, joins (x_mode x) (map (@s11 _ _) sols) (s11 S), joins (x_mode x) (map (@s12 _ _) sols) (s12 S),
                    joins (x_mode x) (map (@s21 _ _) sols) (s21 S) & joins (x_mode x) (map (@s22 _ _) sols) (s22 S)]].
Proof. exact (@extended_entries eig J1 n x kp wl s). Qed.
Print Assumptions C30_extended.

Example C30_defined_met : is_ok (joint_subspace1 9 [:: 1%:M; 2%:M; 3%:M : 'M[rat_fieldType]_(3 + 3)] 1).
Proof. by apply/C30_defined. Qed.
Example C30_extended_met eig J1 : exists x, is_ok (extended_solve eig J1 9 x (0, 0) (/ 10)%Re).
Proof. by have [e [es [x [_ _ _ _ h]]]] := twisted_pair eig J1; exists x. Qed.

(** ** C31 Joining and stacking *)
Theorem C31_stacking (F : fieldType) N kind p (SA SB : seq (smat F (N + N))) A B : size SA = size SB ->
  joint_subspace p SA kind = Ok A -> joint_subspace p SB kind = Ok B ->
  redheffer_product A B = do P <- mapM (fun q => redheffer_product q.1 q.2) (zip SA SB); joint_subspace p P kind.
Proof. exact (@stacking_commutes F N kind p SA SB A B). Qed.
Print Assumptions C31_stacking.

Example C31_stacking_met (F : fieldType) : let S (c : F) := Smat (c%:M) (1%:M) (2%:R%:M) (- c)%:M : smat F (2 + 2) in
  is_ok (joint_subspace 4 [:: S 1; S 2%:R] 1) /\ is_ok (joint_subspace 4 [:: S 3%:R; S 0] 1).
Proof. by move=> S; split; rewrite (@joint_subspace_ok F 2 1) //; eexists. Qed.

Theorem C31_identity (F : fieldType) N kind : (0 < N)%N -> (kind <= 1)%N ->
  joint_subspace (N * N) (nseq N (scattering_identity F (N + N))) kind = Ok (scattering_identity F (N * N + N * N)).
Proof. exact (@identity_joined F N kind). Qed.
Print Assumptions C31_identity.

(** A stack of joined layers, all on one lattice: the copies do not mix. *)
Theorem C31_device (N kind p : nat) layers Js mask Sls Srs (Stot : smat C_fieldType (p + p)) : (0 < size layers)%N ->
  (forall l, List.In l layers -> size l = N) ->
  mapM (fun l => joint_subspace p l kind) layers = Ok Js -> stack_layers Js mask = Ok (Sls, Srs, Stot) ->
  exists2 T : seq (smat C_fieldType (N + N)), joint_subspace p T kind = Ok Stot &
    size T = N /\ forall m, (m < N)%N -> exists sls srs,
      stack_layers [seq nth (S0 C_fieldType N) l m | l <- layers] mask = Ok (sls, srs, nth (S0 C_fieldType N) T m).
Proof. exact (@device_copies N kind p layers Js mask Sls Srs Stot). Qed.
Print Assumptions C31_device.

Example C31_device_met : exists layers Js r, [/\ size layers = 2%N,
  forall l : seq (smat C_fieldType (3 + 3)), List.In l layers -> size l = 3%N,
  mapM (fun l => joint_subspace 9 l 1) layers = Ok Js &
  stack_layers (n := 9) Js [:: true; false] = Ok r].
Proof. exact device_copies_met. Qed.

(** ** C72 Extended uniform layers *)

(** An extended uniform layer is the uniform layer of the summed expansion: same
    scattering matrix, modes and eigenvalues, and its free modes are those of the sum. *)
Theorem C72_uniform eig J1 lhs rhs e who b eps x n kp wl s :
  built lhs -> built rhs -> add_expansion lhs rhs = Ok e ->
  l_exp b = (if who is IsLhs then lhs else rhs) -> l_form b = UNIFORM eps -> mk_extended e who b = Ok x ->
  extended_solve eig J1 n x kp wl = Ok s ->
  exists s', [/\ layer_solve eig J1 n (Layer e (UNIFORM eps) (l_depth b) (l_fields b)) kp wl = Ok s',
    sl_S s = sl_S s', sl_modes s = sl_modes s' &
    l_fields b -> exists2 k, krows n e kp wl 1 = Ok k & exists2 f, free_space_eigenmodes k.1.1 k.1.2 = Ok f & sl_free s = Some f].
Proof. exact (@extended_uniform_built eig J1 lhs rhs e who b eps x n kp wl s). Qed.
Print Assumptions C72_uniform.

(** Two gratings of three orders, one turned by a radian. *)
Example C72_hypotheses_met eig J1 : exists e es x, [/\ built e, add_expansion e (rotate 1%Re e) = Ok es,
  mk_extended es IsLhs (Layer e (UNIFORM 1) 3%Re true) = Ok x, e_size es = 9%N &
  is_ok (extended_solve eig J1 9 x (0, 0) (/ 10)%Re)].
Proof. exact (twisted_pair eig J1). Qed.

(** ** C73 The inverse permittivity of an extended layer *)

(** It is 1, whatever the layer is made of, so the longitudinal electric field is
    computed with a permittivity of 1. *)
Theorem C73_inverse_refuted eig J1 : exists e es x (s s' : solved 1), [/\ built e, add_expansion e e = Ok es,
  mk_extended es IsLhs (Layer e (UNIFORM (RtoC 2 * RtoC 2)) 3%Re true) = Ok x,
  extended_solve eig J1 1 x (0, 0) 1%Re = Ok s /\
  layer_solve eig J1 1 (Layer es (UNIFORM (RtoC 2 * RtoC 2)) 3%Re true) (0, 0) 1%Re = Ok s' &
  sl_modes s = sl_modes s' /\ sl_IC s <> sl_IC s'].
Proof. exact (extended_glass eig J1). Qed.
Print Assumptions C73_inverse_refuted.
