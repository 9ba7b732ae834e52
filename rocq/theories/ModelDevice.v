(** Model of the layer objects of khepri/layer.py and khepri/extension.py and of
    the Crystal class of khepri/crystal.py.  Definitions only. *)
From Coq Require Import Reals ZArith String.
From mathcomp Require Import all_ssreflect all_algebra.
From Coquelicot Require Import Complex Rbar.
From Verif Require Import Base CField CFun ModelRedheffer ModelLayer ModelExpansion ModelFlux
  ModelFourier ModelExtension StringEq.
Set Implicit Arguments. Unset Strict Implicit. Unset Printing Implicit Defensive.
Import GRing.Theory.
Local Open Scope ring_scope.

(** * Layers *)

(** khepri/layer.py:19-24 with the data each formulation needs (:95-143).
    [NoFormulation] is a half_infinite layer built with an unknown type: "ERROR"
    is printed and the formulation stays None. *)
Inductive formulation :=
| FFT (pixmap : array2)
| UNIFORM (epsilon : C)
| ANALYTICAL (islands : seq (shape * C)) (eps_host : C)
| HALF_SPACE_INC (epsilon : C)
| HALF_SPACE_TRN (epsilon : C)
| NoFormulation.

(** khepri/layer.py:63-74 the attributes set by the user. *)
Record layer := Layer
  { l_exp : expansion; l_form : formulation; l_depth : R; l_fields : bool }.

(** khepri/layer.py:95-143 the constructors; fields starts as False (:74). *)
Definition layer_pixmap e pixmap depth := Layer e (FFT pixmap) depth false.
Definition layer_uniform e epsilon depth := Layer e (UNIFORM epsilon) depth false.
Definition layer_analytical e islands host depth := Layer e (ANALYTICAL islands host) depth false.
Definition half_infinite e (type : string) epsilon :=
  if String.eqb type "reflexion" then Layer e (HALF_SPACE_INC epsilon) 0%Re false
  else if String.eqb type "transmission" then Layer e (HALF_SPACE_TRN epsilon) 0%Re false
  else Layer e NoFormulation 0%Re false.

(** khepri/layer.py:76-92 pixmap_or_uniform (and khepri/crystal.py:104-112): the
    picture must have a first pixel. *)
Definition all_equal (A : array2) (v : C) : bool :=
  [forall x : 'I_(a_rows A), forall y : 'I_(a_cols A), a_at A x y == v].
Definition pixmap_or_uniform (e : expansion) (pixmap : array2) (depth : R) : res layer :=
  if (a_rows pixmap == 0%N) || (a_cols pixmap == 0%N) then Err IndexError else
  let eps0 := a_at pixmap 0 0 in
  if all_equal pixmap eps0 then Ok (layer_uniform e eps0 depth) else Ok (layer_pixmap e pixmap depth).

(** What a solved layer object holds: S, and (W, V, L), IC when the fields are
    kept.  IC is a number or a matrix.  [sl_free] are W0, V0 of an ExtendedLayer. *)
Record solved (n : nat) := Solved
  { sl_S : option (smat C_fieldType (n + n));
    sl_modes : option ('M[C]_(n + n) * 'M[C]_(n + n) * 'rV[C]_(n + n));
    sl_IC : option (C + 'M[C]_n);
    sl_free : option ('M[C]_(n + n) * 'M[C]_(n + n)) }.

Section Oracles.
(** numpy.linalg.eig (khepri/alternative.py:173) and scipy.special.jv(1, .). *)
Variable eig : forall m, 'M[C]_m -> 'rV[C]_m * 'M[C]_m.
Variable J1 : R -> R.

(** 1 / epsilon (khepri/layer.py:178, :183, :188). *)
Definition one_over (eps : C) : res C := if eps == 0 then Err ZeroDivisionError else Ok eps^-1.

(** khepri/layer.py:162-168: the convolution matrix of an analytical layer
    (.T of a 1-D array is the array itself).  :170 computes the masks with
    inverse=True as well and drops the result, but may raise. *)
Definition analytical_matrix (n : nat) (e : expansion) (islands : seq (shape * C)) (host : C) : res 'M[C]_n :=
  do ge <- g_vectors_expanded e 3;
  do data <- mapM (fun isl => do t <- transform J1 isl.1 ge.1 (e_sigma e); Ok (t, isl.2)) islands;
  do fourier <- combine_fourier_masks data host false;
  do A <- reshape fourier ge.2;
  do M <- convolution_matrix_fourier n A (e_pw e);
  do unused <- combine_fourier_masks data host true;
  Ok M.

(** khepri/layer.py:145-194 Layer.solve.  When [l_fields] is False the modes are
    dropped (:190-194). *)
Definition layer_solve (n : nat) (l : layer) (kp : C * C) (wavelength : R) : res (solved n) :=
  do k <- krows n (l_exp l) kp wavelength 1;
  let kx := k.1.1 in let ky := k.1.2 in
  do f <- free_space_eigenmodes kx ky;
  let W0 := f.1 in let V0 := f.2 in
  let k0 := (2 * PI / wavelength)%Re in
  let keep S (m : 'M[C]_(n + n) * 'M[C]_(n + n) * 'rV[C]_(n + n)) (IC : C + 'M[C]_n) :=
    if l_fields l then Solved (Some S) (Some m) (Some IC) None
    else Solved (Some S) None None None in
  let structured Cm :=
    do IC <- inv Cm;
    do m <- solve_structured_layer (@eig _) kx ky Cm;
    do S <- build_scatmat m.1.1 m.1.2 W0 V0 m.2 (l_depth l) k0;
    Ok (keep S m (inr IC)) in
  match l_form l with
  | FFT pixmap =>
      do Cm <- convolution_matrix n pixmap (e_pw (l_exp l));
      structured Cm
  | ANALYTICAL islands host =>
      do Cm <- analytical_matrix n (l_exp l) islands host;
      structured Cm
  | UNIFORM eps =>
      do m <- solve_uniform_layer kx ky eps 1;
      do S <- build_scatmat m.1.1 m.1.2 W0 V0 m.2 (l_depth l) k0;
      do ic <- one_over eps;
      Ok (keep S m (inl ic))
  | HALF_SPACE_INC eps =>
      do r <- scattering_reflection kx ky W0 V0 eps 1;
      do ic <- one_over eps;
      Ok (keep r.1.1.1 (r.1.1.2, r.1.2, r.2) (inl ic))
  | HALF_SPACE_TRN eps =>
      do r <- scattering_transmission kx ky W0 V0 eps 1;
      do ic <- one_over eps;
      Ok (keep r.1.1.1 (r.1.1.2, r.1.2, r.2) (inl ic))
  | NoFormulation => Ok (Solved None None None None)
  end.

(** khepri/extension.py:66-80 an ExtendedLayer of a Layer.  [x_mode] is 1 when the
    base's expansion is the left operand of the sum, 0 when it is the right one;
    [x_gs] are the g-vectors of the other operand. *)
Record extended := Extended
  { x_exp : expansion; x_mode : nat; x_gs : seq vec2; x_base : layer; x_fields : bool }.

(** Which operand of the sum is the very object base.expansion: the code
    compares object identities, khepri/extension.py:68, :71. *)
Inductive operand := IsLhs | IsRhs | IsNeither.
Definition mk_extended (e : expansion) (who : operand) (base : layer) : res extended :=
  match e_lhs_rhs e with
  | None => Err AttributeError
  | Some (lhs, rhs) =>
      match who with
      | IsLhs => Ok (Extended e 1 rhs base (l_fields base))
      | IsRhs => Ok (Extended e 0 lhs base (l_fields base))
      | IsNeither => Err NotImplementedError
      end
  end.

Definition shift_kp (g : vec2) (kp : C * C) : C * C := (RtoC g.1 + kp.1, RtoC g.2 + kp.2).

(** khepri/extension.py:114-126 extended_freespace. *)
Definition extended_freespace (N n : nat) (e : expansion) (gs : seq vec2) (wl : R) (mode : nat)
    (kp : C * C) : res ('M[C]_(n + n) * 'M[C]_(n + n)) :=
  do m <- mapM (fun g => do k <- krows N e (shift_kp g kp) wl 1;
                         free_space_eigenmodes k.1.1 k.1.2) gs;
  do W0 <- joint_subspace1 n (map fst m) mode;
  do V0 <- joint_subspace1 n (map snd m) mode;
  Ok (W0, V0).

Definition get {A} (x : option A) (e : exn) : res A := if x is Some a then Ok a else Err e.

(** The diagonal of a matrix: np.diag (khepri/extension.py:110). *)
Definition diag_of {m} (M : 'M[C]_m) : 'rV[C]_m := \row_j M j j.

(** khepri/extension.py:82-112 ExtendedLayer.solve.  The base is solved with the
    fields flag of the extended layer (:87-88).  An unsolvable base (S None)
    raises AttributeError at S.copy(). *)
Definition extended_solve (n : nat) (x : extended) (kp : C * C) (wl : R) : res (solved n) :=
  let b := x_base x in
  let N := e_size (l_exp b) in
  let base := Layer (l_exp b) (l_form b) (l_depth b) (x_fields x) in
  do sols <- mapM (fun g => layer_solve N base (shift_kp g kp) wl) (x_gs x);
  do Ss <- mapM (fun s => get (sl_S s) AttributeError) sols;
  do S <- joint_subspace n Ss (x_mode x);
  if x_fields x then
    do ms <- mapM (fun s => get (sl_modes s) AttributeError) sols;
    do W <- joint_subspace1 n [seq m.1.1 | m <- ms] (x_mode x);
    do V <- joint_subspace1 n [seq m.1.2 | m <- ms] (x_mode x);
    do f <- extended_freespace N n (l_exp b) (x_gs x) wl (x_mode x) kp;
    do L <- joint_subspace1 n [seq diag_mx m.2 | m <- ms] (x_mode x);
    Ok (Solved (Some S) (Some (W, V, diag_of L)) (Some (inl 1)) (Some f))
  else Ok (Solved (Some S) None (Some (inl 1)) None).

(** The objects a Crystal's dictionary of layers may hold. *)
Inductive layer_obj := Plain (l : layer) | Ext (x : extended).
Definition obj_depth o := match o with Plain l => l_depth l | Ext x => l_depth (x_base x) end.
Definition obj_fields o := match o with Plain l => l_fields l | Ext x => x_fields x end.
(** khepri/crystal.py:161-164: fields |= enabled (also on the base). *)
Definition obj_enable (b : bool) o :=
  match o with
  | Plain l => Plain (Layer (l_exp l) (l_form l) (l_depth l) (l_fields l || b))
  | Ext x =>
      let l := x_base x in
      Ext (Extended (x_exp x) (x_mode x) (x_gs x)
            (Layer (l_exp l) (l_form l) (l_depth l) (l_fields l || b)) (x_fields x || b))
  end.
Definition obj_solve (n : nat) (o : layer_obj) (kp : C * C) (wl : R) : res (solved n) :=
  match o with Plain l => layer_solve n l kp wl | Ext x => extended_solve n x kp wl end.

(** * Stacking *)
Section Stack.
Variable n : nat.
Notation S_t := (smat C_fieldType (n + n)).

(** mask[i] *)
Definition mask_at (mask : seq bool) (i : nat) : res bool :=
  if (i < size mask)%N then Ok (nth false mask i) else Err IndexError.

(** khepri/layer.py:40-47. *)
Fixpoint stack_left (Stot : S_t) (i : nat) (layers : seq S_t) (mask : seq bool) :
    res (seq (option S_t) * S_t) :=
  match layers with
  | [::] => Ok ([::], Stot)
  | Si :: rest =>
      do Stot' <- redheffer_product Stot Si;
      do m <- mask_at mask i;
      do r <- stack_left Stot' i.+1 rest mask;
      Ok ((if m then Some Stot' else None) :: r.1, r.2)
  end.
(** khepri/layer.py:49-58 (before the reversal): [layers] and [mask] are the
    reversed tails. *)
Fixpoint stack_right (Srev : S_t) (i : nat) (layers : seq S_t) (mask : seq bool) :
    res (seq (option S_t)) :=
  match layers with
  | [::] => Ok [:: Some Srev]
  | Si :: rest =>
      do m <- mask_at mask i;
      do Srev' <- redheffer_product Si Srev;
      do r <- stack_right Srev' i.+1 rest mask;
      Ok ((if m then Some Srev else None) :: r)
  end.
(** khepri/layer.py:35-60 stack_layers: (Sls, Srs, Stot). *)
Definition stack_layers (layers : seq S_t) (mask : seq bool) :
    res (seq (option S_t) * seq (option S_t) * S_t) :=
  do l <- stack_left (scattering_identity C_fieldType (n + n)) 0 layers mask;
  do r <- stack_right (scattering_identity C_fieldType (n + n)) 0 (rev (behead layers)) (rev (behead mask));
  Ok (l.1, rev r, l.2).

(** * The Crystal *)

(** khepri/crystal.py:348-354 the source. *)
Record source := Source { s_te : C; s_tm : C; s_theta : R; s_phi : R; s_wl : R }.

(** What solve() leaves behind, khepri/crystal.py:197-206. *)
Record solution := Solution
  { r_positions : seq Rbar; r_Sls : seq (option S_t); r_Srs : seq (option S_t); r_S : S_t }.

(** A layer object with what its last solve left in it. *)
Definition entry := (layer_obj * option (solved n))%type.

(** khepri/crystal.py:42-81.  c_global and c_mask are set by set_device, c_kp and
    c_kzi are meaningful when c_source is.  Simplified: the dictionary holds layer
    values, so one layer object registered under two names is two layers here; and
    after an exception the object is not used any more. *)
Record crystal := Crystal
  { c_void : bool; c_epsi : C; c_epse : C; c_exp : expansion;
    c_layers : seq (string * entry);
    c_device : option (seq string * seq string * seq bool);
    c_source : option source; c_kp : C * C; c_kzi : C;
    c_solution : option solution }.

(** Python dictionaries, in insertion order. *)
Fixpoint dict_get {A} (d : seq (string * A)) (k : string) : option A :=
  match d with [::] => None | (k', v) :: r => if k' == k then Some v else dict_get r k end.
Fixpoint dict_set {A} (d : seq (string * A)) (k : string) (v : A) : seq (string * A) :=
  match d with
  | [::] => [:: (k, v)]
  | (k', v') :: r => if k' == k then (k', v) :: r else (k', v') :: dict_set r k v
  end.

(** khepri/crystal.py:60-74 the lattice. *)
Inductive lattice_arg := LatticeName (s : string) | LatticeVectors (l : vec2 * vec2).
Definition crystal_lattice (a : R) (l : lattice_arg) : res (vec2 * vec2) :=
  match l with
  | LatticeVectors v => Ok v
  | LatticeName s =>
      if String.eqb s "square" then Ok ((a * 1, a * 0)%Re, (a * 0, a * 1)%Re)
      else if String.eqb s "hexagonal" then
        Ok ((a * (sqrt 3 / 2), a * (1 / 2))%Re, (a * (sqrt 3 / 2), a * - (1 / 2))%Re)
      else Err NotImplementedError
  end.

Definition crystal_of (e : expansion) (void : bool) (epsi epse : C) : crystal :=
  Crystal void epsi epse e [::] None None (0, 0) 0 None.

(** khepri/crystal.py:42-81 Crystal.__init__.  The size n of the model is prod(pw). *)
Definition mk_crystal (pw : nat * nat) (l : lattice_arg) (a : R) (void : bool) (epsi epse : C) :
    res crystal :=
  do lat <- crystal_lattice a l;
  do e <- mk_expansion pw lat;
  if e_size e != n then Err ValueError else Ok (crystal_of e void epsi epse).

(** khepri/crystal.py:83-95 from_expansion: built with the pw of the expansion
    and the default or given lattice, then the expansion is replaced. *)
Definition from_expansion (e : expansion) (l : lattice_arg) (a : R) (void : bool) (epsi epse : C) :
    res crystal :=
  do c <- mk_crystal (e_pw e) l a void epsi epse;
  Ok (crystal_of e void epsi epse).

(** khepri/crystal.py:404-406 Multilayer. *)
Definition multilayer (epsi epse : C) : res crystal :=
  mk_crystal (1%N, 1%N) (LatticeName "square") 1%Re false epsi epse.

Definition with_layers (c : crystal) d : crystal :=
  Crystal (c_void c) (c_epsi c) (c_epse c) (c_exp c) d (c_device c) (c_source c) (c_kp c) (c_kzi c)
    (c_solution c).

(** khepri/crystal.py:125-129 add_layer (extended=False), and the wrappers
    :97-123, which use the crystal's expansion. *)
Definition add_obj (c : crystal) (name : string) (o : layer_obj) : crystal :=
  with_layers c (dict_set (c_layers c) name (o, None)).
Definition add_layer c name (l : layer) := add_obj c name (Plain l).
Definition add_layer_uniform c name eps depth := add_layer c name (layer_uniform (c_exp c) eps depth).
Definition add_layer_pixmap c name pixmap depth := add_layer c name (layer_pixmap (c_exp c) pixmap depth).
Definition add_layer_analytical c name islands host depth :=
  add_layer c name (layer_analytical (c_exp c) islands host depth).
Definition add_pixmap_or_uniform c name pixmap depth : res crystal :=
  do l <- pixmap_or_uniform (c_exp c) pixmap depth; Ok (add_layer c name l).
(** khepri/crystal.py:126-127 add_layer with extended=True. *)
Definition add_layer_extended c name (who : operand) (l : layer) : res crystal :=
  do x <- mk_extended (c_exp c) who l; Ok (add_obj c name (Ext x)).

Definition Sref : string := "Sref".
Definition Strans : string := "Strans".

(** khepri/crystal.py:136-141 global_stacking. *)
Definition global_stacking (void : bool) (stack : seq string) : seq string :=
  if void then stack else Sref :: rcons stack Strans.

(** khepri/crystal.py:161-164. *)
Fixpoint enable_fields (d : seq (string * entry)) (l : seq (string * bool)) : res (seq (string * entry)) :=
  match l with
  | [::] => Ok d
  | (name, enabled) :: r =>
      match dict_get d name with
      | None => Err KeyError
      | Some e => enable_fields (dict_set d name (obj_enable enabled e.1, e.2)) r
      end
  end.

(** khepri/crystal.py:155-159: the mask argument is a bool or a list. *)
Definition device_mask (stack : seq string) (mask : bool + seq bool) : seq bool :=
  true :: rcons (match mask with inl b => nseq (size stack) b | inr m => m end) true.

(** khepri/crystal.py:143-153: the default outer media. *)
Definition add_default (d : seq (string * entry)) (required : seq string) (name type : string)
    (e : expansion) (eps : C) : seq (string * entry) :=
  if (name \in required) && (if dict_get d name is None then true else false) then
    dict_set d name (obj_enable true (Plain (half_infinite e type eps)), None)
  else d.

(** khepri/crystal.py:131-164 set_device. *)
Definition set_device (c : crystal) (stack : seq string) (fields_mask : bool + seq bool) : res crystal :=
  let g := global_stacking (c_void c) stack in
  let d1 := add_default (c_layers c) g Sref "reflexion" (c_exp c) (c_epsi c) in
  let d2 := add_default d1 g Strans "transmission" (c_exp c) (c_epse c) in
  let m := device_mask stack fields_mask in
  do d3 <- enable_fields d2 (zip g m);
  Ok (Crystal (c_void c) (c_epsi c) (c_epse c) (c_exp c) d3 (Some (stack, g, m)) (c_source c)
        (c_kp c) (c_kzi c) (c_solution c)).

(** khepri/crystal.py:166-171 depth. *)
Definition crystal_depth (c : crystal) : res R :=
  do dev <- get (c_device c) AttributeError;
  do ds <- mapM (fun name => do e <- get (dict_get (c_layers c) name) KeyError; Ok (obj_depth e.1)) dev.1.1;
  Ok (foldl Rplus 0%Re ds).

(** khepri/crystal.py:345-360 set_source; kp given or computed from the angles. *)
Definition set_source (c : crystal) (wavelength : R) (te tm : C) (theta phi : R) (kp : option (C * C)) :
    res crystal :=
  do kp' <- match kp with
            | Some k => Ok k
            | None => compute_kplanar (c_epsi c) wavelength theta phi
            end;
  if Req_EM_T wavelength 0%Re then Err ZeroDivisionError else
  let k0 := (2 * PI / wavelength)%Re in
  Ok (Crystal (c_void c) (c_epsi c) (c_epse c) (c_exp c) (c_layers c) (c_device c)
        (Some (Source te tm theta phi wavelength)) kp' (source_kzi k0 (c_epsi c) kp') (c_solution c)).

(** khepri/crystal.py:183-186.  [order] is the order in which Python iterates over
    the set of required names. *)
Fixpoint solve_all (d : seq (string * entry)) (order : seq string) (kp : C * C) (wl : R) :
    res (seq (string * entry)) :=
  match order with
  | [::] => Ok d
  | name :: r =>
      do e <- get (dict_get d name) KeyError;
      do s <- obj_solve n e.1 kp wl;
      solve_all (dict_set d name (e.1, Some s)) r kp wl
  end.

(** np.cumsum (khepri/crystal.py:197). *)
Fixpoint cumsum_from (acc : R) (l : seq R) : seq R :=
  match l with [::] => [::] | x :: r => (acc + x)%Re :: cumsum_from (acc + x)%Re r end.
(** khepri/crystal.py:197-200 stack_positions. *)
Definition stack_positions (void : bool) (sizes : seq R) : res (seq Rbar) :=
  match rev (cumsum_from 0%Re sizes) with
  | [::] => Err IndexError
  | _ :: r =>
      let p := rcons [seq Finite x | x <- rev r] p_infty in
      Ok (if void then p else m_infty :: p)
  end.

(** The S attribute of a layer: None makes the product raise TypeError; a missing
    attribute (never solved) cannot happen after solve_all. *)
Definition entry_S (e : entry) : res S_t :=
  do s <- get e.2 AttributeError; get (sl_S s) TypeError.

(** khepri/crystal.py:180-206 solve. *)
Definition crystal_solve (order : seq string) (c : crystal) : res crystal :=
  do src <- get (c_source c) AssertionError;
  do dev <- get (c_device c) AttributeError;
  do d <- solve_all (c_layers c) order (c_kp c) (s_wl src);
  do es <- mapM (fun name => get (dict_get d name) KeyError) dev.1.2;
  do pos <- stack_positions (c_void c) [seq obj_depth e.1 | e : entry <- es];
  do Ss <- mapM entry_S es;
  do st <- stack_layers Ss dev.2;
  Ok (Crystal (c_void c) (c_epsi c) (c_epse c) (c_exp c) d (c_device c) (c_source c) (c_kp c) (c_kzi c)
        (Some (Solution pos st.1.1 st.1.2 st.2))).

(** The W attribute of a named layer; inv(None) raises LinAlgError. *)
Definition named_modes (c : crystal) (name : string) :
    res ('M[C]_(n + n) * 'M[C]_(n + n) * 'rV[C]_(n + n)) :=
  do e <- get (dict_get (c_layers c) name) KeyError;
  do s <- get e.2 LinAlgError;
  get (sl_modes s) LinAlgError.

(** khepri/crystal.py:363-396 poynting_flux_end(only_total=False): the rows R, T. *)
Definition poynting_flux_orders (c : crystal) : res ('rV[R]_n * 'rV[R]_n) :=
  do sol <- get (c_solution c) AssertionError;
  do src <- get (c_source c) AttributeError;
  do inc <- incident n (s_te src) (s_tm src) ((c_kp c).1, (c_kp c).2, c_kzi c) true;
  do mr <- named_modes c Sref;
  let Wref := mr.1.1 in
  do iWref <- inv Wref;
  let c1p := iWref *m inc in
  do mt <- named_modes c Strans;
  let Wtrans := mt.1.1 in
  do T <- poynting_fluxes (c_exp c) (Wtrans *m s21 (r_S sol) *m c1p) (c_kp c) (s_wl src) (c_epsi c) (c_epse c);
  do R <- poynting_fluxes (c_exp c) (Wref *m s11 (r_S sol) *m c1p) (c_kp c) (s_wl src) (c_epsi c) (c_epsi c);
  Ok (R, T).
(** poynting_flux_end(): the totals. *)
Definition poynting_flux_end (c : crystal) : res (R * R) :=
  do f <- poynting_flux_orders c; Ok (total f.1, total f.2).

(** khepri/crystal.py:398-400 zmax. *)
Definition zmax (c : crystal) : res Rbar :=
  let p := if c_solution c is Some s then r_positions s else [::] in
  if (size p < 2)%N then Err IndexError else Ok (nth p_infty p (size p - 2)).

End Stack.
End Oracles.
