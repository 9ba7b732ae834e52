(** Model of khepri/ez.py: spectra of project files.  Definitions only. *)
From Coq Require Import Reals ZArith String.
From mathcomp Require Import all_ssreflect all_algebra.
From Coquelicot Require Import Complex.
From Verif Require Import Base CField CFun StringEq ModelRedheffer ModelExpansion ModelFourier ModelTmat ModelLattice ModelEz.
Set Implicit Arguments. Unset Strict Implicit. Unset Printing Implicit Defensive.
Import GRing.Theory.
Local Open Scope ring_scope.

(** khepri/ez.py:52-76 load_layers: the material, depth and islands (with the name of
    their material) of a layer. *)
Record layer_conf := LayerConf { lc_material : string; lc_depth : R; lc_geometry : seq (island * string) }.

(** khepri/ez.py:24-25, :44-50: a project file.  Its numbers are JSON numbers, hence
    real. *)
Record project := Project
  { p_size : R; p_a1 : vec2; p_a2 : vec2; p_pw : nat * nat; p_incident : string; p_substrate : string;
    p_materials : seq (string * R); p_layers : seq (string * layer_conf); p_stacking : stackings }.

(** materials[name].epsilon *)
Definition material (P : project) (name : string) : res R :=
  if look (p_materials P) name is Some e then Ok e else Err KeyError.

(** khepri/ez.py:41-42 json_linspace. *)
Definition json_linspace (start stop : R) (steps : nat) : seq R :=
  [seq (if steps == 1%N then start else start + INR i * ((stop - start) / INR (steps - 1)))%Re | i <- iota 0 steps].

(** khepri/tmat/lattice.py:107-111 kp_angle.  An incident medium of negative
    permittivity gives an imaginary vector, which the rest of the model does not
    cover: reported as NotImplementedError. *)
Definition kp_angle (eps_incid wavelength theta phi : R) : res vec2 :=
  do k <- compute_kplanar (RtoC eps_incid) wavelength theta phi;
  if (RtoC (fst k.1) == k.1) && (RtoC (fst k.2) == k.2) then Ok (fst k.1, fst k.2) else Err NotImplementedError.

Section Spectrum.
Variables (J1 : R -> R) (n : nat) (expm : 'M[C]_((n + n) + (n + n)) -> 'M[C]_((n + n) + (n + n))).

(** khepri/ez.py:116-127 the matrix of a layer. *)
Definition layer_matrix (P : project) (L : lattice) (wl : R) (kp : vec2) (name : string) : res 'M[C]_((n + n) + (n + n)) :=
  match look (p_layers P) name with
  | None => Err KeyError
  | Some c =>
      do host <- material P (lc_material c);
      do islands <- mapM (fun im => do e <- material P im.2; do s <- island_shape (p_size P) im.1; Ok (s, RtoC e)) (lc_geometry c);
      scattering_matrix_islands J1 expm (p_pw P) L islands (RtoC host) wl kp (lc_depth c * p_size P)%Re 3
  end.

(** khepri/ez.py:113-157 one turn of the loop: (R, T, A).  [depth] is the number of
    calls that Python's stack can hold.  A frequency of zero gives an infinite
    wavelength.  When several exceptions apply, which one is raised is not
    modelled. *)
Definition spectrum_point (P : project) (depth : nat) (device : string) (L : lattice) (pin : 'cV[C]_((n + n) + (n + n)))
    (required : seq string) (ei phi theta freq : R) : res (R * R * R) :=
  if Req_EM_T freq 0 then Err NonFinite else
  let wl := (p_size P / freq)%Re in
  do kp <- kp_angle ei wl theta phi;
  do mats <- mapM (fun name => do S <- layer_matrix P L wl kp name; Ok (name, S)) required;
  do Sdev <- @stack_s C_fieldType (n + n) (p_stacking P) (look mats) depth device;
  do Sint <- scattering_interface n L wl kp;
  do Stot <- @at_op C_fieldType (n + n) Sdev (Some Sint);
  if Stot is Some St then compute_fluxes L wl pin (St *m pin) kp else Err TypeError.

(** khepri/ez.py:78-157 compute_spectrum: the rows (phi, theta, freq, wl, R, T, A).
    The figure and the file written at :159-164 are not modelled. *)
Record ranges := Ranges { r_phi : R * R * nat; r_theta : R * R * nat; r_freq : R * R * nat }.
Definition json_range (r : R * R * nat) : seq R := json_linspace r.1.1 r.1.2 r.2.
Record row := Row { w_phi : R; w_theta : R; w_freq : R; w_wl : R; w_R : R; w_T : R; w_A : R }.
Definition compute_spectrum (P : project) (depth : nat) (device : string) (s_pol p_pol : C) (r : ranges) : res (seq row) :=
  let a := p_size P in
  let scale (v : vec2) : vec2 := ((v.1 * a)%Re, (v.2 * a)%Re) in
  do ei <- material P (p_incident P);
  do ee <- material P (p_substrate P);
  do L <- mk_lattice (p_pw P) (scale (p_a1 P)) (scale (p_a2 P)) (Float ei) (Float ee);
  do pin <- tmat_incident n (p_pw P) 1 p_pol s_pol;
  do required <- gather_s (p_stacking P) (map fst (p_layers P)) depth device [::];
  if required is [::] then Err AssertionError else
  mapM (fun c => do f <- spectrum_point P depth device L pin required ei c.1 c.2.1 c.2.2;
                 Ok (Row c.1 c.2.1 c.2.2 (a / c.2.2)%Re f.1.1 f.1.2 f.2))
    [seq (phi, tf) | phi <- json_range (r_phi r),
                     tf <- [seq (theta, freq) | theta <- json_range (r_theta r), freq <- json_range (r_freq r)]].
End Spectrum.
