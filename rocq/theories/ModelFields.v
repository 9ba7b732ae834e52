(** Model of khepri/fields.py and of the field maps of khepri/crystal.py.
    Definitions only. *)
From Coq Require Import Reals ZArith String.
From mathcomp Require Import all_ssreflect all_algebra.
From Coquelicot Require Import Complex Rbar.
From Verif Require Import Base CField CFun ModelRedheffer ModelLayer ModelExpansion ModelFlux
  ModelFourier ModelExtension ModelDevice StringEq.
Set Implicit Arguments. Unset Strict Implicit. Unset Printing Implicit Defensive.
Import GRing.Theory.
Local Open Scope ring_scope.

(** * khepri/fields.py *)

(** khepri/fields.py:18-27 translate_mode_amplitudes; c1m and c2p are not used. *)
Definition translate_mode_amplitudes {m} (Sl Sr : smat C_fieldType m) (c1p c1m c2p : 'cV[C]_m) :
    res ('cV[C]_m * 'cV[C]_m) :=
  let F := 1%:M - s22 Sl *m s11 Sr in
  do cdplus <- solve F (s21 Sl *m c1p);
  Ok (cdplus, s11 Sr *m cdplus).

(** khepri/fields.py:29-31 compute_z_propagator. *)
Definition compute_z_propagator {m} (eigenvalues : 'rV[C]_m) (zbar : R) : 'rV[C]_m * 'rV[C]_m :=
  let arg := map_mx (fun l => l * RtoC zbar) eigenvalues in
  (map_mx cexp arg, map_mx (fun a => cexp (- a)) arg).

(** khepri/fields.py:46-51 layer_eigenbasis_matrix. *)
Definition layer_eigenbasis_matrix {m} (WI VI : 'M[C]_m) : 'M[C]_(m + m) := block_mx WI WI (- VI) VI.

(** khepri/fields.py:58-60: phasors larger than 1e14 are scaled down to 1e14. *)
Definition big_phasor : R := 100000000000000.
Definition clip (x : C) : C :=
  if Rlt_dec big_phasor (Cmod x) then x / RtoC (Cmod x / big_phasor)%Re else x.

(** khepri/fields.py:53-62 fourier_fields_from_mode_amplitudes, before the split
    in four. *)
Definition fourier_fields_from_mode_amplitudes {m} (RI : 'M[C]_(m + m)) (LI : 'rV[C]_m)
    (R0 : 'M[C]_(m + m)) (mode_amplitudes : 'cV[C]_m * 'cV[C]_m) (zbar : R) : res 'cV[C]_(m + m) :=
  let p := compute_z_propagator LI zbar in
  let L := map_mx clip (row_mx p.1 p.2) in
  do c <- solve RI (R0 *m col_mx mode_amplitudes.1 mode_amplitudes.2);
  Ok (RI *m (diag_mx L *m c)).

(** khepri/fields.py:68-76 longitudinal_fields: (sz, uz).  isnumber is true of
    Python and numpy floats and complexes (1 / epsilon), not of matrices. *)
Definition cross_z {n} (kx ky : 'rV[C]_n) (vx vy : 'cV[C]_n) : 'cV[C]_n :=
  \col_j (kx 0 j * vy j 0 - ky 0 j * vx j 0).
Definition longitudinal_fields {n} (sx sy ux uy : 'cV[C]_n) (kx ky : 'rV[C]_n) (IC : C + 'M[C]_n) :
    'cV[C]_n * 'cV[C]_n :=
  let uz := (- ci) *: cross_z kx ky sx sy in
  let sz := match IC with
            | inl ic => (- ci * ic) *: cross_z kx ky ux uy
            | inr ic => ((- ci) *: ic) *m cross_z kx ky ux uy
            end in
  (sz, uz).

(** khepri/fourier.py:136-142 idft, at one point (x, y); kx, ky not yet
    multiplied by k0. *)
Definition idft {n} (ffield : 'cV[C]_n) (kx ky : 'rV[C]_n) (x y : R) : C :=
  \sum_j ffield j 0 * cexp (ci * (kx 0 j * RtoC x + ky 0 j * RtoC y)).

(** * khepri/crystal.py *)

(** np.searchsorted(positions, z) (side="left").  Simplified: the number of leading
    positions smaller than z, which is numpy's answer on sorted positions (depths
    not negative); z is finite. *)
Definition below (p : Rbar) (z : R) : bool :=
  match p with
  | Finite x => if Rlt_dec x z then true else false
  | p_infty => false
  | m_infty => true
  end.
Definition searchsorted (positions : seq Rbar) (z : R) : nat := find (fun p => ~~ below p z) positions.

(** l[k - 1] in Python: l[-1] is the last element. *)
Definition py_pred {A} (l : seq A) (k : nat) : res A :=
  match l with
  | [::] => Err IndexError
  | x :: r => if k is k'.+1 then (if (k' < size l)%N then Ok (nth x l k') else Err IndexError)
              else Ok (last x r)
  end.

Section Fields.
Variable n : nat.

(** z - p for a position p. *)
Definition bar_sub (z : R) (p : Rbar) : Rbar :=
  match p with Finite x => Finite (z - x)%Re | p_infty => m_infty | m_infty => p_infty end.

(** khepri/crystal.py:208-232 locate_layer: the layer, the index plus one (the
    index may be -1), the relative depth.  The debug message at :229 evaluates
    stack_positions[layer_index + 1]. *)
Definition locate_layer (c : crystal n) (z : R) : res (entry n * nat * Rbar) :=
  do sol <- get (c_solution c) AttributeError;
  do dev <- get (c_device c) AttributeError;
  let k := searchsorted (r_positions sol) z in
  do name <- py_pred dev.1.2 k;
  do p <- py_pred (r_positions sol) k;
  let zr := if Rle_dec z 0 then Finite z else bar_sub z p in
  if (size (r_positions sol) <= k)%N then Err IndexError else
  do e <- get (dict_get (c_layers c) name) KeyError;
  Ok (e, k, zr).

(** khepri/crystal.py:234-279 _fourier_fields with the layer already located:
    (sx, sy, ux, uy) as one vector, then sz, uz.  A stack left None raises
    TypeError when indexed; modes left None raise TypeError. *)
Definition fourier_fields_at (c : crystal n) (e : entry n) (k : nat) (zr : R)
    (incident_fields : 'cV[C]_((n + n) + (n + n))) :
    res ('cV[C]_((n + n) + (n + n)) * ('cV[C]_n * 'cV[C]_n)) :=
  if ~~ obj_fields e.1 then Err AssertionError else
  do s <- get e.2 AttributeError;
  do m <- get (sl_modes s) TypeError;
  let RI := layer_eigenbasis_matrix m.1.1 m.1.2 in
  do src <- get (c_source c) AttributeError;
  do kk <- krows n (c_exp c) (c_kp c) (s_wl src) 1;
  do f <- match e.1 with
          | Plain _ => free_space_eigenmodes kk.1.1 kk.1.2
          | Ext _ => get (sl_free s) AttributeError
          end;
  let R0 := layer_eigenbasis_matrix f.1 f.2 in
  let k0 := (2 * PI / s_wl src)%Re in
  do er <- get (dict_get (c_layers c) Sref) KeyError;
  do sr <- get er.2 AttributeError;
  do mr <- get (sl_modes sr) TypeError;
  let Rref := layer_eigenbasis_matrix mr.1.1 mr.1.2 in
  do amp <- solve Rref incident_fields;
  let c1p := usubmx amp in
  do sol <- get (c_solution c) TypeError;
  let c1m := s11 (r_S sol) *m c1p in
  let c2p := s21 (r_S sol) *m c1p in
  do oSl <- py_pred (r_Sls sol) k;
  do oSr <- py_pred (r_Srs sol) k;
  do Sl <- get oSl TypeError;
  do Sr <- get oSr TypeError;
  do cd <- translate_mode_amplitudes Sl Sr c1p c1m c2p;
  do v <- fourier_fields_from_mode_amplitudes RI m.2 R0 cd (k0 * (obj_depth e.1 - zr))%Re;
  do ic <- get (sl_IC s) TypeError;
  let sx := usubmx (usubmx v) in let sy := dsubmx (usubmx v) in
  let ux := usubmx (dsubmx v) in let uy := dsubmx (dsubmx v) in
  Ok (v, longitudinal_fields sx sy ux uy kk.1.1 kk.1.2 ic).
Definition fourier_fields (c : crystal n) (z : R) (incident_fields : 'cV[C]_((n + n) + (n + n))) :
    res ('cV[C]_((n + n) + (n + n)) * ('cV[C]_n * 'cV[C]_n)) :=
  do l <- locate_layer c z;
  match l.2 with
  | Finite zr => fourier_fields_at c l.1.1 l.1.2 zr incident_fields
  | _ => Err NonFinite
  end.

(** khepri/crystal.py:281-295 get_source_as_field_vectors, stacked (:315). *)
Definition source_fields (c : crystal n) : res 'cV[C]_((n + n) + (n + n)) :=
  do src <- get (c_source c) AttributeError;
  do efield <- incident n (s_te src) (s_tm src) ((c_kp c).1, (c_kp c).2, c_kzi c) true;
  Ok (col_mx efield 0).

(** khepri/crystal.py:297-333 fields_coords_xy at one point of the mesh, with the
    crystal's own kp: (Ex, Ey, Ez, Hx, Hy, Hz). *)
Definition fields_coords_xy (c : crystal n) (x y z : R) (incident_fields : option 'cV[C]_((n + n) + (n + n))) :
    res (C * C * C * (C * C * C)) :=
  do sol <- get (c_solution c) AssertionError;
  do inc <- match incident_fields with Some f => Ok f | None => source_fields c end;
  do src <- get (c_source c) AttributeError;
  do kk <- krows n (c_exp c) (c_kp c) (s_wl src) 1;
  do f <- fourier_fields c z inc;
  let k0 := RtoC (2 * PI / s_wl src)%Re in
  let real s := idft s (k0 *: kk.1.1) (k0 *: kk.1.2) x y in
  let v := f.1 in
  Ok (real (usubmx (usubmx v)), real (dsubmx (usubmx v)), real f.2.1,
      (real (usubmx (dsubmx v)), real (dsubmx (dsubmx v)), real f.2.2)).
(** z='farfield' (khepri/crystal.py:322-323) calls a method that does not exist. *)
Definition fields_farfield (c : crystal n) : res (C * C * C * (C * C * C)) :=
  do sol <- get (c_solution c) AssertionError;
  Err AttributeError.
End Fields.
