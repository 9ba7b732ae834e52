(** Property C12: outer media.  The half spaces take
    Kz = conj(csqrt(ur er - kx^2 - ky^2)); that is the right root exactly when
    ur er is real. *)
From Coq Require Import Reals Lra.
From mathcomp Require Import all_ssreflect all_algebra.
From Coquelicot Require Import Complex.
From Verif Require Import Base CField CFun ModelRedheffer ModelLayer SpecMaxwell SpecEnergy
  NormalProofs ThinFilmProofs HalfSpaceProofs.
Set Implicit Arguments. Unset Strict Implicit. Unset Printing Implicit Defensive.
Import GRing.Theory.
Local Open Scope ring_scope.

(** ** C12 Outer media may be any passive medium *)

(** The modes of an outer medium solve Maxwell's equations in every order, for
    all amplitudes and both directions, if and only if ur er is real. *)
Theorem C12_modes_iff_real_partial (n : nat) (kx ky : 'rV[C]_n) (W0 V0 : 'M[C]_(n + n)) (er ur : C)
    (S : smat C_fieldType (n + n)) (W V : 'M[C]_(n + n)) (l : 'rV[C]_(n + n)) (j : 'I_n) :
  (forall j, snd (kx 0%R j) = 0%Re) -> (forall j, snd (ky 0%R j) = 0%Re) ->
  scattering_reflection kx ky W0 V0 er ur = Ok (S, W, V, l) \/
  scattering_transmission kx ky W0 V0 er ur = Ok (S, W, V, l) ->
  er != 0 ->
  (forall c : 'cV[C]_(n + n),
    let x := lshift n j in let y := rshift n j in
    let kz := - ci * l 0 x in
    (exists sz uz, maxwell er ur (kx 0 j, ky 0 j, kz)
       ((W *m c) x 0, (W *m c) y 0, sz) (H_of_u ((- V *m c) x 0, (- V *m c) y 0, uz))) /\
    (exists sz uz, maxwell er ur (kx 0 j, ky 0 j, - kz)
       ((W *m c) x 0, (W *m c) y 0, sz) (H_of_u ((V *m c) x 0, (V *m c) y 0, uz))))
  <-> snd (ur * er) = 0%Re.
Proof. exact (fun hx hy h e => @outer_modes_iff n kx ky W0 V0 er ur S W V l hx hy h j e). Qed.
Print Assumptions C12_modes_iff_real_partial.

(** Real permittivities of either sign: forward modes exp(-lambda k0 z) do not
    grow and turn in the forward sense. *)
Theorem C12_real_forward_partial (n : nat) (kx ky : 'rV[C]_n) (W0 V0 : 'M[C]_(n + n)) (er : C)
    (S : smat C_fieldType (n + n)) (W V : 'M[C]_(n + n)) (l : 'rV[C]_(n + n)) :
  (forall j, snd (kx 0%R j) = 0%Re) -> (forall j, snd (ky 0%R j) = 0%Re) ->
  scattering_reflection kx ky W0 V0 er 1 = Ok (S, W, V, l) \/
  scattering_transmission kx ky W0 V0 er 1 = Ok (S, W, V, l) ->
  snd er = 0%Re -> forall j, (0 <= fst (l 0%R j))%Re /\ (0 <= snd (l 0%R j))%Re.
Proof. exact (fun hx hy h e => @outer_real_forward n kx ky W0 V0 er 1 S W V l hx hy h erefl e). Qed.
Print Assumptions C12_real_forward_partial.

(** In every absorbing outer medium (Im er < 0) all forward modes grow. *)
Theorem C12_absorbing_grows_partial (n : nat) (kx ky : 'rV[C]_n) (W0 V0 : 'M[C]_(n + n)) (er : C)
    (S : smat C_fieldType (n + n)) (W V : 'M[C]_(n + n)) (l : 'rV[C]_(n + n)) :
  (forall j, snd (kx 0%R j) = 0%Re) -> (forall j, snd (ky 0%R j) = 0%Re) ->
  scattering_reflection kx ky W0 V0 er 1 = Ok (S, W, V, l) \/
  scattering_transmission kx ky W0 V0 er 1 = Ok (S, W, V, l) ->
  (snd er < 0)%Re -> forall j, (fst (l 0%R j) < 0)%Re.
Proof. exact (fun hx hy h e => @outer_absorbing_grows n kx ky W0 V0 er 1 S W V l hx hy h erefl e). Qed.
Print Assumptions C12_absorbing_grows_partial.

(** Light from vacuum at normal incidence onto a bare substrate of any real
    non-zero permittivity: reflectance at most 1. *)
Theorem C12_real_reflectance_partial (n : nat) (e : R) : e <> 0%Re ->
  exists W0 V0 Sr Wr Vr lr St Wt Vt lt S r,
    [/\ free_space_eigenmodes (0 : 'rV[C]_n) 0 = Ok (W0, V0),
        scattering_reflection (0 : 'rV[C]_n) 0 W0 V0 1 1 = Ok (Sr, Wr, Vr, lr),
        scattering_transmission (0 : 'rV[C]_n) 0 W0 V0 (RtoC e) 1 = Ok (St, Wt, Vt, lt),
        redheffer_product Sr St = Ok S & s11 S = r%:M /\ (sqmod r <= 1)%Re].
Proof. exact (@real_reflectance n e). Qed.
Print Assumptions C12_real_reflectance_partial.

(** Complex index w, Re w > 0: the reflectance is at most 1 exactly when
    Re(w^3) >= 0, that is when |arg er| <= pi/3. *)
Theorem C12_complex_reflectance_partial (n : nat) (w : C) :
  (0 < fst w)%Re -> w * w + Cconj w <> 0 ->
  exists W0 V0 Sr Wr Vr lr St Wt Vt lt S r,
    [/\ free_space_eigenmodes (0 : 'rV[C]_n) 0 = Ok (W0, V0),
        scattering_reflection (0 : 'rV[C]_n) 0 W0 V0 1 1 = Ok (Sr, Wr, Vr, lr),
        scattering_transmission (0 : 'rV[C]_n) 0 W0 V0 (w * w) 1 = Ok (St, Wt, Vt, lt),
        redheffer_product Sr St = Ok S &
        s11 S = r%:M /\ ((sqmod r <= 1)%Re <-> (0 <= fst (w * w * w)%R)%Re)].
Proof. exact (@complex_reflectance n w). Qed.
Print Assumptions C12_complex_reflectance_partial.

(** A passive substrate (er = -3 - 4i) reflects more than six times the
    incident power. *)
Theorem C12_passive_substrate_refuted :
  exists er : C, (snd er < 0)%Re /\ exists W0 V0 Sr Wr Vr lr St Wt Vt lt S r,
    [/\ free_space_eigenmodes (0 : 'rV[C]_1) 0 = Ok (W0, V0),
        scattering_reflection (0 : 'rV[C]_1) 0 W0 V0 1 1 = Ok (Sr, Wr, Vr, lr),
        scattering_transmission (0 : 'rV[C]_1) 0 W0 V0 er 1 = Ok (St, Wt, Vt, lt),
        redheffer_product Sr St = Ok S & s11 S = r%:M /\ (6 < sqmod r)%Re].
Proof. exact (@reflectance_above_one 1). Qed.
Print Assumptions C12_passive_substrate_refuted.

(** The hypotheses above are met by glass, by an absorbing and by a negative
    medium. *)
Example C12_hypotheses_met :
  [/\ is_ok (scattering_transmission (0 : 'rV[C]_2) 0 1%:M (V0n 2) (RtoC 2 * RtoC 2) 1),
      (exists er, (snd er < 0)%Re /\
         is_ok (scattering_transmission (0 : 'rV[C]_2) 0 1%:M (V0n 2) er 1)) &
      is_ok (scattering_transmission (0 : 'rV[C]_2) 0 1%:M (V0n 2) (RtoC (-3)) 1)].
Proof.
split.
- by eexists; apply: trn_api; lra.
- have [er [he [W0 [V0 [Sr [Wr [Vr [lr [St [Wt [Vt [lt [S [r [h1 _ h3 _ _]]]]]]]]]]]]]]] := @reflectance_above_one 2.
  by exists er; split=> //; move: h3; rewrite free_normal in h1; case: h1 => <- <- h3; eexists; exact: h3.
- eexists; apply: trn_gen; first by apply/eqP => /(congr1 fst) /=; lra.
  by apply: adm_one_neq0; apply: adm_real; lra.
Qed.
