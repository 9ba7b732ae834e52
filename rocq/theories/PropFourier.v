(** Properties C20 to C23: pictures and their convolution matrices. *)
From Coq Require Import Reals ZArith Lra.
From mathcomp Require Import all_ssreflect all_algebra.
From Coquelicot Require Import Complex.
From Verif Require Import Base CField CFun ModelLayer ModelExpansion SpecExpansion SpecFlux ModelFourier SpecFourier
  ModelDevice SpecDevice FourierProofs FilmDevice LayerRoutes DeviceExamples.
Set Implicit Arguments. Unset Strict Implicit. Unset Printing Implicit Defensive.
Import GRing.Theory.
Local Open Scope ring_scope.

(** ** C20 A uniform picture is a uniform layer *)
Theorem C20_uniform_picture eig J1 (n : nat) (e : expansion) (A : array2) (v : C) (d : R) (b b' : bool)
    (kp : C * C) (wl : R) (s s' : solved n) :
  eigen_equation eig -> constant_picture A v ->
  layer_solve eig J1 n (Layer e (FFT A) d b) kp wl = Ok s ->
  layer_solve eig J1 n (Layer e (UNIFORM v) d b') kp wl = Ok s' -> sl_S s = sl_S s'.
Proof. exact (fun he hc h h' => uniform_picture_same he hc h h'). Qed.
Print Assumptions C20_uniform_picture.

Theorem C20_either_route eig J1 (n : nat) (e : expansion) (A : array2) (d : R) (l : layer)
    (kp : C * C) (wl : R) (s s' : solved n) :
  eigen_equation eig -> pixmap_or_uniform e A d = Ok l ->
  layer_solve eig J1 n l kp wl = Ok s ->
  layer_solve eig J1 n (layer_pixmap e A d) kp wl = Ok s' -> sl_S s = sl_S s'.
Proof. exact (@either_route eig J1 n e A d l kp wl s s'). Qed.
Print Assumptions C20_either_route.

(** A 2 x 3 picture of glass (index 2) in the expansion of a Multilayer, with an
    eigensolver that meets the contract. *)
Example C20_hypotheses_met (J1 : R -> R) : eigen_equation scalar_eig /\
  exists e, built e /\
    is_ok (layer_solve scalar_eig J1 1 (Layer e (FFT (flat_picture (RtoC 2 * RtoC 2))) 3 false) (0, 0) 1) /\
    is_ok (layer_solve scalar_eig J1 1 (Layer e (UNIFORM (RtoC 2 * RtoC 2)) 3 false) (0, 0) 1).
Proof.
split; first exact: scalar_eig_ok.
have [e [_ he hpw hg]] := multilayer_exp 1 1.
by exists e; split=> //; apply: (fft_layer J1 hpw hg); lra.
Qed.

(** ** C21 The dispatch of pixmap_or_uniform is exact *)
Theorem C21_dispatch (e : expansion) (A : array2) (d : R) (l : layer) :
  pixmap_or_uniform e A d = Ok l ->
  (exists v, constant_picture A v /\ l = layer_uniform e v d) \/
  ((forall v, ~ constant_picture A v) /\ l = layer_pixmap e A d).
Proof. exact (@dispatch e A d l). Qed.
Print Assumptions C21_dispatch.

Theorem C21_defined (e : expansion) (A : array2) (d : R) :
  (0 < a_rows A)%N -> (0 < a_cols A)%N -> is_ok (pixmap_or_uniform e A d).
Proof. exact (@dispatch_def e A d). Qed.
Print Assumptions C21_defined.

(** ** C22 The entries are the right Fourier coefficients, never aliased *)
Theorem C22_entries (n : nat) (pw : nat * nat) (A : array2) (idx : seq (Z * Z)) (M : 'M[C]_n) (i j : 'I_n) :
  generate_expansion_indices pw = Ok idx -> convolution_matrix n A pw = Ok M ->
  let order k := nth (Z0, Z0) idx k in
  M i j = fourier_coef A (Z.sub (order i).1 (order j).1) (Z.sub (order i).2 (order j).2).
Proof. exact (@conv_by_order pw n A idx M i j). Qed.
Print Assumptions C22_entries.

Theorem C22_when_defined (n : nat) (A : array2) (pw : nat * nat) :
  (pw.1 * pw.2 = n)%N -> (0 < n)%N -> (0 < a_rows A)%N -> (0 < a_cols A)%N ->
  if (pw.1 <= (a_rows A + 1) %/ 2)%N && (pw.2 <= (a_cols A + 1) %/ 2)%N
  then is_ok (convolution_matrix n A pw) else convolution_matrix n A pw = Err IndexError.
Proof. exact (@conv_domain n A pw). Qed.
Print Assumptions C22_when_defined.

Theorem C22_empty_picture (n : nat) (A : array2) (pw : nat * nat) :
  a_rows A = 0%N \/ a_cols A = 0%N -> convolution_matrix n A pw = Err ValueError.
Proof. exact (@conv_empty n A pw). Qed.
Print Assumptions C22_empty_picture.

(** A 6 x 5 picture with pw = (3, 3) fits, a 4 x 5 one does not. *)
Example C22_fits : is_ok (generate_expansion_indices (3, 3)%N) /\
  is_ok (convolution_matrix 9 (Array2 6 5 (fun x y => RtoC (INR (x + 2 * y)))) (3, 3)%N).
Proof. by split; [eexists | exact: (@conv_domain 9 (Array2 6 5 _) (3, 3)%N)]. Qed.
Example C22_does_not_fit :
  convolution_matrix 9 (Array2 4 5 (fun x y => RtoC (INR (x + 2 * y)))) (3, 3)%N = Err IndexError.
Proof. exact: (@conv_domain 9 (Array2 4 5 _) (3, 3)%N). Qed.

(** ** C23 Real pictures give Hermitian matrices *)
Theorem C23_hermitian (n : nat) (pw : nat * nat) (A : array2) (M : 'M[C]_n) :
  convolution_matrix n A pw = Ok M -> real_picture A -> forall i j, M i j = Cconj (M j i).
Proof. exact (@conv_real n pw A M). Qed.
Print Assumptions C23_hermitian.

Theorem C23_linear (n : nat) (pw : nat * nat) (A B D : array2) (a b : C) (MA MB MD : 'M[C]_n) :
  a_rows B = a_rows A -> a_cols B = a_cols A -> a_rows D = a_rows A -> a_cols D = a_cols A ->
  (forall x y, (x < a_rows A)%N -> (y < a_cols A)%N -> a_at D x y = a * a_at A x y + b * a_at B x y) ->
  convolution_matrix n A pw = Ok MA -> convolution_matrix n B pw = Ok MB ->
  convolution_matrix n D pw = Ok MD -> MD = a *: MA + b *: MB.
Proof. exact (@conv_linear n pw A B D a b MA MB MD). Qed.
Print Assumptions C23_linear.

Theorem C23_ones (n : nat) (pw : nat * nat) (A : array2) (M : 'M[C]_n) :
  convolution_matrix n A pw = Ok M -> constant_picture A 1 -> M = 1%:M.
Proof. exact (@conv_ones n pw A M). Qed.
Print Assumptions C23_ones.

(** Passive pictures give passive matrices. *)
Theorem C23_passive (n : nat) (pw : nat * nat) (A : array2) (M : 'M[C]_n) :
  convolution_matrix n A pw = Ok M -> passive_picture A -> passive_op M.
Proof. exact (@conv_dissip n pw A M). Qed.
Print Assumptions C23_passive.

Example C23_hypotheses_met :
  let A := Array2 6 5 (fun x y => RtoC (INR (x + 2 * y))) in
  real_picture A /\ passive_picture A /\ is_ok (convolution_matrix 9 A (3, 3)%N).
Proof.
by split; [|split; [move=> x y _ _ /=; lra | exact: (@conv_domain 9 (Array2 6 5 _) (3, 3)%N)]].
Qed.
