(** Specification vocabulary for histories of calls on a Crystal. *)
From Coq Require Import Reals String.
From mathcomp Require Import all_ssreflect all_algebra.
From Coquelicot Require Import Complex.
From Verif Require Import Base CField CFun ModelRedheffer ModelExpansion SpecExpansion ModelFourier
  SpecFourier ModelDevice StringEq.
Set Implicit Arguments. Unset Strict Implicit. Unset Printing Implicit Defensive.
Import GRing.Theory.
Local Open Scope ring_scope.

(** The calls a user makes on a Crystal. *)
Inductive op :=
| AddUniform (name : string) (eps : C) (depth : R)
| AddPixmap (name : string) (pixmap : array2) (depth : R)
| AddPixmapOrUniform (name : string) (pixmap : array2) (depth : R)
| AddAnalytical (name : string) (islands : seq (shape * C)) (host : C) (depth : R)
| AddLayer (name : string) (l : layer)
| AddExtended (name : string) (who : operand) (l : layer)
| SetDevice (stack : seq string) (mask : bool + seq bool)
| SetSource (wl : R) (te tm : C) (theta phi : R) (kp : option (C * C))
| Solve.

Section History.
Variables (eig : forall m, 'M[C]_m -> 'rV[C]_m * 'M[C]_m) (J1 : R -> R) (n : nat).

(** One call that returns normally.  solve() iterates over a set: it may visit
    the required names in any order, each exactly once. *)
Inductive step (c : crystal n) : op -> crystal n -> Prop :=
| step_uniform name eps d : step c (AddUniform name eps d) (add_layer_uniform c name eps d)
| step_pixmap name p d : step c (AddPixmap name p d) (add_layer_pixmap c name p d)
| step_pixmap_or_uniform name p d c' :
    add_pixmap_or_uniform c name p d = Ok c' -> step c (AddPixmapOrUniform name p d) c'
| step_analytical name isl h d : step c (AddAnalytical name isl h d) (add_layer_analytical c name isl h d)
| step_layer name l : step c (AddLayer name l) (add_layer c name l)
| step_extended name who l c' :
    add_layer_extended c name who l = Ok c' -> step c (AddExtended name who l) c'
| step_device stack mask c' : set_device c stack mask = Ok c' -> step c (SetDevice stack mask) c'
| step_source wl te tm th ph kp c' :
    set_source c wl te tm th ph kp = Ok c' -> step c (SetSource wl te tm th ph kp) c'
| step_solve (order : seq string) c' :
    (forall dev, c_device c = Some dev -> perm_eq order (undup dev.1.2)) ->
    crystal_solve eig J1 order c = Ok c' -> step c Solve c'.

(** A sequence of calls. *)
Inductive history (c : crystal n) : seq op -> crystal n -> Prop :=
| history_nil : history c [::] c
| history_cons o ops c1 c2 : step c o c1 -> history c1 ops c2 -> history c (o :: ops) c2.
End History.

(** A crystal just created, by the constructor or from_expansion. *)
Definition created {n} (c : crystal n) (void : bool) (epsi epse : C) : Prop :=
  (exists pw l a, mk_crystal n pw l a void epsi epse = Ok c) \/
  (exists e l a, built e /\ from_expansion n e l a void epsi epse = Ok c).

(** What numpy.linalg.eig promises: eigenvalues and eigenvectors. *)
Definition eigen_equation (eig : forall m, 'M[C]_m -> 'rV[C]_m * 'M[C]_m) : Prop :=
  forall m (M : 'M[C]_m), M *m (eig m M).2 = (eig m M).2 *m diag_mx (eig m M).1.

(** Calls that only build lossless (resp. passive) devices from the crystal's
    own layers, and leave the names of the outer media alone. *)
Definition user_name (s : string) : Prop := s <> Sref /\ s <> Strans.
Definition user_stack (l : seq string) : Prop := forall s, s \in l -> user_name s.
Definition lossless_call (o : op) : Prop :=
  match o with
  | AddUniform name eps _ => user_name name /\ snd eps = 0%Re
  | AddPixmap name p _ | AddPixmapOrUniform name p _ => user_name name /\ real_picture p
  | AddAnalytical name isl h _ =>
      user_name name /\ snd h = 0%Re /\ forall i, (i < size isl)%N -> snd (nth (OtherShape, 0) isl i).2 = 0%Re
  | AddLayer _ _ | AddExtended _ _ _ => False
  | SetDevice stack _ => user_stack stack
  | SetSource _ _ _ _ _ _ | Solve => True
  end.
Definition passive_call (o : op) : Prop :=
  match o with
  | AddUniform name eps d => user_name name /\ (snd eps <= 0)%Re /\ (0 <= d)%Re
  | AddPixmap name p d | AddPixmapOrUniform name p d => user_name name /\ passive_picture p /\ (0 <= d)%Re
  | AddAnalytical _ _ _ _ | AddLayer _ _ | AddExtended _ _ _ => False
  | SetDevice stack _ => user_stack stack
  | SetSource _ _ _ _ _ _ | Solve => True
  end.
Fixpoint all_calls (P : op -> Prop) (ops : seq op) : Prop :=
  match ops with [::] => True | o :: r => P o /\ all_calls P r end.

(** A propagating-wave source as the crystal holds it: positive wavelength and a
    real in-plane wavevector that is 0 or not smaller than 1e-8. *)
Definition good_source {n} (c : crystal n) : Prop :=
  (exists src, c_source c = Some src /\ (0 < s_wl src)%Re) /\
  snd (c_kp c).1 = 0%Re /\ snd (c_kp c).2 = 0%Re /\
  ((fst (c_kp c).1 = 0 /\ fst (c_kp c).2 = 0)%Re \/
   (1 / 100000000 <= sqrt (fst (c_kp c).1 * fst (c_kp c).1 + fst (c_kp c).2 * fst (c_kp c).2))%Re).

(** Two layer objects describing the same layer: everything but the request to
    keep the fields. *)
Definition same_layer (l l' : layer) : Prop :=
  [/\ l_exp l = l_exp l', l_form l = l_form l' & l_depth l = l_depth l'].
Definition same_object (o o' : layer_obj) : Prop :=
  match o, o' with
  | Plain l, Plain l' => same_layer l l'
  | Ext x, Ext x' => [/\ x_exp x = x_exp x', x_mode x = x_mode x', x_gs x = x_gs x' & same_layer (x_base x) (x_base x')]
  | _, _ => False
  end.
(** Two crystals holding the same device, the same layers under the names used by
    that device, and sources of the same wavelength and in-plane wavevector. *)
Definition same_problem {n} (c c' : crystal n) : Prop :=
  [/\ c_void c = c_void c', c_device c = c_device c', c_kp c = c_kp c',
      (forall src src', c_source c = Some src -> c_source c' = Some src' -> s_wl src = s_wl src') &
      forall dev name, c_device c = Some dev -> name \in dev.1.2 ->
      forall x x', dict_get (c_layers c) name = Some x -> dict_get (c_layers c') name = Some x' ->
        same_object x.1 x'.1].

(** Calls that leave the names of the outer media alone. *)
Definition outer_call (o : op) : Prop :=
  match o with
  | AddUniform name _ _ | AddPixmap name _ _ | AddPixmapOrUniform name _ _
  | AddAnalytical name _ _ _ | AddLayer name _ | AddExtended name _ _ => user_name name
  | SetDevice stack _ => user_stack stack
  | SetSource _ _ _ _ _ _ | Solve => True
  end.
(** [ds] are the depths of the layers of the current device, in order. *)
Definition device_depths {n} (c : crystal n) (ds : seq R) : Prop :=
  exists dev, [/\ c_device c = Some dev, size ds = size dev.1.1 &
    forall i, (i < size ds)%N -> exists x,
      dict_get (c_layers c) (nth ""%string dev.1.1 i) = Some x /\ obj_depth x.1 = nth 0%Re ds i].
(** The sum of the first [k] depths. *)
Definition depth_before (ds : seq R) (k : nat) : R := \sum_(j < k) nth 0%Re ds j.
