(** Exceptions as values.  Every modelled Python function that can raise
    returns [res A].  The constructors of [exn] are the Python exceptions
    that the modelled code can raise; [NonFinite] is the one model-only
    outcome: numpy would print a RuntimeWarning, divide by zero and carry on
    with inf/nan, the model stops there. *)
Inductive exn : Type :=
| LinAlgError      (* numpy.linalg.solve / inv on a singular matrix *)
| IndexError | KeyError | AssertionError | ValueError | AttributeError
| TypeError | NotImplementedError | RecursionError | ZeroDivisionError
| ModuleNotFoundError | NameError | UnboundLocalError
| NonFinite.       (* division by zero: numpy continues with inf/nan *)

Inductive res (A : Type) : Type :=
| Ok  (a : A)
| Err (e : exn).
Arguments Ok {A} a.
Arguments Err {A} e.

Definition bind {A B : Type} (x : res A) (f : A -> res B) : res B :=
  match x with Ok a => f a | Err e => Err e end.

Notation "'do' x <- e ; f" := (bind e (fun x => f))
  (at level 200, x name, e at level 100, f at level 200, right associativity).

Definition is_ok {A} (x : res A) : Prop := exists a, x = Ok a.

(** [mapM f l]: a Python list comprehension / for loop that stops at the
    first exception. *)
Fixpoint mapM {A B} (f : A -> res B) (l : list A) : res (list B) :=
  match l with
  | nil => Ok nil
  | cons x l' => do y <- f x; do ys <- mapM f l'; Ok (cons y ys)
  end.

Lemma bind_ok {A B} (x : res A) (f : A -> res B) (b : B) :
  bind x f = Ok b -> exists a, x = Ok a /\ f a = Ok b.
Proof. destruct x as [a|e]; cbn; intros H; [exists a; auto | discriminate]. Qed.
