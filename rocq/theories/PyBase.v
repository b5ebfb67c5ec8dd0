(** Base vocabulary shared by all models: Python exceptions as values. *)
From Coq Require Import List ZArith String.

(** Exception classes raised by the modelled code, plus three classes of
    events that Python/numba does not report but that must not happen:
    reading an [np.empty] cell that was never written ([UninitRead]), reading
    outside an array in numba code, which performs no bounds checks
    ([OutOfBounds]), and a loop that does not terminate ([OutOfFuel]). *)
Inductive exn : Type :=
| TypeError | ValueError | KeyError | IndexError | AttributeError | NameError
| NotImplementedErr | SyntaxErr | ImportErr | LinAlgErr | FileNotFound
| UnboundLocal | AssertionErr | ZeroDivErr | GenericException | KeyboardInterruptExn
| UninitRead | OutOfBounds | OutOfFuel.

Inductive res (A : Type) : Type :=
| Ok (a : A)
| Err (e : exn).
Arguments Ok {A} a.
Arguments Err {A} e.

Definition rbind {A B : Type} (x : res A) (f : A -> res B) : res B :=
  match x with Ok a => f a | Err e => Err e end.

Definition rmap {A B : Type} (f : A -> B) (x : res A) : res B :=
  match x with Ok a => Ok (f a) | Err e => Err e end.

Definition of_opt {A : Type} (e : exn) (x : option A) : res A :=
  match x with Some a => Ok a | None => Err e end.

Declare Scope py_scope.
Delimit Scope py_scope with py.
Notation "'let*' x ':=' e 'in' f" := (rbind e (fun x => f))
  (at level 200, x pattern, e at level 100, f at level 200, right associativity) : py_scope.
Notation "'assert*' b 'else' e 'in' f" := (if b then f else Err e)
  (at level 200, b at level 100, e at level 100, f at level 200, right associativity) : py_scope.

(** [for x in xs: st = step(st, x)] where the body may raise. *)
Fixpoint foldM {S X : Type} (step : S -> X -> res S) (xs : list X) (st : S) : res S :=
  match xs with
  | nil => Ok st
  | cons x xs' => match step st x with Ok st' => foldM step xs' st' | Err e => Err e end
  end.

(** [[f(x) for x in xs]] where [f] may raise. *)
Fixpoint mapM {X Y : Type} (f : X -> res Y) (xs : list X) : res (list Y) :=
  match xs with
  | nil => Ok nil
  | cons x xs' =>
      match f x with
      | Err e => Err e
      | Ok y => match mapM f xs' with Err e => Err e | Ok ys => Ok (cons y ys) end
      end
  end.

Definition is_ok {A} (x : res A) : bool := match x with Ok _ => true | Err _ => false end.
