(** Python exceptions as values, shared by all models.

    A Python call that may raise is modelled by a [res]: [Ok v] for a normal
    return and [Raise e] for an exception of class [e].  Messages are dropped. *)
From Coq Require Import List.
Import ListNotations.

Inductive exn : Type :=
| ValueError
| TypeError
| KeyError
| IndexError
| AttributeError
| RuntimeError
| RuntimeWarning
| NotImplementedError
| AssertionError
| UnboundLocalError
| ZeroDivisionError
| StopIteration
| RecursionError.   (* also used when the fuel of a model runs out *)

Inductive res (A : Type) : Type :=
| Ok (a : A)
| Raise (e : exn).
Arguments Ok {A} a.
Arguments Raise {A} e.

Definition bind {A B} (m : res A) (f : A -> res B) : res B :=
  match m with Ok a => f a | Raise e => Raise e end.

Declare Scope py_scope.
Delimit Scope py_scope with py.
Notation "'let!' x ':=' m 'in' k" := (bind m (fun x => k))
  (at level 200, x pattern, m at level 100, k at level 200, right associativity) : py_scope.

Definition is_ok {A} (m : res A) : bool :=
  match m with Ok _ => true | Raise _ => false end.

(** [res] of a list: first exception wins, left to right. *)
Fixpoint mapM {A B} (f : A -> res B) (l : list A) : res (list B) :=
  match l with
  | [] => Ok []
  | x :: l => bind (f x) (fun y => bind (mapM f l) (fun ys => Ok (y :: ys)))
  end.

Definition exn_eqb (a b : exn) : bool :=
  match a, b with
  | ValueError, ValueError | TypeError, TypeError | KeyError, KeyError
  | IndexError, IndexError | AttributeError, AttributeError
  | RuntimeError, RuntimeError | RuntimeWarning, RuntimeWarning
  | NotImplementedError, NotImplementedError | AssertionError, AssertionError
  | UnboundLocalError, UnboundLocalError | ZeroDivisionError, ZeroDivisionError
  | StopIteration, StopIteration | RecursionError, RecursionError => true
  | _, _ => false
  end.
