(** The class methods [MultiLayer.settings] of /repo/minitn/algorithms/ml.py and
    [DavidsonAlgorithm.config] of /repo/minitn/lib/numerical.py, and the attributes of classes and objects.

    Simplifications.  Attributes are looked up in the dictionary of the object and then in those of
    the classes in the order of [mro] ([object] is one of them); there are no descriptors with
    [__set__] and no metaclass, so that [setattr] on a class always succeeds. *)
From Coq Require Import List String Bool Arith.
From Verif Require Import Py.
Import ListNotations.
Local Open Scope string_scope.
Local Open Scope py_scope.

Section Config.
Variable V : Type.
(** a dictionary: the last assignment first *)
Definition attrs : Type := list (string * V).
Fixpoint lookup (name : string) (l : attrs) : option V :=
  match l with [] => None | (k, v) :: l => if k =? name then Some v else lookup name l end.
(** the dictionaries of the classes, by number *)
Definition world : Type := nat -> attrs.
(** the classes in which a name is looked up, for each class *)
Variable mro : nat -> list nat.
(** the first class that has the name *)
Fixpoint find (w : world) (cs : list nat) (name : string) : option V :=
  match cs with [] => None | c :: cs => match lookup name (w c) with Some v => Some v | None => find w cs name end end.
(** [hasattr] and [setattr] on a class, /repo/minitn/algorithms/ml.py:93 and 95 *)
Definition hasattr (w : world) (c : nat) (name : string) : bool := match find w (mro c) name with Some _ => true | None => false end.
Definition setattr (w : world) (c : nat) (name : string) (v : V) : world := fun b => if Nat.eqb b c then (name, v) :: w b else w b.
(** an object: its class and its own dictionary; reading [self.name] as in /repo/minitn/algorithms/ml.py:472 *)
Definition getattr (w : world) (o : nat * attrs) (name : string) : res V :=
  match lookup name (snd o) with
  | Some v => Ok v
  | None => match find w (mro (fst o)) name with Some v => Ok v | None => Raise AttributeError end
  end.
(** /repo/minitn/algorithms/ml.py:92-96 (heom/propagate.py:92-97 is the same): the loop of [settings]; what has been set stays *)
Fixpoint settings (c : nat) (kwargs : attrs) (w : world) : res unit * world :=
  match kwargs with
  | [] => (Ok tt, w)
  | (name, value) :: kwargs => if hasattr w c name then settings c kwargs (setattr w c name value) else (Raise AttributeError, w)
  end.
(** /repo/minitn/lib/numerical.py:160-165: the loop of [config]; the names that are warned about are counted *)
Fixpoint config (c : nat) (kwargs : attrs) (w : world) (warned : nat) : res unit * world * nat :=
  match kwargs with
  | [] => (Ok tt, w, warned)
  | (key, value) :: kwargs =>
      match (Ok (setattr w c key value) : res world) with
      | Ok w => config c kwargs w warned
      | Raise AttributeError => config c kwargs w (S warned)
      | Raise e => (Raise e, w, warned)
      end
  end.
End Config.
Arguments lookup {V}. Arguments find {V}. Arguments hasattr {V}. Arguments setattr {V}. Arguments getattr {V}. Arguments settings {V}. Arguments config {V}.
