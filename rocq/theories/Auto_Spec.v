(** What an autocorrelation function should be. *)
From Coq Require Import List Arith Bool.
From Verif Require Import Py Alg ListX NdArray_Model Net_Model Net_Spec.
Import ListNotations.
Local Open Scope nat_scope.

Section AutoSpec.
Variable K : StarRing.

(** The arrays of the tensors, and the wave function they stand for. *)
Definition arrays (h : heap K) (n : id) : arr K := match oarr (hget h n) with Some a => a | None => mkArr [] [] end.
Definition wave (h : heap K) (t : tree) (v : list nat) : K := dense (arrays h) t v.

(** The heap holds a network with the tree [t] and leaves of dimensions [ds]. *)
Definition holds (h : heap K) (t : tree) (ds : list nat) : Prop :=
  hangs h None t /\ no_self_slot h /\ oaxis (hget h (top t)) = None /\
  (forall n, In n (nids t) -> oarr (hget h n) <> None) /\
  fits (arrays h) None 0 t /\ ldims (arrays h) None 0 t = ds.

(** Nothing but the [aux] of tensors differs. *)
Definition alike {X} (w w' : heap K * X) : Prop :=
  map (put_aux None) (fst w) = map (put_aux None) (fst w') /\ snd w = snd w'.
(** A step that does not look at the [aux] it finds. *)
Definition unaware {X} (a : heap K * X -> (heap K * X) * option exn) : Prop :=
  forall w w', alike w w' -> alike (fst (a w)) (fst (a w')) /\ snd (a w) = snd (a w').

(** [<x|y>] and [sum_v x(v) y(v)]; a matrix applied to a wave function. *)
Definition braket (ds : list nat) (x y : list nat -> K) : K := sumL (indices ds) (fun v => rmul (rconj (x v)) (y v)).
Definition overlap (ds : list nat) (x y : list nat -> K) : K := sumL (indices ds) (fun v => rmul (x v) (y v)).
Definition apply (ds : list nat) (U : list nat -> list nat -> K) (x : list nat -> K) (v : list nat) : K :=
  sumL (indices ds) (fun w => rmul (U v w) (x w)).
End AutoSpec.
Arguments arrays {K} _ _. Arguments wave {K} _ _ _. Arguments holds {K} _ _ _. Arguments alike {K X} _ _.
Arguments unaware {K X} _. Arguments braket {K} _ _ _. Arguments overlap {K} _ _ _. Arguments apply {K} _ _ _ _.
