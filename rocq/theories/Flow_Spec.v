(** How a state and its expectation values change when all tensors move at once. *)
From Coq Require Import String List Arith Bool.
From Verif Require Import Py Alg ListX NdArray_Model Net_Model Net_Spec Eom_Spec Direct_Spec.
Import ListNotations.
Local Open Scope nat_scope.

Section FlowSpec.
Variable K : StarRing.
Implicit Types A B D : id -> arr K.

(** [A n + eps D n] for every tensor. *)
Definition moved A D (eps : K) : id -> arr K := fun n => mkArr (shape (A n)) (advanced (data (A n)) eps (data (D n))).
(** The derivative of the dense tensor: one array after the other replaced by its derivative. *)
Definition dense_dot A D (t : tree) (v : list nat) : K := sumL (nids t) (fun u => dense (exchanged A u (D u)) t v).
(** A polynomial given by its coefficients, lowest first. *)
Fixpoint horner (cs : list K) (x : K) : K := match cs with [] => r0 | c :: cs => radd c (rmul x (horner cs x)) end.
(** On real numbers [f] is a polynomial that starts with [c0 + c1 x]. *)
Definition starts (f : K -> K) (c0 c1 : K) : Prop :=
  exists cs, forall x, rconj x = x -> f x = radd c0 (rmul x (radd c1 (rmul x (horner cs x)))).

(** The square of the norm and the expectation value of a state; the square of the norm of
    its derivative. *)
Definition norm2 A (t : tree) : K := sumL (indices (ldims A None 0 t)) (fun v => rmul (dense A t v) (rconj (dense A t v))).
Definition expectation terms A (t : tree) : K := sumL terms (element A (fun n => arr_conj (A n)) t).
Definition speed2 A D (t : tree) : K :=
  sumL (indices (ldims A None 0 t)) (fun v => rmul (dense_dot A D t v) (rconj (dense_dot A D t v))).
End FlowSpec.
Arguments moved {K} _ _ _ _. Arguments dense_dot {K} _ _ _ _. Arguments horner {K} _ _. Arguments starts {K} _ _ _.
Arguments norm2 {K} _ _. Arguments expectation {K} _ _ _. Arguments speed2 {K} _ _ _.
