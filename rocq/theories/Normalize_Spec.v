(** Gram-Schmidt orthonormalisation of the rows of an array. *)
From Coq Require Import List Arith.
From Verif Require Import Alg ListX NdArray_Model.
Import ListNotations.

Section Spec.
Variable K : StarRing.
Local Open Scope star_scope.

(** A family of [n] rows, each a function of an index [x]. *)
Definition family (X : Type) : Type := nat -> X -> K.

(** Only the trivial combination of the first [n] rows vanishes on [xs]. *)
Definition independent {X} (xs : list X) (n : nat) (v : family X) : Prop :=
  forall c : nat -> K, (forall x, In x xs -> sumn n (fun i => c i * v i x) = 0) -> forall i, (i < n)%nat -> c i = 0.
Definition inner_prod {X} (xs : list X) (u v : X -> K) : K := sumL xs (fun x => rconj (u x) * v x).
Definition orthonormal {X} (xs : list X) (n : nat) (u : family X) : Prop :=
  forall i j, (i < n)%nat -> (j < n)%nat -> inner_prod xs (u i) (u j) = delta i j.
(** Row [i] of [u] is a combination of the rows 0..i of [v], for every [i]. *)
Definition lower {X} (xs : list X) (n : nat) (u v : family X) : Prop :=
  exists c : nat -> nat -> K, forall i x, (i < n)%nat -> In x xs -> u i x = sumn (S i) (fun j => c i j * v j x).

(** The same, the factor of row [i] being [d i]. *)
Definition lower_with {X} (xs : list X) (n : nat) (d : nat -> K) (u v : family X) : Prop :=
  exists c : nat -> nat -> K, (forall i, (i < n)%nat -> c i i = d i) /\
    forall i x, (i < n)%nat -> In x xs -> u i x = sumn (S i) (fun j => c i j * v j x).

(** Rows of an array along an axis. *)
Definition along (a : arr K) (axis : nat) : family (list nat) := fun i r => get a (ins axis i r).
End Spec.
Arguments independent {K X} _ _ _. Arguments inner_prod {K X} _ _ _. Arguments orthonormal {K X} _ _ _. Arguments lower {K X} _ _ _ _. Arguments lower_with {K X} _ _ _ _ _. Arguments along {K} _ _ _ _.
