(** Specifications for links between tensors. *)
From Coq Require Import List Arith Bool Sorting.Sorted.
From Verif Require Import Py Alg ListX NdArray_Model Net_Model.
Import ListNotations.
Local Open Scope nat_scope.

Section Link.
Variable K : StarRing.
Implicit Type h : heap K.

(** Axis [i] of [a] points to axis [j] of [b]. *)
Definition points h (a : id) (i : nat) (b : id) (j : nat) : Prop :=
  In (i, (b, j)) (oacc (hget h a)).
Definition free h (a : id) (i : nat) : Prop := forall b j, ~ points h a i b j.
Definition symmetric h : Prop := forall a i b j, points h a i b j -> points h b j a i.

(** Each dict has distinct keys in increasing order (how dicts are represented). *)
Definition dicts_ok h : Prop := forall n, Sorted lt (map fst (oacc (hget h n))).

(** Attributes other than the links. *)
Definition same_but_links h h' : Prop :=
  length h' = length h /\ forall n,
    oname (hget h' n) = oname (hget h n) /\ oleaf (hget h' n) = oleaf (hget h n) /\
    oarr (hget h' n) = oarr (hget h n) /\ oaux (hget h' n) = oaux (hget h n) /\
    oaxis (hget h' n) = oaxis (hget h n) /\ onorm (hget h' n) = onorm (hget h n) /\
    ocache (hget h' n) = ocache (hget h n).

(** Histories of linking free slots and unlinking existing links. *)
Inductive history : heap K -> heap K -> Prop :=
| hist_nil h : history h h
| hist_link h h1 a i b j : history h h1 -> a < length h1 -> b < length h1 -> (a, i) <> (b, j) ->
    free h1 a i -> free h1 b j -> history h (link h1 a i b j)
| hist_unlink h h1 h2 a i b j : history h h1 -> unlink h1 a i b j = Ok h2 -> history h h2.

(** Complete at one tensor: a link on each axis below the order, none elsewhere,
    both ends agree; in strict mode lengths agree unless an end is a leaf without
    array. *)
Definition ends_fit h (n : id) (i : nat) (c : id) (j : nat) : Prop :=
  (oleaf (hget h n) = true /\ oarr (hget h n) = None) \/
  (oleaf (hget h c) = true /\ oarr (hget h c) = None) \/
  exists a b, oarr (hget h n) = Some a /\ oarr (hget h c) = Some b /\
    i < ndim a /\ j < ndim b /\ nth i (shape a) 0 = nth j (shape b) 0.

Definition complete_at h (n : id) (strict : bool) : Prop :=
  (forall k, (exists c j, points h n k c j) <->
             k < (if oleaf (hget h n) then 1 else length (oacc (hget h n)))) /\
  (forall i c j, points h n i c j ->
     points h c j n i /\ (strict = true -> ends_fit h n i c j)).

End Link.
Arguments points {K} _ _ _ _ _. Arguments free {K} _ _ _. Arguments symmetric {K} _.
Arguments dicts_ok {K} _. Arguments same_but_links {K} _ _. Arguments history {K} _ _.
Arguments ends_fit {K} _ _ _ _ _. Arguments complete_at {K} _ _ _.
