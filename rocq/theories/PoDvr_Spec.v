(** Operators on one axis of many. *)
From Coq Require Import List Arith.
From Verif Require Import Py Alg ListX NdArray_Model.
Import ListNotations.

Section Spec.
Context {K : StarRing}.
(** [H] applied to axis [i] of a function of several indices; [q] values are summed over *)
Definition on_axis (i q : nat) (H : nat -> nat -> K) (f : list nat -> K) (idx : list nat) : K :=
  sumn q (fun k => rmul (H (nth i idx 0) k) (f (upd i k idx))).
(** [h] multiplies vectors of length [q] by the [m] by [q] matrix [H] *)
Definition acts (m q : nat) (H : nat -> nat -> K) (h : list K -> res (list K)) : Prop :=
  forall v, length v = q -> exists w, h v = Ok w /\ length w = m /\ forall i, i < m -> nth i w r0 = sumn q (fun k => rmul (H i k) (nth k v r0)).
(** All sizes from the second on are equal (true for one and two axes). *)
Definition equal_tail (sizes : list nat) : Prop := exists c, Forall (eq c) (tl sizes).
(** The sizes after axis [i] are equal. *)
Definition equal_after (i : nat) (sizes : list nat) : Prop := exists c, Forall (eq c) (skipn (S i) sizes).
End Spec.
