(** Eigenvectors, products of functions of one index, sums of operators on one axis. *)
From Coq Require Import List Arith Reals.
From Verif Require Import Py Alg ListX NdArray_Model Cplx PoDvr_Spec.
Import ListNotations.
Local Open Scope nat_scope.

(** The columns of [V] are [k] real orthonormal eigenvectors of [h], which has [n] rows. *)
Definition eigenvectors (n k : nat) (h : nat -> nat -> C_star) (es : list C_star) (V : nat -> nat -> C_star) : Prop :=
  (forall x p, x < n -> p < k -> snd (V x p) = 0%R) /\
  (forall p q, p < k -> q < k -> sumn n (fun x => rmul (rconj (V x p)) (V x q)) = delta p q) /\
  (forall x p, x < n -> p < k -> sumn n (fun y => rmul (h x y) (V y p)) = rmul (nth p es r0) (V x p)).

(** [f_0(x_0) f_1(x_1) ...] *)
Fixpoint times (fs : list (nat -> C_star)) (x : list nat) : C_star :=
  match fs, x with
  | f :: fs, a :: x => rmul (f a) (times fs x)
  | _, _ => r1
  end.
(** [sum_i H_i] on axis [i], applied to [f]. *)
Definition sum_on_axes (ns : list nat) (Hs : list (nat -> nat -> C_star)) (f : list nat -> C_star) (x : list nat) : C_star :=
  sumL (seq 0 (length ns)) (fun i => on_axis i (nth i ns 0) (nth i Hs (fun _ _ => r0)) f x).
(** The product of functions of some of the indices, as a list of pairs (axis, values). *)
Definition factors (l : list (nat * list C_star)) (x : list nat) : C_star :=
  fold_right (fun p z => rmul (nth (nth (fst p) x 0) (snd p) r0) z) r1 l.
