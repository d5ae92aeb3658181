(** Overlaps, means and product states over many indices. *)
From Coq Require Import List Arith.
From Verif Require Import Alg NdArray_Model.
Import ListNotations.

Section Spec.
Context {K : StarRing}.
(** <u|v> of lists *)
Definition dotc (n : nat) (u v : list K) : K := sumn n (fun i => rmul (rconj (nth i u r0)) (nth i v r0)).
(** <v|H|v> for one axis *)
Definition mean1 (n : nat) (H : nat -> nat -> K) (v : list K) : K := sumn n (fun i => sumn n (fun k => rmul (rconj (nth i v r0)) (rmul (H i k) (nth k v r0)))).
(** The product of the vectors [vs], one for each axis, at an index *)
Fixpoint product_at (vs : list (list K)) (idx : list nat) : K :=
  match vs, idx with v :: vs, x :: idx => rmul (nth x v r0) (product_at vs idx) | _, _ => r1 end.
Definition hermitian (n : nat) (H : nat -> nat -> K) : Prop := forall i k, i < n -> k < n -> H i k = rconj (H k i).
Fixpoint prodK (l : list K) : K := match l with [] => r1 | x :: l => rmul x (prodK l) end.
End Spec.
