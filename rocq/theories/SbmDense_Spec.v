(** A matrix over the points of a box, and what [dense_h] puts into it. *)
From Coq Require Import List Arith Reals.
From Verif Require Import Alg ListX NdArray_Model Cplx HeomGrid_Spec.
Import ListNotations.

(** The matrix [D], over the points of the box [sh] in their order, applied to [v] *)
Definition applied {K : StarRing} (sh : list nat) (D : nat -> nat -> K) (v : list nat -> K) (x : list nat) : K :=
  sumL (indices sh) (fun y => rmul (D (ravel sh x) (ravel sh y)) (v y)).
(** [O] on axis [p] of length [n] *)
Definition along {K : StarRing} (n p : nat) (O : nat -> nat -> K) (v : list nat -> K) (x : list nat) : K :=
  sumn n (fun z => rmul (O (nth p x 0) z) (v (upd p z x))).
Definition flipped {K : StarRing} (m : arr K) : nat -> nat -> K := fun i j => get m [j; i].

(** -i (H acting on the first axis - H acting on the second one) *)
Definition turning (d : nat) (h : arr C_star) (v : list nat -> C_star) (x : list nat) : C_star :=
  (- C_i * (along d 0 (flipped h) v x - along d 1 (flipped h) v x))%S.
(** The sum of the factors: those of the coupling, -i X, i X and c f' U + f D, c' f' U + f D, are added instead of multiplied. *)
Definition added_up (d : nat) (dims : list nat) (h op : arr C_star) (sq : nat -> C_star) (gamma c c' : nat -> C_star) (f f' : C_star) (v : list nat -> C_star) (x : list nat) : C_star :=
  (turning d h v x +
   sumn (length dims) (fun k =>
     let on O := along (nth k dims 0%nat) (2 + k) O v x in
     gamma k * on (l_number (numbered sq)) + turning d op v x + (c k + c' k) * f' * on (l_up (numbered sq)) + (1 + 1) * f * on (l_down (numbered sq))))%S.
