(** The equations for an extended wave function, and products of two of them. *)
From Coq Require Import List Arith Bool.
From Verif Require Import Alg ListX NdArray_Model Heom_Spec.
Import ListNotations.
Local Open Scope nat_scope.

Section Spec.
Variable K : StarRing.
Local Open Scope star_scope.

(** H c_n + b (sum n_k gamma_k) c_n + sum_k sqrt(n_k + 1) X c_(n + e_k) + sum_k z_k sqrt(n_k) X c_(n - e_k);
    the matrices act on the second index. *)
Definition wave_rhs (b : K) (sq : nat -> K) (d kmax : nat) (H X : nat -> nat -> K) (gamma z : nat -> K) (c : ext K) : ext K := fun n q p =>
  sumn d (fun a => H p a * c n q a)
  + b * sumn kmax (fun k => num (occ n k) * gamma k) * c n q p
  + sumn kmax (fun k => sq (S (occ n k)) * sumn d (fun a => X p a * c (more k n) q a))
  + sumn kmax (fun k => z k * sq (occ n k) * sumn d (fun a => X p a * c (less k n) q a)).

(** [sum conj(f) g] *)
Definition overlap (dims : list nat) (d : nat) (f g : ext K) : K :=
  sumL (indices dims) (fun n => sumn d (fun q => sumn d (fun p => rconj (f n q p) * g n q p))).
(** Norm square weighted with [sum n_k gamma_k]. *)
Definition weight (dims : list nat) (d : nat) (gamma : nat -> K) (f : ext K) : K :=
  sumL (indices dims) (fun n => sumn (length dims) (fun k => num (occ n k) * gamma k) * sumn d (fun q => sumn d (fun p => rconj (f n q p) * f n q p))).
End Spec.
Arguments wave_rhs {K} _ _ _ _ _ _ _ _ _ _ _ _. Arguments overlap {K} _ _ _ _. Arguments weight {K} _ _ _ _.
