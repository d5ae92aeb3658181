(** Matrices of operators between functions on an interval. *)
From Coq Require Import List Arith Reals.
From Verif Require Import Py Alg Ord NdArray_Model Discretise_Spec.
Import ListNotations.
Local Open Scope R_scope.

(** [M] is the matrix of the integrals of the functions [k i j]. *)
Definition matrix_of (a b : R) (n : nat) (k : nat -> nat -> R -> R) (M : arr R_star) : Prop :=
  is_matrix M n n /\ forall i j, (i < n)%nat -> (j < n)%nat -> integral (k i j) a b (get M [i; j]).
(** The functions are orthonormal. *)
Definition orthonormal (a b : R) (n : nat) (phi : nat -> R -> R) : Prop :=
  forall i j, (i < n)%nat -> (j < n)%nat -> integral (fun x => phi i x * phi j x) a b (if (i =? j)%nat then 1 else 0).
(** [f'] and [f''] are the derivatives of [f], and [f''] is continuous. *)
Definition twice (f f' f'' : R -> R) : Prop :=
  forall x, derivable_pt_lim f x (f' x) /\ derivable_pt_lim f' x (f'' x) /\ continuity_pt f'' x.
(** How the integrals are done: exactly, for this function. *)
Definition does (sym_int : (R -> R) -> option (R * R) -> R) (quad : (R -> R) -> R -> R -> nat -> R) (num_prec : option nat) (f : R -> R) (a b : R) : Prop :=
  match num_prec with None => integral f a b (sym_int f (Some (a, b))) | Some p => integral f a b (quad f a b p) end.
(** The inner product of two vectors. *)
Definition inner (n : nat) (v w : list R) : R := sumn (K := R_star) n (fun i => nth i v 0 * nth i w 0).
