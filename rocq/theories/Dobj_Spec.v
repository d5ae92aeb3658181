(** Hamiltonians and histories. *)
From Coq Require Import List Arith Reals.
From Verif Require Import Py Alg Ord Cplx NdArray_Model.
Import ListNotations.
Local Open Scope R_scope.

(** [H] is the kinetic energy [T] plus the potential [f] at the [n] points [x]. *)
Definition hamiltonian (n : nat) (T : arr R_star) (x : list R) (f : R -> R) (H : arr R_star) : Prop :=
  is_matrix H n n /\ forall i j, (i < n)%nat -> (j < n)%nat -> get H [i; j] = (get T [i; j] : R) + (if (i =? j)%nat then f (nth i x 0) else 0).
Definition symmetric (n : nat) (T : arr R_star) : Prop := is_matrix T n n /\ forall i j, (i < n)%nat -> (j < n)%nat -> get T [i; j] = get T [j; i].
(** [v] is a normalised eigenvector of [H] with the eigenvalue [e]. *)
Definition eigenpair (n : nat) (H : arr R_star) (e : R) (v : list R) : Prop :=
  length v = n /\ (forall i, (i < n)%nat -> sumn (K := R_star) n (fun j => (get H [i; j] : R) * nth j v 0) = e * nth i v 0) /\ sumn (K := R_star) n (fun i => nth i v 0 * nth i v 0) = 1.
(** <v|H|v> *)
Definition mean (n : nat) (H : arr R_star) (v : list C_star) : C_star :=
  sumn n (fun i => sumn n (fun j => rmul (rconj (nth i v r0)) (rmul (RtoC (get H [i; j])) (nth j v r0)))).
