(** What the sine representation is. *)
From Coq Require Import List Arith Reals.
From Verif Require Import Py Alg Ord NdArray_Model.
Import ListNotations.

(** A square matrix with the given entries. *)
Definition square {K : StarRing} (n : nat) (M : arr K) (f : nat -> nat -> K) : Prop :=
  wf M /\ shape M = [n; n] /\ forall i j, i < n -> j < n -> get M [i; j] = f i j.
(** [M v = w] *)
Definition image {K : StarRing} (n : nat) (M : arr K) (v w : list K) : Prop :=
  length w = n /\ forall i, i < n -> nth i w r0 = sumn n (fun j => rmul (get M [i; j]) (nth j v r0)).

Local Open Scope R_scope.
(** The normalised states of a particle in a box from [x0] to [x0 + L], [j = 1, 2, ...] *)
Definition box (L x0 : R) (j : nat) (x : R) : R := sqrt (2 / L) * sin (INR j * PI * (x - x0) / L).
(** and their derivatives *)
Definition box' (L x0 : R) (j : nat) (x : R) : R := sqrt (2 / L) * (INR j * PI / L) * cos (INR j * PI * (x - x0) / L).

(** The discrete sine transform of the first kind *)
Definition sine_transform (n : nat) (dst : list R -> res (list R)) : Prop :=
  forall v, length v = n -> exists w, dst v = Ok w /\ length w = n /\
    forall k, (k < n)%nat -> nth k w 0 = 2 * sumn (K := R_star) n (fun i => nth i v 0 * sin (PI * INR (S k) * INR (S i) / (INR n + 1))).

(** An eigenvalue decomposition of a symmetric matrix by an orthogonal one. *)
Definition eigen_decomposition (n : nat) (T : arr R_star) (l : list R) (V : arr R_star) : Prop :=
  is_matrix V n n /\ length l = n /\
  (forall i k, (i < n)%nat -> (k < n)%nat -> sumn (K := R_star) n (fun j => rmul (get T [i; j]) (get V [j; k])) = rmul (s := R_star) (nth k l 0) (get V [i; k])) /\
  (forall k l, (k < n)%nat -> (l < n)%nat -> sumn (K := R_star) n (fun i => rmul (get V [i; k]) (get V [i; l])) = delta k l) /\
  (forall i j, (i < n)%nat -> (j < n)%nat -> sumn (K := R_star) n (fun k => rmul (get V [i; k]) (get V [j; k])) = delta i j).
(** The conjugate transpose is the inverse. *)
Definition unitary {K : StarRing} (n : nat) (M : arr K) : Prop :=
  forall i j, (i < n)%nat -> (j < n)%nat -> sumn n (fun k => rmul (rconj (get M [k; i])) (get M [k; j])) = delta i j.
