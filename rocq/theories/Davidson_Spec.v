(** What is expected of the eigenvalue solver. *)
From Coq Require Import List Arith.
From Verif Require Import Py Alg Davidson_Model.
Import ListNotations.

Section Spec.
Context {K : StarRing}.
Variable N : nat.
Notation vec := (list K).
(** The scalar product *)
Definition inner (u v : vec) : K := sumn N (fun k => rmul (rconj (nth k u r0)) (nth k v r0)).
Definition at_ (l : list vec) (i : nat) : vec := nth i l [].
Definition orthonormal (l : list vec) : Prop := forall i j, i < length l -> j < length l -> inner (at_ l i) (at_ l j) = delta i j.
(** [v] is a combination of the vectors of [l] *)
Definition spanned (l : list vec) (v : vec) : Prop :=
  exists c : nat -> K, forall k, k < N -> nth k v r0 = sumn (length l) (fun i => rmul (c i) (nth k (at_ l i) r0)).
Definition hermitian (A : vec -> vec) : Prop := forall u v, length u = N -> length v = N -> inner u (A v) = rconj (inner v (A u)).
(** [A] multiplies by a matrix *)
Definition linear (A : vec -> vec) : Prop :=
  exists M : nat -> nat -> K, forall v k, k < N -> nth k (A v) r0 = sumn N (fun l => rmul (M k l) (nth l v r0)).
(** [scipy.linalg.orth] *)
Definition orth_ok (orth : list vec -> list vec) : Prop := forall t, t <> [] ->
  length (orth t) <= length t /\ orthonormal (orth t) /\ Forall (fun v => length v = N) (orth t) /\ Forall (spanned t) (orth t).
(** A vector not found small can be normalised *)
Definition norm_ok (big : vec -> bool) (inv : vec -> K) : Prop := forall v, big v = true ->
  rconj (inv v) = inv v /\ rmul (rmul (inv v) (inv v)) (inner v v) = r1.
(** [k] eigenvalues and eigenvectors of a matrix of size [n] *)
Definition eigenpairs (n : nat) (s : nat -> nat -> K) (k : nat) (p : list K * list (list K)) : Prop :=
  length (fst p) = k /\ length (snd p) = k /\
  (forall i, i < k -> length (nth i (snd p) []) = n) /\
  (forall i a, i < k -> a < n -> sumn n (fun b => rmul (s a b) (nth b (nth i (snd p) []) r0)) = rmul (nth i (fst p) r0) (nth a (nth i (snd p) []) r0)) /\
  (forall i j, i < k -> j < k -> sumn n (fun b => rmul (rconj (nth b (nth i (snd p) []) r0)) (nth b (nth j (snd p) []) r0)) = delta i j).
(** As many eigenvalues and rows as asked for *)
Definition eigh_sizes (eigh : nat -> (nat -> nat -> K) -> nat -> list K * list (list K)) : Prop := forall n s k,
  length (fst (eigh n s k)) = k /\ length (snd (eigh n s k)) = k.
(** The matrix [s] is that of [A] in the vectors of [l], up to the conversion [cast] *)
Definition projected (cast : K -> K) (A : vec -> vec) (l : list vec) (s : nat -> nat -> K) : Prop :=
  forall i j, i < length l -> j < length l -> s i j = cast (inner (at_ l i) (A (at_ l j))).
End Spec.
