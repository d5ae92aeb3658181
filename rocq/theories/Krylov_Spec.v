(** Families of vectors: [m] vectors of [n] components, [A i] the vector number [i]. *)
From Coq Require Import Arith.
From Verif Require Import Alg.

Section Spec.
Context {K : StarRing}.
Definition orthonormal (m n : nat) (A : nat -> nat -> K) : Prop :=
  forall i j, i < m -> j < m -> sumn n (fun k => rmul (rconj (A i k)) (A j k)) = if Nat.eqb i j then r1 else r0.
(** [v] is a combination of the vectors *)
Definition spans (m n : nat) (A : nat -> nat -> K) (v : nat -> K) : Prop :=
  exists c : nat -> K, forall k, k < n -> v k = sumn m (fun i => rmul (A i k) (c i)).
(** What [scipy.linalg.orth] promises for an array [A] of [n] rows and [m] columns: [r] columns
    [U] of [n] components, not more than there are columns or rows, orthonormal, with the same combinations. *)
Definition orth_columns (n m : nat) (A : nat -> nat -> K) (r : nat) (U : nat -> nat -> K) : Prop :=
  r <= m /\ r <= n /\ orthonormal r n (fun i k => U k i) /\ forall v, spans r n (fun i k => U k i) v <-> spans m n (fun i k => A k i) v.
End Spec.
