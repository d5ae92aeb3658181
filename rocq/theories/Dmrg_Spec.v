(** What the sweeps of the density matrix renormalisation group have to respect. *)
From Coq Require Import List Arith.
From Verif Require Import Py Alg Ord ListX NdArray_Model Mps_Spec.
Import ListNotations.
Local Open Scope nat_scope.

Section DmrgSpec.
Variable K : StarRing.
Variable F : OrdRing.
Local Open Scope star_scope.

(** An eigensolver returns a vector of the length of the problem. *)
Definition eig_sizes (eig : arr K -> arr K -> arr K -> arr K -> arr K) : Prop :=
  forall L W R A, length (data (eig L W R A)) = prod [nth 3 (shape W) O; nth 2 (shape L) O; nth 2 (shape R) O].
(** A decomposition of an m x n matrix has at least one term, and factors of matching shapes. *)
Definition svd_shapes (svd : arr K -> arr K * list F * arr K) : Prop :=
  forall a m n, wf a -> shape a = [m; n] -> (0 < m)%nat -> (0 < n)%nat ->
    let '(u, s, v) := svd a in (0 < length s)%nat /\ wf u /\ shape u = [m; length s] /\ wf v /\ shape v = [length s; n].

Variable n : nat.                         (* sites *)
Variable d Do : nat -> nat.               (* local states, bonds of the operator *)
Variable mpo : list (arr K).

(** The solver works on the site [s] with the matrices [mps]: it is given the operator of the
    site and the contractions of all matrices to the left and to the right, as they are now. *)
Definition up_to_date1 (s : nat) (mps : list (arr K)) (L W R : arr K) : Prop :=
  exists D, chain n d D mps /\ (s < n)%nat /\ nth_error mpo s = Some W /\
    left_env mpo mps s (Do s) (D s) L /\ right_env mpo mps (S s) (Do (S s)) (D (S s)) R.
(** The same for the two sites [s] and [s + 1], with the product of their operators. *)
Definition merged (x y z d1 d2 : nat) (W X Y : arr K) : Prop :=
  wf Y /\ shape Y = [x; z; (d1 * d2)%nat; (d1 * d2)%nat] /\
  forall a c s t u v, (a < x)%nat -> (c < z)%nat -> (s < d1)%nat -> (u < d1)%nat -> (t < d2)%nat -> (v < d2)%nat ->
    get Y [a; c; (s * d2 + t)%nat; (u * d2 + v)%nat] = sumn y (fun b => get W [a; b; s; u] * get X [b; c; t; v]).
Definition up_to_date2 (s : nat) (mps : list (arr K)) (L Y R : arr K) : Prop :=
  exists D W X, chain n d D mps /\ (S s < n)%nat /\ nth_error mpo s = Some W /\ nth_error mpo (S s) = Some X /\
    merged (Do s) (Do (S s)) (Do (S (S s))) (d s) (d (S s)) W X Y /\
    left_env mpo mps s (Do s) (D s) L /\ right_env mpo mps (S (S s)) (Do (S (S s))) (D (S (S s))) R.
End DmrgSpec.
Arguments eig_sizes {K} _. Arguments svd_shapes {K F} _. Arguments up_to_date1 {K} _ _ _ _ _ _ _ _ _. Arguments up_to_date2 {K} _ _ _ _ _ _ _ _ _. Arguments merged {K} _ _ _ _ _ _ _ _.
