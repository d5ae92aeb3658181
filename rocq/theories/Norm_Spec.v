(** Specifications for canonical form and norm of a network during splitting steps. *)
From Coq Require Import List Arith Bool.
From Verif Require Import Py Alg ListX NdArray_Model Net_Model Net_Spec Contract_Spec Env_Spec Move_Spec.
Import ListNotations.
Local Open Scope nat_scope.

Section NormSpec.
Variable K : StarRing.

(** Sum of the squared moduli. *)
Definition sqnorm (l : list K) : K := sumL l (fun c => rmul (rconj c) c).

(** A decomposition routine that always returns three matrices with matching shapes, the last
    one with orthonormal rows: what is left of a singular value decomposition when it is cut. *)
Definition orthonormal_rows (v : arr K) (r q : nat) : Prop :=
  forall b b', b < r -> b' < r -> sumn q (fun k => rmul (rconj (get v [b; k])) (get v [b'; k])) = delta b b'.
Definition cut_svd (csvd : arr K -> res (arr K * arr K * arr K)) : Prop :=
  forall m p q, wf m -> shape m = [p; q] -> 0 < p -> 0 < q ->
    exists u s v r, csvd m = Ok (u, s, v) /\ triple m u s v r /\ 0 < r /\ orthonormal_rows v r q.
(** ... and such that the three multiply to the matrix. *)
Definition whole_svd (csvd : arr K -> res (arr K * arr K * arr K)) : Prop :=
  forall m p q, wf m -> shape m = [p; q] -> 0 < p -> 0 < q ->
    exists u s v r, csvd m = Ok (u, s, v) /\ triple m u s v r /\ 0 < r /\ orthonormal_rows v r q /\ exact m u s v r.

(** Every tensor but the root has orthonormal rows along the axis towards the root. *)
Definition canonical_about (h : heap K) (R : tree) (A : id -> arr K) : Prop :=
  forall t, In t (nids R) -> t <> top R -> unit_along (A t) (oaxis (hget h t)).

(** Sum over all values of the leaves of the squared modulus of the amplitude. *)
Definition state_norm (R : tree) (A : id -> arr K) : K :=
  sumL (indices (ldims A None 0 R)) (fun v => rmul (dense A R v) (rconj (dense A R v))).
End NormSpec.
Arguments sqnorm {K} _. Arguments orthonormal_rows {K} _ _ _. Arguments cut_svd {K} _. Arguments whole_svd {K} _.
Arguments canonical_about {K} _ _ _. Arguments state_norm {K} _ _.
