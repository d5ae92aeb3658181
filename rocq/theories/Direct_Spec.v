(** What the derivatives of all tensors of a network should be. *)
From Coq Require Import String List Arith Bool.
From Verif Require Import Py Alg ListX NdArray_Model Net_Model Net_Spec Sweep_Spec Link_Spec Env_Spec Cache_Model Eom_Spec.
Import ListNotations.
Local Open Scope nat_scope.

Section DirectSpec.
Variable K : StarRing.
Implicit Types A B : id -> arr K.

(** [sum_v A(v) B(v)] over the values of the leaves: the scalar product, if [B] is conjugated. *)
Definition overlap A B (t : tree) : K :=
  sumL (indices (ldims A None 0 t)) (fun v => rmul (dense A t v) (dense B t v)).
(** Scalar products of the slices of two arrays along an axis. *)
Definition crossed (f a : arr K) (ax p q : nat) : K :=
  sumL (indices (del ax (shape a))) (fun x => rmul (get f (ins ax p x)) (get a (ins ax q x))).

(** The reduced density matrix of axis [ax] of [t]: what joins the slices of two arrays
    in the place of the array of [t]. *)
Definition density A (R : tree) (t : id) (ax : nat) (rho : arr K) : Prop :=
  let d := nth ax (shape (A t)) 0 in
  is_matrix rho d d /\
  forall x y, wf x -> wf y -> shape x = shape (A t) -> shape y = shape (A t) ->
    overlap (exchanged A t x) (varied A t y) R =
    sumn d (fun p => sumn d (fun q => rmul (get rho [p; q]) (crossed y x ax q p))).
(** [m] times [rho] is the identity. *)
Definition inverse_of (m rho : arr K) (d : nat) : Prop :=
  is_matrix m d d /\ forall p q, p < d -> q < d -> sumn d (fun c => rmul (get m [p; c]) (get rho [c; q])) = delta p q.

(** As [standing], with the axis of every tensor other than the root pointing to the root and
    all those tensors orthonormal along that axis. *)
Definition canonical (fuel : nat) (h : heap K) (r : id) (ks : list (nat * tree * nat)) A (terms : list (list (id * arr K))) : Prop :=
  standing fuel h r ks A terms /\ dicts_ok h /\ oriented h None (Nd r ks) /\
  (forall l, In l (lids (Nd r ks)) -> oaxis (hget h l) = None) /\
  (forall n, In n (nids (Nd r ks)) -> n <> r -> unit_along (A n) (oaxis (hget h n))).

(** A change of the conjugated array of [t] that is allowed: any for the root, otherwise
    orthogonal to the array along the axis of [t]. *)
Definition allowed (h : heap K) A (t : id) (f : arr K) : Prop :=
  wf f /\ shape f = shape (A t) /\
  forall ax p q, oaxis (hget h t) = Some ax -> p < nth ax (shape (A t)) 0 -> q < nth ax (shape (A t)) 0 ->
    crossed f (A t) ax p q = r0.

(** The inversion gives a matrix of the right shape for every density; and an inverse. *)
Definition yields (invert : option (arr K) -> nat -> res (arr K)) (h : heap K) A (R : tree) : Prop :=
  forall t ax rho, In t (nids R) -> oaxis (hget h t) = Some ax -> density A R t ax rho ->
    exists m, invert (Some rho) (nth ax (shape (A t)) 0) = Ok m /\ is_matrix m (nth ax (shape (A t)) 0) (nth ax (shape (A t)) 0).
Definition inverts (invert : option (arr K) -> nat -> res (arr K)) (h : heap K) A (R : tree) (t : id) : Prop :=
  forall ax rho m, oaxis (hget h t) = Some ax -> density A R t ax rho ->
    invert (Some rho) (nth ax (shape (A t)) 0) = Ok m -> inverse_of m rho (nth ax (shape (A t)) 0).

(** [sum_v (dA/dt)(v) B(v)] when every array [A n] has the derivative [D n]. *)
Definition rate A (D : id -> arr K) B (R : tree) : K := sumL (nids R) (fun u => overlap (exchanged A u (D u)) B R).
Definition shift (e0 : option K) : K := match e0 with None => r0 | Some e => e end.
End DirectSpec.
Arguments overlap {K} _ _ _. Arguments crossed {K} _ _ _ _ _. Arguments density {K} _ _ _ _ _. Arguments inverse_of {K} _ _ _.
Arguments canonical {K} _ _ _ _ _ _. Arguments allowed {K} _ _ _ _.
Arguments yields {K} _ _ _ _. Arguments inverts {K} _ _ _ _ _. Arguments rate {K} _ _ _ _. Arguments shift {K} _.
