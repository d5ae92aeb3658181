(** The terms that a propagation with environments of the first term takes. *)
From Coq Require Import List Arith Bool.
From Verif Require Import Alg NdArray_Model Net_Model Net_Spec.
Import ListNotations.
Local Open Scope nat_scope.

Section PsSpec.
Variable K : StarRing.

(** [l] is a leaf joined directly to the tensor with these neighbours. *)
Definition joined (ks : list (nat * tree * nat)) (l : id) : bool :=
  existsb (fun k => match snd (fst k) with Lf l' => l' =? l | Nd _ _ => false end) ks.
(** The matrices of [term] at the leaves joined directly to the tensor, those of [first] at
    all others. *)
Definition mixed (ks : list (nat * tree * nat)) (first term : list (id * arr K)) : list (id * arr K) :=
  filter (fun p => joined ks (fst p)) term ++ filter (fun p => negb (joined ks (fst p))) first.
(** All terms of a sum, so mixed with the first one. *)
Definition mixtures (ks : list (nat * tree * nat)) (terms : list (list (id * arr K))) : list (list (id * arr K)) :=
  map (mixed ks (hd [] terms)) terms.
(** Every matrix sits on a leaf. *)
Definition seated (h : heap K) (terms : list (list (id * arr K))) : Prop :=
  forall term l m, In term terms -> In (l, m) term -> l < length h /\ oleaf (hget h l) = true.
End PsSpec.
Arguments mixed {K} _ _ _. Arguments mixtures {K} _ _. Arguments seated {K} _ _.
