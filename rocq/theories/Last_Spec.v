(** Specification: the last vector that the solver hands over while a tensor is propagated. *)
From Coq Require Import List.
From Verif Require Import Alg Cache_Model.
Import ListNotations.

Section LastSpec.
Variable K : StarRing.
Variable D : Type.
(** [y] is accepted by some call, and none is accepted after it. *)
Definition last_update (cs : list (call K D)) (y : list K) : Prop :=
  exists before after, cs = before ++ Update K D y :: after /\ forall y', ~ In (Update K D y') after.
End LastSpec.
Arguments last_update {K D} _ _.
