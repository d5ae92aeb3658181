(** Specification of truncated decompositions. *)
From Coq Require Import List Arith ZArith.
From Verif Require Import Alg Ord NdArray_Model.
Import ListNotations.

Section Spec.
Variable K : OrdRing.
Variable C : StarRing.
Variable inj : K -> C.

(** What is thrown away when [r] leading values are kept. *)
Definition discarded (s : list K) (r : nat) : K := sum_list (skipn r s).

(** [r] is the smallest admissible number of kept values, at least one. *)
Definition smallest_rank (s : list K) (err : K) (r : nat) : Prop :=
  1 <= r /\ ole (discarded s r) err /\
  forall r', 1 <= r' -> r' < r -> olt err (discarded s r').

(** [u, s, vh] is a factorisation [u * diag s * vh] of the [m] by [n] matrix [a]. *)
Definition factorises (a : arr C) (m n : nat) (u : arr C) (s : list K) (vh : arr C) : Prop :=
  let k := length s in
  wf u /\ shape u = [m; k] /\ wf vh /\ shape vh = [k; n] /\
  forall i j, i < m -> j < n ->
    get a [i; j] = sumn k (fun p => rmul (rmul (get u [i; p]) (inj (nth p s r0))) (get vh [p; j])).

(** [w, d, v] multiply to the leading [r] terms of the factorisation [u, s, vh]. *)
Definition leading_part (m n r : nat) (u : arr C) (s : list K) (vh : arr C)
  (w d v : arr C) : Prop :=
  wf w /\ shape w = [m; r] /\ wf d /\ shape d = [r; r] /\ wf v /\ shape v = [r; n] /\
  forall i j, i < m -> j < n ->
    sumn r (fun p => sumn r (fun q =>
      rmul (rmul (get w [i; p]) (get d [p; q])) (get v [q; j])))
    = sumn r (fun p => rmul (rmul (get u [i; p]) (inj (nth p s r0))) (get vh [p; j])).
End Spec.
Arguments discarded {K} _ _. Arguments smallest_rank {K} _ _ _.
Arguments factorises {K C} _ _ _ _ _ _ _. Arguments leading_part {K C} _ _ _ _ _ _ _ _ _ _.
