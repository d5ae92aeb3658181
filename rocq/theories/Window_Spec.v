(** Windows and wells. *)
From Coq Require Import Reals.
Local Open Scope R_scope.

(** [g] weighs times between [-l] and [l]: one at zero, falling on both sides alike, to zero. *)
Definition window (l : R) (g : R -> R) : Prop :=
  g 0 = 1 /\ g l = 0 /\ (forall t, g (- t) = g t) /\ (forall s t, 0 <= s -> s < t -> t <= l -> g t < g s) /\ (forall t, - l <= t <= l -> 0 <= g t <= 1).
(** [v] has exactly the minima [-a] and [a], of height 0, and between them a barrier of height [d] at 0. *)
Definition double_well (a d : R) (v : R -> R) : Prop :=
  (forall x, 0 <= v x) /\ (forall x, v x = 0 <-> x = a \/ x = - a) /\ v 0 = d /\ (forall x, v (- x) = v x) /\
  (forall s t, 0 <= s -> s < t -> t <= Rabs a -> v t < v s) /\ (forall s t, Rabs a <= s -> s < t -> v s < v t).
