(** What it means to replace a spectral density by finitely many modes. *)
From Coq Require Import List Arith Reals.
Import ListNotations.
Local Open Scope R_scope.

(** [v] is the integral of [f] from [a] to [b]. *)
Definition integral (f : R -> R) (a b v : R) : Prop := exists pr : Riemann_integrable f a b, RiemannInt pr = v.

(** The routine [q] integrates [f] exactly within [a, b]. *)
Definition exact_on (q : (R -> R) -> R -> R -> R) (f : R -> R) (a b : R) : Prop :=
  forall x y, a <= x -> x <= y -> y <= b -> integral f x y (q f x y).

(** The [i]-th of the points that cut [a, b] into [n] equal parts. *)
Definition cut (a b : R) (n i : nat) : R := a + INR i * ((b - a) / INR n).

Fixpoint total (l : list R) : R := match l with [] => 0 | x :: l => x + total l end.

(** First moment of a density. *)
Definition moment (f : R -> R) : R -> R := fun x => x * f x.
