(** What a propagation should do: time grid, number of solver steps. *)
From Coq Require Import String Ascii List Arith Bool.
From Verif Require Import Py Alg Propagate_Model.
Import ListNotations.
Local Open Scope nat_scope.

Section Spec.
Variable W : Type.

(** The world after [m] repetitions of numbered actions, stopping at an exception. *)
Fixpoint repeated (a : nat -> act W) (first m : nat) (w : W) : W * option exn :=
  match m with
  | 0 => (w, None)
  | S m => match repeated a first m w with (w, None) => a (first + m) w | r => r end
  end.

(** The [n]-th round of the solver: environments are formed again when [n] is a multiple
    of [cmf], then one step is accepted. *)
Definition round (step update : act W) (reform : option (act W)) (cmf n : nat) : act W := fun w =>
  let go w := match step w with (w, None) => update w | r => r end in
  match reform with
  | Some f => if n mod cmf =? 0 then match f w with (w, None) => go w | r => r end else go w
  | None => go w
  end.

(** The round at which the solver is given up: the first positive multiple of [cmf] that
    is at least [max]. *)
Definition is_limit (cmf max N : nat) : Prop :=
  (exists k, N = k * cmf) /\ 0 < N /\ max <= N /\
  forall M, (exists k, M = k * cmf) -> 0 < M -> max <= M -> N <= M.

Definition steps_of (l : list event) : list nat := flat_map (fun e => match e with Stepping n => [n] | Reforming _ => [] end) l.
Definition reforms_of (l : list event) : list nat := flat_map (fun e => match e with Reforming n => [n] | Stepping _ => [] end) l.

(** Times [first], [first + dt], [first + dt + dt], ... *)
Fixpoint ticks {K : StarRing} (first dt : K) (n : nat) : K :=
  match n with 0 => first | S n => (ticks first dt n + dt)%S end.

(** The clock is set to [t] (to nothing in imaginary time), then the step is done, then
    in imaginary time the root is normalised. *)
Definition set_clock {K : StarRing} (set_time : option K -> W -> W) (imaginary : bool) (t : K) : W -> W :=
  set_time (if imaginary then None else Some t).
Definition stroke {K : StarRing} (set_time : option K -> W -> W) (step renorm : act W) (imaginary : bool) (t : K) : act W := fun w =>
  match step (set_clock set_time imaginary t w) with
  | (w, None) => if imaginary then renorm w else (w, None)
  | r => r
  end.
End Spec.
Arguments repeated {W} _ _ _ _. Arguments round {W} _ _ _ _ _ _.
Arguments set_clock {W K} _ _ _ _. Arguments stroke {W K} _ _ _ _ _ _.
