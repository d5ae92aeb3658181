(** Specifications for the helpers of /repo/minitn/lib/tools.py. *)
From Coq Require Import List Arith Permutation.
Import ListNotations.

(** Reachability. *)
Inductive reach {V} (E : V -> V -> Prop) : V -> V -> Prop :=
| reach_refl v : reach E v v
| reach_step u v w : reach E u v -> E v w -> reach E u w.

(** Path of given length. *)
Inductive path_len {V} (E : V -> V -> Prop) : nat -> V -> V -> Prop :=
| pl_nil v : path_len E 0 v v
| pl_snoc n u v w : path_len E n u v -> E v w -> path_len E (S n) u w.

(** [n] is the distance of [v] from [u]. *)
Definition distance {V} (E : V -> V -> Prop) (u v : V) (n : nat) : Prop :=
  path_len E n u v /\ forall m, path_len E m u v -> n <= m.

(** Rose trees with names. *)
Inductive ntree (N : Type) := Tip (n : N) | Fork (n : N) (ts : list (ntree N)).
Arguments Tip {N} _. Arguments Fork {N} _ _.

Fixpoint tips {N} (t : ntree N) : list N :=
  match t with Tip n => [n] | Fork _ ts => flat_map tips ts end.

(** [t] is the tree that a children map [g] describes below [n]. *)
Inductive unfolds {N} (g : N -> option (list N)) : N -> ntree N -> Prop :=
| unf_tip n : g n = None -> unfolds g n (Tip n)
| unf_fork n ns ts : g n = Some ns -> Forall2 (unfolds g) ns ts -> unfolds g n (Fork n ts).

(** Every inner node has between [lo] and [hi] children. *)
Inductive degrees {N} (lo hi : nat) : ntree N -> Prop :=
| deg_tip n : degrees lo hi (Tip n)
| deg_fork n ts : lo <= length ts -> length ts <= hi -> Forall (degrees lo hi) ts ->
    degrees lo hi (Fork n ts).
