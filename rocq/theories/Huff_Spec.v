(** The cost of a tree over weighted names. *)
From Coq Require Import List Arith.
From Verif Require Import Alg Ord Tools_Spec.
Import ListNotations.

Section HuffSpec.
Context {K : OrdRing} {N : Type}.

(** [x] added up [n] times. *)
Fixpoint times (n : nat) (x : K) : K := match n with O => r0 | S n => radd x (times n x) end.

(** The tips with their distances from a node that has depth [d]. *)
Fixpoint at_depth (d : nat) (t : ntree N) : list (nat * N) :=
  match t with Tip n => [(d, n)] | Fork _ ts => flat_map (at_depth (S d)) ts end.

(** The sum of depth times weight over the tips. *)
Definition cost (w : N -> K) (t : ntree N) : K :=
  sum_list (map (fun p => times (fst p) (w (snd p))) (at_depth 0 t)).
End HuffSpec.
