(** What a network with one root is. *)
From Coq Require Import List Arith.
From Verif Require Import Py Alg NdArray_Model Net_Model Net_Spec.
Local Open Scope nat_scope.

(** [r] is the only tensor of the tree without an axis towards a root *)
Definition only_root {K : StarRing} (h : heap K) (t : tree) (r : nat) : Prop :=
  In r (ids t) /\ oaxis (hget h r) = None /\ forall s, In s (ids t) -> oaxis (hget h s) = None -> s = r.
