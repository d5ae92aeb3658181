(** Specification of the enumeration of product states. *)
From Coq Require Import List Arith.
Import ListNotations.

(** Mixed-radix digits of a number, least significant first. *)
Fixpoint digits (ns : list nat) (k : nat) : list nat :=
  match ns with
  | [] => []
  | n :: ns => k mod n :: digits ns (k / n)
  end.

(** Total excitation of product state number [k]. *)
Definition degree (ns : list nat) (k : nat) : nat := list_sum (digits ns k).

Definition product (ns : list nat) : nat := fold_right Nat.mul 1 ns.
