(** Specifications for the arrays of a network written one after the other. *)
From Coq Require Import List Arith Bool.
From Verif Require Import Py Alg ListX NdArray_Model Net_Model Net_Spec.
Import ListNotations.
Local Open Scope nat_scope.

(** [len] entries from position [a]. *)
Definition slice {X} (v : list X) (a len : nat) : list X := firstn len (skipn a v).

Section VecSpec.
Variable sz : id -> nat.
(** Total length, and where the part of [n] begins. *)
Fixpoint total (l : list id) : nat := match l with [] => 0 | x :: l => sz x + total l end.
Fixpoint offset (l : list id) (n : id) : nat :=
  match l with [] => 0 | x :: l => if n =? x then 0 else sz x + offset l n end.
End VecSpec.

Definition asize {K : StarRing} (A : id -> arr K) (n : id) : nat := prod (shape (A n)).

(** The array or the aux array of an object. *)
Definition which {K : StarRing} (aux : bool) (o : obj K) : option (arr K) := if aux then oaux o else oarr o.
Definition put_which {K : StarRing} (aux : bool) (a : arr K) (o : obj K) : obj K :=
  if aux then put_aux (Some a) o else put_arr (Some a) o.
