(** A network in working order, and sequences of root moves. *)
From Coq Require Import String List Arith Bool.
From Verif Require Import Py Alg ListX NdArray_Model Net_Model Net_Spec Sweep_Spec Link_Spec Move_Spec.
Import ListNotations.
Local Open Scope nat_scope.

Section StateSpec.
Variable K : StarRing.
Implicit Types h : heap K.

(** Objects linked as the tree [t], arrays [A] that fit, a name on each tensor. *)
Definition shaped h (t : tree) (A : id -> arr K) : Prop :=
  dicts_ok h /\ symmetric h /\ no_self_slot h /\ hangs h None t /\ fits A None 0 t /\
  forall n, In n (nids t) -> oarr (hget h n) = Some (A n) /\ exists s, oname (hget h n) = Some s.

(** Objects linked as the tree [t], every parent axis pointing to the root, arrays [A]
    that fit, and a name without plus sign on each tensor. *)
Definition network h (t : tree) (A : id -> arr K) : Prop :=
  dicts_ok h /\ symmetric h /\ no_self_slot h /\ hangs h None t /\ oriented h None t /\ fits A None 0 t /\
  forall n, In n (nids t) -> oarr (hget h n) = Some (A n) /\
    exists s, oname (hget h n) = Some s /\ count_ascii plus s = 0.

(** An operation that does nothing, and one that keeps the array of its tensor. *)
Definition keep : heap K -> id -> res (id * heap K) := fun h m => Ok (m, h).
Definition quiet (op : heap K -> id -> res (id * heap K)) : Prop :=
  forall h m, exists h', op h m = Ok (m, h') /\ edits h m h' /\ oarr (hget h' m) = oarr (hget h m).

(** Moves of the root [n] across axes that lead to inner tensors, by [split_unite] or
    [unite_split]. *)
Inductive moves (csvd : arr K -> res (arr K * arr K * arr K)) : heap K -> id -> heap K -> id -> Prop :=
| moves_nil h n : moves csvd h n h n
| moves_split h n i e j op nz mid h1 h2 r : points h n i e j -> oleaf (hget h e) = false -> quiet op ->
    split_unite csvd h n i op nz = Ok (n, mid, e, h1) -> moves csvd h1 e h2 r -> moves csvd h n h2 r
| moves_unite fuel h n i e j op nz mid h1 h2 r : points h n i e j -> oleaf (hget h e) = false -> quiet op ->
    unite_split csvd fuel h n i op nz = Ok (n, mid, e, h1) -> moves csvd h1 e h2 r -> moves csvd h n h2 r.
End StateSpec.
Arguments shaped {K} _ _ _. Arguments network {K} _ _ _. Arguments keep {K} _ _. Arguments quiet {K} _. Arguments moves {K} _ _ _ _ _.
