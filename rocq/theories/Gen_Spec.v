(** Specifications for building a network from a graph of names. *)
From Coq Require Import String List Arith Bool.
From Verif Require Import Py Alg ListX NdArray_Model Net_Model Net_Spec.
Import ListNotations.
Local Open Scope nat_scope.

(** Trees of names. *)
Inductive stree := SLf (s : string) | SNd (s : string) (l : list stree).
Definition sname (t : stree) : string := match t with SLf s => s | SNd s _ => s end.
Definition sinner (t : stree) : bool := match t with SLf _ => false | SNd _ _ => true end.
(** Pre-order. *)
Fixpoint snames (t : stree) : list string :=
  match t with SLf s => [s] | SNd s l => s :: flat_map snames l end.
(** Number of names with children lists. *)
Fixpoint skeys (t : stree) : nat :=
  match t with SLf _ => 0 | SNd _ l => S (list_sum (map skeys l)) end.

(** The graph, followed from a name, is the tree: inner names are the keys, each
    with the list of its children. *)
Inductive unfolds (graph : string -> option (list string)) : stree -> Prop :=
| unfolds_leaf s : graph s = None -> unfolds graph (SLf s)
| unfolds_node s l : graph s = Some (map sname l) -> Forall (unfolds graph) l -> unfolds graph (SNd s l).

Section GenSpec.
Variable K : StarRing.
(** Links of a node towards its parent: axis 0, if it has one. *)
Definition up_links (up : option half) : list (nat * half) :=
  match up with None => [] | Some p => [(0, p)] end.

(** The objects below [t] are exactly what the tree of names asks for; [up] is the
    parent and its axis. *)
Inductive realises (h : heap K) : option half -> stree -> tree -> Prop :=
| realises_leaf s n p :
    hget h n = mkObj (Some s) true None None None false [(0, p)] [] ->
    realises h (Some p) (SLf s) (Lf n)
| realises_node s n up l ks :
    hget h n = mkObj (Some s) false None None (match up with None => None | Some _ => Some 0 end) false
      (up_links up ++ map (fun k => (k_i k, (top (k_t k), 0))) ks) [] ->
    map k_i ks = seq (length (up_links up)) (length l) -> Forall (fun k => k_j k = 0) ks ->
    Forall2 (fun T k => realises h (Some (n, k_i k)) T (k_t k)) l ks ->
    realises h up (SNd s l) (Nd n ks).
End GenSpec.
Arguments realises {K} _ _ _ _.
