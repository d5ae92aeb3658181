(** Specifications for the sweeps: what an event list propagates and how the root
    travels.  Uses the events and the heap layout of the model, the trees of
    Net_Spec and nothing else. *)
From Coq Require Import List Arith Bool.
From Verif Require Import Py Alg ListX Net_Model Net_Spec Sweep_Model.
Import ListNotations.

(** Every tensor of the tree knows the axis towards the root: [ax] for the top. *)
Inductive oriented {K : StarRing} (h : heap K) : option nat -> tree -> Prop :=
| oriented_leaf ax n : oriented h ax (Lf n)
| oriented_node ax n ks :
    oaxis (hget h n) = ax ->
    Forall (fun k => oriented h (Some (k_j k)) (k_t k)) ks ->
    oriented h ax (Nd n ks).

Section Events.
Context {T : Type}.

(** The propagations of tensors, of linkages, of pairs. *)
Definition node_props (l : list (event T)) : list (id * T) :=
  flat_map (fun e => match e with Node n tau => [(n, tau)] | _ => [] end) l.
Definition bond_props (l : list (event T)) : list (edge * T) :=
  flat_map (fun e => match e with Bond e tau => [(e, tau)] | _ => [] end) l.
Definition pair_props (l : list (event T)) : list (edge * T) :=
  flat_map (fun e => match e with Pair e tau => [(e, tau)] | _ => [] end) l.

(** The events in order without the moves that propagate nothing. *)
Definition is_prop (e : event T) : bool := match e with Shift _ => false | _ => true end.
Definition props (l : list (event T)) : list (event T) := filter is_prop l.
(** The same propagation seen from the other end of the linkage. *)
Definition flip (e : event T) : event T :=
  match e with
  | Node n tau => Node n tau
  | Bond e tau => Bond (rev_edge e) tau
  | Pair e tau => Pair (rev_edge e) tau
  | Shift e => Shift (rev_edge e)
  end.
(** The propagations read the same backwards. *)
Definition symmetric (l : list (event T)) : Prop := rev (props l) = map flip (props l).

(** [follows r l r']: every event works on the root, which is [r] at first; the
    root is [r'] after the last event. A pair has the root as one of its ends. *)
Inductive follows : id -> list (event T) -> id -> Prop :=
| follows_nil r : follows r [] r
| follows_node r tau l r' : follows r l r' -> follows r (Node r tau :: l) r'
| follows_bond r i e j tau l r' : follows e l r' -> follows r (Bond (r, i, e, j) tau :: l) r'
| follows_shift r i e j l r' : follows e l r' -> follows r (Shift (r, i, e, j) :: l) r'
| follows_pair r i e j tau l r' : follows e l r' -> follows r (Pair (r, i, e, j) tau :: l) r'
| follows_pair' n i r j tau l r' : follows r l r' -> follows r (Pair (n, i, r, j) tau :: l) r'.
End Events.

(** Number of linkages of [n] to inner nodes. *)
Definition degree (t : tree) (n : id) : nat :=
  length (filter (fun e : edge => let '(a, _, b, _) := e in (a =? n) || (b =? n)) (inner_edges t)).

(** No node has two or more inner children. *)
Fixpoint chain (t : tree) : Prop :=
  match t with
  | Lf _ => True
  | Nd _ ks => length (filter (fun k => inner (k_t k)) ks) <= 1 /\
      (fix all (ks : list (nat * tree * nat)) : Prop :=
         match ks with [] => True | k :: ks => chain (k_t k) /\ all ks end) ks
  end.

(** Total time of a tensor, of a linkage in either direction. *)
Section Total.
Variable K : StarRing.
Definition total (l : list K) : K := fold_right (@radd K) r0 l.
Definition node_time (n : id) (l : list (event K)) : K :=
  total (map snd (filter (fun x => fst x =? n) (node_props l))).
Definition same_edge (e e' : edge) : bool :=
  let eqb (x y : edge) := let '(a, i, b, j) := x in let '(c, k, d, l) := y in
     (a =? c) && (i =? k) && (b =? d) && (j =? l) in
  eqb e e' || eqb (rev_edge e) e'.
Definition bond_time (e : edge) (l : list (event K)) : K :=
  total (map snd (filter (fun x => same_edge e (fst x)) (bond_props l))).
End Total.
Arguments node_time {K} _ _. Arguments bond_time {K} _ _.
