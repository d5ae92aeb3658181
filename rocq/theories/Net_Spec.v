(** Specifications for tensor networks: trees of objects, and the dense tensor a
    network stands for.  Nothing here uses the traversals or contractions of the
    model; only the heap layout (attributes of an object) is shared. *)
From Coq Require Import List Arith Bool.
From Verif Require Import Py Alg ListX NdArray_Model Net_Model.
Import ListNotations.
Local Open Scope nat_scope.

(** A tree of objects.  A child [(i, t, j)]: axis [i] of the parent is joined to
    axis [j] of the root of [t]. *)
Inductive tree := Lf (n : id) | Nd (n : id) (kids : list (nat * tree * nat)).
Notation kid := (nat * tree * nat)%type (only parsing).
Definition k_i (k : kid) : nat := fst (fst k).
Definition k_t (k : kid) : tree := snd (fst k).
Definition k_j (k : kid) : nat := snd k.

Definition top (t : tree) : id := match t with Lf n => n | Nd n _ => n end.

(** All objects, depth first, a parent before its children, children by axis. *)
Fixpoint ids (t : tree) : list id :=
  match t with Lf n => [n] | Nd n ks => n :: flat_map (fun k => ids (k_t k)) ks end.
(** The leaves, the inner nodes. *)
Fixpoint lids (t : tree) : list id :=
  match t with Lf n => [n] | Nd _ ks => flat_map (fun k => lids (k_t k)) ks end.
Fixpoint nids (t : tree) : list id :=
  match t with Lf _ => [] | Nd n ks => n :: flat_map (fun k => nids (k_t k)) ks end.
Fixpoint height (t : tree) : nat :=
  match t with Lf _ => 1 | Nd _ ks => S (fold_right Nat.max 0 (map (fun k => height (k_t k)) ks)) end.
(** Edges from parents to children. *)
Fixpoint edges (t : tree) : list edge :=
  match t with
  | Lf _ => []
  | Nd n ks => flat_map (fun k => (n, k_i k, top (k_t k), k_j k) :: edges (k_t k)) ks
  end.

Definition inner (t : tree) : bool := match t with Lf _ => false | Nd _ _ => true end.
(** Edges between inner nodes. *)
Fixpoint inner_edges (t : tree) : list edge :=
  match t with
  | Lf _ => []
  | Nd n ks => flat_map (fun k => if inner (k_t k)
                 then (n, k_i k, top (k_t k), k_j k) :: inner_edges (k_t k) else []) ks
  end.
Definition rev_edge (e : edge) : edge := let '(a, i, b, j) := e in (b, j, a, i).

(** A walk along edges from one object to another. *)
Inductive walk : id -> list edge -> id -> Prop :=
| walk_nil a : walk a [] a
| walk_cons a i b j es c : walk b es c -> walk a ((a, i, b, j) :: es) c.

(** Properly nested list: each edge marked [false] is closed by its reverse marked
    [true], with a properly nested list in between. *)
Inductive nested : list (bool * edge) -> Prop :=
| nested_nil : nested []
| nested_cons e l l' : nested l -> nested l' ->
    nested ((false, e) :: l ++ (true, rev_edge e) :: l').

(** [a] occurs before [b]. *)
Definition before {A} (a b : A) (l : list A) : Prop :=
  exists l1 l2 l3, l = l1 ++ a :: l2 ++ b :: l3.

Section Spec.
Variable K : StarRing.

(** The objects and links of the heap form the tree [t]; [up] is the axis and the
    other end of the link towards the parent. *)
Inductive hangs (h : heap K) : option (nat * half) -> tree -> Prop :=
| hangs_leaf n j p :
    oleaf (hget h n) = true -> oacc (hget h n) = [(j, p)] ->
    hangs h (Some (j, p)) (Lf n)
| hangs_root n ks :
    oleaf (hget h n) = false ->
    oacc (hget h n) = map (fun k => (k_i k, (top (k_t k), k_j k))) ks ->
    NoDup (map fst (oacc (hget h n))) ->
    Forall (fun k => hangs h (Some (k_j k, (n, k_i k))) (k_t k)) ks ->
    hangs h None (Nd n ks)
| hangs_node n j p ks ks' :
    oleaf (hget h n) = false ->
    oacc (hget h n) = map (fun k => (k_i k, (top (k_t k), k_j k))) ks
                        ++ (j, p) :: map (fun k => (k_i k, (top (k_t k), k_j k))) ks' ->
    NoDup (map fst (oacc (hget h n))) ->
    Forall (fun k => hangs h (Some (k_j k, (n, k_i k))) (k_t k)) (ks ++ ks') ->
    hangs h (Some (j, p)) (Nd n (ks ++ ks')).

(** [y] is at the other end of a link of [x]. *)
Definition linked (h : heap K) (x y : id) : Prop :=
  exists i j, In (i, (y, j)) (oacc (hget h x)).

(** No axis is linked to itself. *)
Definition no_self_slot (h : heap K) : Prop := forall n i, ~ In (i, (n, i)) (oacc (hget h n)).

(** Axes of a node other than the one towards the parent, and a full index from
    the value [p] on that axis and the values on the others. *)
Definition others {A} (ax : option nat) (l : list A) : list A :=
  match ax with Some a => del a l | None => l end.
Definition full (ax : option nat) (p : nat) (x : list nat) : list nat :=
  match ax with Some a => ins a p x | None => x end.

(** Arrays fit the tree: array [A n] has one axis per link, numbered in order,
    the axis towards the parent has length [d], all lengths are positive. *)
Inductive fits (A : id -> arr K) : option nat -> nat -> tree -> Prop :=
| fits_leaf n j d : 0 < d -> fits A (Some j) d (Lf n)
| fits_node n ax d ks :
    wf (A n) -> Forall (fun m => 0 < m) (shape (A n)) ->
    (match ax with Some a => a < ndim (A n) /\ nth a (shape (A n)) 0 = d | None => True end) ->
    map k_i ks = others ax (seq 0 (ndim (A n))) ->
    Forall2 (fun k m => fits A (Some (k_j k)) m (k_t k)) ks (others ax (shape (A n))) ->
    fits A ax d (Nd n ks).

(** Lengths of the leaf axes, in the order of [lids]. *)
Fixpoint ldims (A : id -> arr K) (ax : option nat) (d : nat) (t : tree) {struct t} : list nat :=
  match t with
  | Lf _ => [d]
  | Nd n ks =>
      (fix go (ks : list kid) (ms : list nat) : list nat :=
         match ks, ms with
         | k :: ks, m :: ms => ldims A (Some (k_j k)) m (k_t k) ++ go ks ms
         | _, _ => []
         end) ks (others ax (shape (A n)))
  end.

(** Product of [f_k x_k]. *)
Fixpoint zprod (fs : list (nat -> K)) (x : list nat) : K :=
  match fs, x with f :: fs, v :: x => rmul (f v) (zprod fs x) | _, _ => r1 end.

(** The tensor below a node: [s] gives the value of each leaf axis, [p] the value
    on the axis towards the parent; sum over the values of all inner links of the
    product of the entries. *)
Fixpoint amp (A : id -> arr K) (s : id -> nat) (ax : option nat) (t : tree) (p : nat) {struct t} : K :=
  match t with
  | Lf n => delta p (s n)
  | Nd n ks =>
      sumL (indices (others ax (shape (A n)))) (fun x =>
        rmul (get (A n) (full ax p x))
             (zprod (map (fun k => amp A s (Some (k_j k)) (k_t k)) ks) x))
  end.

(** Values [v] for the leaves [ls]. *)
Definition asg (ls : list id) (v : list nat) (n : id) : nat := nth (index_of n ls) v 0.

(** The dense tensor of the network with root [t], at leaf values [v]. *)
Definition dense (A : id -> arr K) (t : tree) (v : list nat) : K :=
  amp A (asg (lids t) v) None t 0.

End Spec.
Arguments hangs {K} _ _ _. Arguments linked {K} _ _ _. Arguments no_self_slot {K} _. Arguments fits {K} _ _ _ _. Arguments ldims {K} _ _ _ _.
Arguments zprod {K} _ _. Arguments amp {K} _ _ _ _ _. Arguments dense {K} _ _ _.
