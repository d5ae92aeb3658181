(** Networks that stand for maximally entangled states. *)
From Coq Require Import String Ascii List Arith Bool.
From Verif Require Import Py Alg ListX NdArray_Model Net_Model Net_Spec Normalize_Spec.
From Verif Require Davidson_Model Davidson_Spec.
Import ListNotations.
Local Open Scope nat_scope.

(** The name of a partner ends with a prime. *)
Definition partner (s : string) : Prop := exists u, s = append u "'".

(** The pairs of leaves below the nodes that have two leaves and nothing else, and the leaves elsewhere. *)
Fixpoint pairs (t : tree) : list (id * id) :=
  match t with
  | Lf _ => []
  | Nd _ [(_, Lf a, _); (_, Lf b, _)] => [(a, b)]
  | Nd _ ks => flat_map (fun k => pairs (k_t k)) ks
  end.
Fixpoint lone (t : tree) : list id :=
  match t with
  | Lf n => [n]
  | Nd _ [(_, Lf _, _); (_, Lf _, _)] => []
  | Nd _ ks => flat_map (fun k => lone (k_t k)) ks
  end.

(** x0, y0, x1, y1, ... *)
Fixpoint weave (x y : list nat) : list nat :=
  match x, y with a :: x, b :: y => a :: b :: weave x y | _, _ => [] end.

Section S.
Variable K : StarRing.
Local Open Scope star_scope.

(** Pairs are in the state with amplitude [c] where both have the same value, other leaves have the value 0. *)
Definition entangled (c : id -> K) (t : tree) (s : id -> nat) : K :=
  prodL (pairs t) (fun p => c (fst p) * delta (s (fst p)) (s (snd p))) * prodL (lone t) (fun l => delta O (s l)).

(** Entry [k] of the matrix [m] times the matrix with the entries [v], both with [n] columns. *)
Definition times (n : nat) (m : arr K) (v : list K) (k : nat) : K :=
  sumn n (fun l => get m [(k / n)%nat; l] * nth (l * n + k mod n)%nat v 0).

(** Rows of numbers, no nontrivial combination of which vanishes. *)
Definition free_rows (N : nat) (rows : list (list K)) : Prop :=
  Forall (fun r => length r = N) rows /\ independent (seq 0 N) (length rows) (fun i x => nth x (nth i rows []) 0).

(** What the search takes from scipy, for vectors of each length and each operator: no vectors are added by [orth], as many eigenpairs
    are given as asked for, a number converted twice is not changed again, vectors not found small can be normalised, and vectors of
    norm one are kept. *)
Definition library_ok (lib : nat -> (list K -> list K) -> @Davidson_Model.library K) : Prop := forall N A, let L := lib N A in
  (forall v, Davidson_Model.matvec L v = A v) /\ (forall t, (length (Davidson_Model.orth L t) <= length t)%nat) /\
  Davidson_Spec.eigh_sizes (Davidson_Model.eigh L) /\
  (forall x, Davidson_Model.cast L (rconj (Davidson_Model.cast L x)) = Davidson_Model.cast L (rconj x)) /\
  Davidson_Spec.norm_ok N (Davidson_Model.gs_big L) (Davidson_Model.inv_norm L) /\
  forall v, length v = N -> Davidson_Spec.inner N v v = 1 -> Davidson_Model.gs_big L v = true /\ Davidson_Model.inv_norm L v = 1.

(** Only the entries on the diagonal of the matrix with the entries [v] and [n] columns differ from zero. *)
Definition on_diagonal (n : nat) (v : list K) : Prop := forall k, (k < n * n)%nat -> (k / n)%nat <> (k mod n)%nat -> nth k v 0 = 0.

(** A tensor whose only children are two leaves: linked by axis 0 to the parent; [B] is the length of the link above an object.
    One of the leaves is not a partner; the first of these is [c]. *)
Definition pair_node (h : heap K) (B : id -> nat) (n a b c : id) : Prop :=
  oaxis (hget h n) = Some O /\ (0 < B n)%nat /\ (0 < B a)%nat /\ B b = B a /\
  exists sa sb, oname (hget h a) = Some sa /\ oname (hget h b) = Some sb /\
    ((c = a /\ ~ partner sa) \/ (c = b /\ partner sa /\ ~ partner sb)).

(** A network in which every tensor without tensors below has such a pair; [ok] are the pairs that can be completed.  The number is
    the axis linked to the parent. *)
Inductive purified (h : heap K) (B : id -> nat) (ok : id -> id -> Prop) : nat -> tree -> Prop :=
| pf_leaf n j : (0 < B n)%nat -> purified h B ok j (Lf n)
| pf_pair n a b c ja jb : pair_node h B n a b c -> ok n c -> purified h B ok O (Nd n [(1%nat, Lf a, ja); (2%nat, Lf b, jb)])
| pf_node n ax ks :
    oaxis (hget h n) = Some ax -> (ax <= length ks)%nat -> map k_i ks = del ax (seq 0 (S (length ks))) ->
    existsb (fun k => inner (k_t k)) ks = true ->
    (0 < B n)%nat -> (B n <= prod (map (fun k => B (top (k_t k))) ks))%nat ->
    Forall (fun k => purified h B ok (k_j k) (k_t k)) ks -> purified h B ok ax (Nd n ks).
(** The same for the tensor at the root. *)
Definition purified_root (h : heap K) (B : id -> nat) (ok : id -> id -> Prop) (t : tree) : Prop :=
  exists n ks, t = Nd n ks /\ oaxis (hget h n) = None /\ map k_i ks = seq 0 (length ks) /\
    existsb (fun k => inner (k_t k)) ks = true /\ Forall (fun k => purified h B ok (k_j k) (k_t k)) ks.
End S.
Arguments entangled {K} _ _ _. Arguments times {K} _ _ _ _. Arguments free_rows {K} _ _. Arguments library_ok {K} _. Arguments on_diagonal {K} _ _. Arguments pair_node {K} _ _ _ _ _ _. Arguments purified {K} _ _ _ _ _. Arguments purified_root {K} _ _ _ _.
