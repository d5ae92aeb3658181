(** What the constructor should do with the entries. *)
From Coq Require Import String List Arith Bool.
From Verif Require Import Py Alg NdArray_Model Net_Model Net_Spec MlInit_Model.
Import ListNotations.
Notation length := Datatypes.length.
Local Open Scope nat_scope.

Section Spec.
Context {K : StarRing} {V : Type}.
(** [n] is a leaf of the tree with the name [s] *)
Definition leaf_called (h : heap K) (t : tree) (s : string) (n : nat) : Prop := In n (lids t) /\ oname (hget h n) = Some s.
Definition distinct_names (h : heap K) (t : tree) : Prop :=
  forall m n s, In m (lids t) -> In n (lids t) -> oname (hget h m) = Some s -> oname (hget h n) = Some s -> m = n.
(** The name an entry is asked for *)
Inductive asks (hexid : nat -> string) (h : heap K) : key -> string -> Prop :=
| asks_name s : asks hexid h (KStr s) s
| asks_leaf n s : oleaf (hget h n) = true -> oname (hget h n) = Some s -> asks hexid h (KObj n) ("Leaf_" ++ s)
| asks_tensor n s : oleaf (hget h n) = false -> oname (hget h n) = Some s -> asks hexid h (KObj n) ("Tensor_" ++ s)
| asks_leaf_id n : oleaf (hget h n) = true -> oname (hget h n) = None -> asks hexid h (KObj n) ("Leaf_" ++ hexid n)
| asks_tensor_id n : oleaf (hget h n) = false -> oname (hget h n) = None -> asks hexid h (KObj n) ("Tensor_" ++ hexid n).
(** The second entry is the first with the leaf for the name *)
Definition replaced (hexid : nat -> string) (h : heap K) (t : tree) (e e' : key * V) : Prop :=
  snd e' = snd e /\ exists s n, asks hexid h (fst e) s /\ leaf_called h t s n /\ fst e' = KObj n.
Definition found (hexid : nat -> string) (h : heap K) (t : tree) (e : key * V) : Prop := exists s n, asks hexid h (fst e) s /\ leaf_called h t s n.
(** All entries together *)
Definition entries (terms : list (list (key * V))) : nat := fold_right Nat.add 0 (map (@length _) terms).
End Spec.
