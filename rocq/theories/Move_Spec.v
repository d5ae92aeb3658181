(** Specifications for splitting and uniting tensors and for moving the root. *)
From Coq Require Import String List Arith Bool.
From Verif Require Import Py Alg ListX NdArray_Model Net_Model Net_Spec Link_Spec.
Import ListNotations.
Local Open Scope nat_scope.

Section MoveSpec.
Variable K : StarRing.
Implicit Types h : heap K.

(** Axes below [n] that are not in [l]. *)
Definition rest (n : nat) (l : list nat) : list nat :=
  filter (fun k => negb (existsb (Nat.eqb k) l)) (seq 0 n).

(** [c] is [a] with axes rearranged: axis [k] of [c] is axis [o[k]] of [a]. *)
Definition permuted (a : arr K) (o : list nat) (c : arr K) : Prop :=
  wf c /\ shape c = gather (shape a) o /\
  forall idx, in_range idx (shape a) -> get c (gather idx o) = get a idx.

(** [m] is [a] as a matrix: rows by the axes [l], columns by the others. *)
Definition matricized (a : arr K) (l : list nat) (m : arr K) : Prop :=
  wf m /\ shape m = [prod (gather (shape a) l); prod (gather (shape a) (rest (ndim a) l))] /\
  forall idx, in_range idx (shape a) ->
    get m [ravel (gather (shape a) l) (gather idx l);
           ravel (gather (shape a) (rest (ndim a) l)) (gather idx (rest (ndim a) l))] = get a idx.

(** The three factors have matching shapes, with inner length [r]. *)
Definition triple (m u s v : arr K) (r : nat) : Prop :=
  exists p q, shape m = [p; q] /\ is_matrix u p r /\ is_matrix s r r /\ is_matrix v r q.
(** ... and multiply to [m]. *)
Definition exact (m u s v : arr K) (r : nat) : Prop :=
  forall i j, i < nth 0 (shape m) 0 -> j < nth 1 (shape m) 0 ->
    sumn r (fun k => sumn r (fun l => rmul (rmul (get u [i; k]) (get s [k; l])) (get v [l; j]))) = get m [i; j].

(** A decomposition routine that always returns three matrices with matching shapes. *)
Definition some_svd (csvd : arr K -> res (arr K * arr K * arr K)) : Prop :=
  forall m p q, wf m -> shape m = [p; q] -> 0 < p -> 0 < q ->
    exists u s v r, csvd m = Ok (u, s, v) /\ triple m u s v r /\ 0 < r.

(** A decomposition routine that always returns an exact factorisation with a
    positive inner length. *)
Definition exact_svd (csvd : arr K -> res (arr K * arr K * arr K)) : Prop :=
  forall m p q, wf m -> shape m = [p; q] -> 0 < p -> 0 < q ->
    exists u s v r, csvd m = Ok (u, s, v) /\ triple m u s v r /\ exact m u s v r /\ 0 < r.

(** [x] has the rows of [u * s] along the axes [l] and the bond on axis [i1]; [y] has
    the columns of [v] along the other axes and the bond on axis [i2]. *)
Definition left_part (a : arr K) (l : list nat) (i1 r : nat) (u s x : arr K) : Prop :=
  wf x /\ shape x = ins i1 r (gather (shape a) l) /\
  forall idx b, in_range idx (shape a) -> b < r ->
    get x (ins i1 b (gather idx l))
    = sumn r (fun k => rmul (get u [ravel (gather (shape a) l) (gather idx l); k]) (get s [k; b])).
Definition right_part (a : arr K) (l : list nat) (i2 r : nat) (v y : arr K) : Prop :=
  let l' := rest (ndim a) l in
  wf y /\ shape y = ins i2 r (gather (shape a) l') /\
  forall idx b, in_range idx (shape a) -> b < r ->
    get y (ins i2 b (gather idx l')) = get v [b; ravel (gather (shape a) l') (gather idx l')].

(** Contracting the bond of [x] and [y] gives [a]. *)
Definition parts (a : arr K) (l : list nat) (i1 i2 r : nat) (x y : arr K) : Prop :=
  let l' := rest (ndim a) l in
  wf x /\ shape x = ins i1 r (gather (shape a) l) /\
  wf y /\ shape y = ins i2 r (gather (shape a) l') /\
  forall idx, in_range idx (shape a) ->
    sumn r (fun b => rmul (get x (ins i1 b (gather idx l))) (get y (ins i2 b (gather idx l')))) = get a idx.

(** Axes are numbered from 0 without gaps. *)
Definition numbered h (n : id) : Prop := map fst (oacc (hget h n)) = seq 0 (length (oacc (hget h n))).
(** Other ends of the links, by axis. *)
Definition targets h (n : id) : list half := map snd (oacc (hget h n)).

(** [n] is a complete tensor with array [a] and name [nm]. *)
Definition sound h (n : id) (a : arr K) (nm : string) : Prop :=
  n < length h /\ oleaf (hget h n) = false /\ numbered h n /\ oarr (hget h n) = Some a /\ wf a /\
  Forall (fun d => 0 < d) (shape a) /\ ndim a = length (oacc (hget h n)) /\ oname (hget h n) = Some nm.

(** Equal attributes other than the links. *)
Definition attrs (o o' : obj K) : Prop := put_acc [] o' = put_acc [] o.

(** [h'] is [h] after an operation that may change the array of [n] (not its shape),
    arrays of leaves, stored environments and [aux]. *)
Definition edits h (n : id) h' : Prop :=
  length h' = length h /\
  (forall x, oacc (hget h' x) = oacc (hget h x) /\ oname (hget h' x) = oname (hget h x) /\
     oleaf (hget h' x) = oleaf (hget h x) /\ oaxis (hget h' x) = oaxis (hget h x) /\
     onorm (hget h' x) = onorm (hget h x)) /\
  (forall x, x <> n -> oleaf (hget h x) = false -> oarr (hget h' x) = oarr (hget h x)) /\
  (forall a, oarr (hget h n) = Some a -> wf a -> exists a', oarr (hget h' n) = Some a' /\ wf a' /\ shape a' = shape a).

(** Complete tensors [n] and [e], joined by exactly one link. *)
Definition joint h (n : id) (i : nat) (e : id) (j : nat) (an ae : arr K) (nn ne : string) : Prop :=
  dicts_ok h /\ symmetric h /\ sound h n an nn /\ sound h e ae ne /\ n <> e /\ points h n i e j /\
  (forall k l, points h n k e l -> k = i) /\ (forall k l, ~ points h n k n l) /\ (forall k l, ~ points h e k e l) /\
  nth i (shape an) 0 = nth j (shape ae) 0.

(** Replacing the arrays [an], [ae] joined at axes [i], [j] by [an'], [ae'] joined by a
    bond of length [r] does not change the contracted pair. *)
Definition same_pair (an : arr K) (i : nat) (ae : arr K) (j : nat) (an' ae' : arr K) (r : nat) : Prop :=
  wf an' /\ shape an' = ins i r (del i (shape an)) /\ wf ae' /\ shape ae' = ins j r (del j (shape ae)) /\ 0 < r /\
  forall x y, in_range x (del i (shape an)) -> in_range y (del j (shape ae)) ->
    sumn r (fun b => rmul (get an' (ins i b x)) (get ae' (ins j b y)))
    = sumn (nth i (shape an) 0) (fun d => rmul (get an (ins i d x)) (get ae (ins j d y))).

(** The two parts of a split of [n] in a heap of size [len]: at most one of them reuses
    [n], any other part is a new object. *)
Definition picks (n len : nat) (root child : option id) (r c : id) : Prop :=
  match root, child with
  | None, None => r = len /\ c = 1 + len
  | None, Some c0 => r = len /\ c0 = n /\ c = n
  | Some r0, None => r0 = n /\ r = n /\ c = len
  | Some _, Some _ => False
  end.
(** The object holding the result of a unite of [r] and [c]. *)
Definition kept_as (len : nat) (r c : id) (rt : option id) (w : id) : Prop :=
  match rt with None => w = len | Some x => (x = r \/ x = c) /\ w = x end.

End MoveSpec.
Arguments permuted {K} _ _ _. Arguments matricized {K} _ _ _. Arguments triple {K} _ _ _ _ _.
Arguments exact {K} _ _ _ _ _. Arguments some_svd {K} _. Arguments exact_svd {K} _. Arguments left_part {K} _ _ _ _ _ _ _.
Arguments right_part {K} _ _ _ _ _ _. Arguments parts {K} _ _ _ _ _ _ _.
Arguments numbered {K} _ _. Arguments targets {K} _ _. Arguments sound {K} _ _ _ _. Arguments attrs {K} _ _. Arguments edits {K} _ _ _. Arguments joint {K} _ _ _ _ _ _ _ _ _. Arguments same_pair {K} _ _ _ _ _ _ _.
