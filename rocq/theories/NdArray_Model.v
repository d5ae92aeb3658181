(** numpy arrays: the meaning given to the numpy primitives used by the code.

    An array is its shape and its entries in row-major ("C") order.  Each
    primitive is given by its documented index formula.  dtype conversion,
    broadcasting and views are not modelled: every operation returns a new value. *)
From Coq Require Import List Arith Bool.
From Verif Require Import Py Alg ListX.
Import ListNotations.
Local Open Scope nat_scope.

Fixpoint prod (sh : list nat) : nat :=
  match sh with [] => 1 | n :: sh => n * prod sh end.

(** All multi-indices of a shape in row-major order (last axis fastest). *)
Fixpoint indices (sh : list nat) : list (list nat) :=
  match sh with
  | [] => [[]]
  | n :: sh => flat_map (fun i => map (cons i) (indices sh)) (seq 0 n)
  end.

(** Row-major offset of a multi-index. *)
Fixpoint ravel (sh idx : list nat) : nat :=
  match sh, idx with
  | n :: sh, i :: idx => i * prod sh + ravel sh idx
  | _, _ => 0
  end.

Definition in_range (idx sh : list nat) : Prop := Forall2 lt idx sh.

Fixpoint index_of (m : nat) (l : list nat) : nat :=
  match l with
  | [] => 0
  | x :: l => if Nat.eqb x m then 0 else S (index_of m l)
  end.

Definition gather (idx order : list nat) : list nat := map (fun k => nth k idx 0) order.

Definition memb (k : nat) (l : list nat) : bool := existsb (Nat.eqb k) l.

(** Axis order computed by [np.moveaxis(a, srcs, dsts)] for pairs already sorted
    by destination (all calls in the code satisfy this): the other axes in
    order, then each source inserted at its destination. *)
Definition moveaxis_order (n : nat) (srcs dsts : list nat) : list nat :=
  fold_left (fun o p => ins (fst p) (snd p) o) (combine dsts srcs)
            (filter (fun k => negb (memb k srcs)) (seq 0 n)).

Section Arrays.
Variable K : StarRing.

Record arr : Type := mkArr { shape : list nat; data : list K }.

Definition ndim (a : arr) : nat := length (shape a).
Definition size (a : arr) : nat := length (data a).

Definition wf (a : arr) : Prop := length (data a) = prod (shape a).

Definition get (a : arr) (idx : list nat) : K := nth (ravel (shape a) idx) (data a) r0.

Definition build (sh : list nat) (f : list nat -> K) : arr :=
  mkArr sh (map f (indices sh)).

(** [np.reshape(a, sh)] *)
Definition reshape (a : arr) (sh : list nat) : res arr :=
  if prod sh =? size a then Ok (mkArr sh (data a)) else Raise ValueError.

(** [np.reshape(a, pre + [-1] + post)]: the free length is inferred. *)
Definition reshape_infer (a : arr) (pre post : list nat) : res arr :=
  let known := prod pre * prod post in
  if known =? 0 then Raise ValueError
  else if size a mod known =? 0
       then Ok (mkArr (pre ++ (size a / known) :: post) (data a))
       else Raise ValueError.

(** [np.transpose(a, order)] *)
Definition transpose (a : arr) (order : list nat) : arr :=
  build (gather (shape a) order)
        (fun idx => get a (map (fun m => nth (index_of m order) idx 0) (seq 0 (ndim a)))).

(** [np.moveaxis(a, srcs, dsts)] *)
Definition moveaxis (a : arr) (srcs dsts : list nat) : res arr :=
  if forallb (fun k => k <? ndim a) (srcs ++ dsts)
  then Ok (transpose a (moveaxis_order (ndim a) srcs dsts))
  else Raise ValueError.

(** [np.swapaxes(a, i, j)] *)
Definition swap_order (n i j : nat) : list nat :=
  map (fun k => if k =? i then j else if k =? j then i else k) (seq 0 n).
Definition swapaxes (a : arr) (i j : nat) : res arr :=
  if (i <? ndim a) && (j <? ndim a) then Ok (transpose a (swap_order (ndim a) i j))
  else Raise ValueError.

(** [np.tensordot(a, b, axes=([i], [j]))] *)
Definition tensordot (a : arr) (i : nat) (b : arr) (j : nat) : res arr :=
  if (i <? ndim a) && (j <? ndim b) && (nth i (shape a) 0 =? nth j (shape b) 0)
  then Ok (build (del i (shape a) ++ del j (shape b))
         (fun idx => sumn (nth i (shape a) 0) (fun m =>
            rmul (get a (ins i m (firstn (ndim a - 1) idx)))
                 (get b (ins j m (skipn (ndim a - 1) idx))))))
  else Raise ValueError.

(** [np.dot(a, b)] for two matrices. *)
Definition matmul (a b : arr) : res arr :=
  match shape a, shape b with
  | [n; p], [q; m] =>
      if p =? q
      then Ok (build [n; m] (fun idx => sumn p (fun k =>
             rmul (get a [nth 0 idx 0; k]) (get b [k; nth 1 idx 0]))))
      else Raise ValueError
  | _, _ => Raise ValueError
  end.

(** [np.transpose(a)] / [a.T] of a matrix. *)
Definition mat_T (a : arr) : arr := transpose a [1; 0].

(** [np.conj(a)] *)
Definition arr_conj (a : arr) : arr := mkArr (shape a) (map rconj (data a)).

(** [a + b] for equal shapes. *)
Definition arr_add (a b : arr) : res arr :=
  if list_eq_dec Nat.eq_dec (shape a) (shape b)
  then Ok (mkArr (shape a) (map (fun p => radd (fst p) (snd p)) (combine (data a) (data b))))
  else Raise ValueError.

(** [c * a] *)
Definition arr_scale (c : K) (a : arr) : arr := mkArr (shape a) (map (rmul c) (data a)).

(** [np.zeros(sh)], [np.eye(n, m, k)] *)
Definition zeros (sh : list nat) : arr := build sh (fun _ => r0).
Definition eye (n m : nat) : arr := build [n; m] (fun idx => delta (nth 0 idx 0) (nth 1 idx 0)).

Definition is_matrix (a : arr) (n m : nat) : Prop := wf a /\ shape a = [n; m].

End Arrays.

Arguments mkArr {K} _ _. Arguments shape {K} _. Arguments data {K} _.
Arguments ndim {K} _. Arguments size {K} _. Arguments wf {K} _. Arguments get {K} _ _.
Arguments build {K} _ _. Arguments reshape {K} _ _. Arguments reshape_infer {K} _ _ _.
Arguments transpose {K} _ _. Arguments moveaxis {K} _ _ _. Arguments swapaxes {K} _ _ _.
Arguments tensordot {K} _ _ _ _. Arguments matmul {K} _ _. Arguments mat_T {K} _.
Arguments arr_conj {K} _. Arguments arr_add {K} _ _. Arguments arr_scale {K} _ _.
Arguments zeros {K} _. Arguments eye {K} _ _. Arguments is_matrix {K} _ _ _.

(** Arrays of integers and Gaussian integers, for examples. *)
Definition zarr (sh : list nat) (l : list BinNums.Z) : arr Z_star := @mkArr Z_star sh l.
Definition garr (sh : list nat) (l : list (BinNums.Z * BinNums.Z)) : arr G_star := @mkArr G_star sh l.
