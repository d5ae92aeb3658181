(** What one step of the method of Runge and Kutta of order four is, and the derivative of
    one array when the environments and the inverse density matrix are held fixed. *)
From Coq Require Import List Arith.
From Verif Require Import Alg ListX NdArray_Model Direct_Spec.
Import ListNotations.
Local Open Scope nat_scope.

Section Rk4Spec.
Variable K : StarRing.
(** Arrays as functions of the indices. *)
Definition field : Type := list nat -> K.

(** The matrix [m] applied along axis [i] of length [d]; its first index is summed over. *)
Definition along (d i : nat) (m : option (arr K)) (f : field) : field :=
  match m with
  | None => f
  | Some m => fun x => sumn d (fun p => rmul (f (upd i p x)) (get m [p; nth i x 0]))
  end.
(** One matrix along each of the axes [i], [i + 1], ... *)
Fixpoint everywhere (dims : list nat) (i : nat) (ms : list (option (arr K))) (f : field) : field :=
  match ms with [] => f | m :: ms => everywhere dims (S i) ms (along (nth i dims 0) i m f) end.
(** [f] minus its part in the span of the slices of [y] along axis [ax]. *)
Definition beyond (dims : list nat) (ax : nat) (y f : field) : field := fun x =>
  rsub (f x) (sumn (nth ax dims 0) (fun q => rmul (y (upd ax q x))
    (sumL (indices (del ax dims)) (fun z => rmul (f (ins ax (nth ax x 0) z)) (rconj (y (ins ax q z))))))).
(** One term: its matrices along the axes; then, for a tensor with an axis, the inverse density
    matrix along the axis and the projection. *)
Definition slope (dims : list nat) (axis : option (nat * arr K)) (ms : list (option (arr K))) (y : field) : field :=
  let g := everywhere dims 0 ms y in
  match axis with
  | None => g
  | Some (ax, inv) => beyond dims ax y (along (nth ax dims 0) ax (Some inv) g)
  end.
(** [icoef] times the sum over the terms; minus [e0 * y] for the root. *)
Definition frozen (icoef : K) (e0 : option K) (dims : list nat) (axis : option (nat * arr K)) (mss : list (list (option (arr K))))
  (y : field) : field := fun x =>
  rsub (rmul icoef (sumL mss (fun ms => slope dims axis ms y x)))
       (match axis with None => rmul (shift e0) (y x) | Some _ => r0 end).

(** The method of order four; [half] and [sixth] are 1/2 and 1/6. *)
Definition plus (y : field) (c : K) (k : field) : field := fun x => radd (y x) (rmul c (k x)).
Definition runge_kutta_4 (half sixth dt : K) (f : field -> field) (y : field) : field :=
  let k1 := f y in
  let k2 := f (plus y (rmul half dt) k1) in
  let k3 := f (plus y (rmul half dt) k2) in
  let k4 := f (plus y dt k3) in
  fun x => radd (y x) (rmul (rmul sixth dt)
    (radd (radd (k1 x) (rmul (radd r1 r1) (k2 x))) (radd (rmul (radd r1 r1) (k3 x)) (k4 x)))).
End Rk4Spec.
Arguments along {K} _ _ _ _ _. Arguments everywhere {K} _ _ _ _ _. Arguments beyond {K} _ _ _ _ _.
Arguments slope {K} _ _ _ _ _. Arguments frozen {K} _ _ _ _ _ _ _. Arguments plus {K} _ _ _ _. Arguments runge_kutta_4 {K} _ _ _ _ _ _.
