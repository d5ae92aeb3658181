(** Tensor contractions of /repo/minitn/tensor.py. *)
From Coq Require Import List Arith Bool.
From Verif Require Import Py Alg ListX NdArray_Model.
Import ListNotations.
Local Open Scope nat_scope.
Local Open Scope py_scope.

Section Contract.
Variable K : StarRing.

(** /repo/minitn/tensor.py:749-755 [Tensor._partial_product]: tensordot over one
    pair of axes, then the new axes (which tensordot puts last) are moved to
    position i. *)
Definition partial_product_arr (array1 : arr K) (i : nat) (array2 : arr K) (j : nat)
  : res (arr K) :=
  let l1 := ndim array1 in
  let l2 := ndim array2 in
  let! ans := tensordot array1 i array2 j in
  moveaxis ans (seq (l1 - 1) (l2 - 1)) (seq i (l2 - 1)).

(** /repo/minitn/tensor.py:723-747 [Tensor.partial_product]: [None] means doing nothing. *)
Definition partial_product (array1 : arr K) (i : nat) (array2 : option (arr K)) (j : nat)
  : res (arr K) :=
  match array2 with
  | None => Ok array1
  | Some m => partial_product_arr array1 i m j
  end.

(** /repo/minitn/tensor.py:757-788 [Tensor.__partial_product]: the reshape based
    variant.  [shape.pop] of an absent axis raises IndexError. *)
Definition partial_product_reshape (array1 : arr K) (i : nat) (array2 : arr K) (j : nat)
  : res (arr K) :=
  if negb ((i <? ndim array1) && (j <? ndim array2)) then Raise IndexError else
  let n := nth i (shape array1) 0 in
  let m := nth j (shape array2) 0 in
  let shape_1 := del i (shape array1) in
  let shape_2 := del j (shape array2) in
  let new_shape := firstn i shape_1 ++ shape_2 ++ skipn i shape_1 in
  let! a1 := moveaxis array1 [i] [ndim array1 - 1] in
  let! a1 := reshape_infer a1 [] [n] in
  let! a2 := moveaxis array2 [j] [0] in
  let! a2 := reshape_infer a2 [m] [] in
  let! ans := matmul a1 a2 in
  let! ans := reshape_infer ans shape_1 [] in
  let! ans := moveaxis ans [length shape_1] [i] in
  reshape ans new_shape.

(** [np.dot] of two one-dimensional arrays: a zero-dimensional result. *)
Definition dot1 (a b : arr K) : res (arr K) :=
  match shape a, shape b with
  | [n], [m] => if n =? m
                then Ok (mkArr [] [sumn n (fun k => rmul (get a [k]) (get b [k]))])
                else Raise ValueError
  | _, _ => Raise ValueError
  end.

(** /repo/minitn/tensor.py:790-826 [Tensor.partial_trace]. *)
Definition partial_trace (array1 : arr K) (i : option nat) (array2 : arr K) (j : option nat)
  : res (arr K) :=
  match i, j with
  | Some i, Some j =>
      if negb ((i <? ndim array1) && (j <? ndim array2)) then Raise IndexError else
      let n := nth i (shape array1) 0 in
      let m := nth j (shape array2) 0 in
      let! a1 := moveaxis array1 [i] [0] in
      let! a1 := reshape_infer a1 [n] [] in
      let! a2 := moveaxis array2 [j] [ndim array2 - 1] in
      let! a2 := reshape_infer a2 [] [m] in
      matmul a1 a2
  | None, None =>
      let! a1 := reshape_infer array1 [] [] in
      let! a2 := reshape_infer array2 [] [] in
      dot1 a1 a2
  | _, _ => Raise TypeError
  end.

(** /repo/minitn/algorithms/mctdh.py:262-286 [MCTDH._partial_product]: the same
    matrix with one common axis for both arrays. *)
Definition mctdh_partial_product (i : option nat) (a b : arr K) : res (arr K) :=
  partial_trace a i b i.

(** /repo/minitn/tensor.py:698-721 [Tensor.projector] with [comp=False] for a
    tensor whose [axis] is an integer: rows are the other axes in order. *)
Definition projector (array : arr K) (axis : nat) : res (arr K) :=
  if negb (axis <? ndim array) then Raise IndexError else
  let dim := nth axis (shape array) 0 in
  let sh := del axis (shape array) in
  let! a := moveaxis array [axis] [ndim array - 1] in
  let! a := reshape_infer a [] [dim] in
  let ah := arr_conj (mat_T a) in
  let! p := matmul a ah in
  reshape p (sh ++ sh).

End Contract.

Arguments partial_product_arr {K} _ _ _ _. Arguments partial_product {K} _ _ _ _.
Arguments partial_product_reshape {K} _ _ _ _. Arguments partial_trace {K} _ _ _ _.
Arguments dot1 {K} _ _. Arguments projector {K} _ _. Arguments mctdh_partial_product {K} _ _ _.
