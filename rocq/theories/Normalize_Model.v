(** [Tensor.normalize], /repo/minitn/tensor.py:658-687, with [local_inner_product] 382-386
    and [local_norm] 388-391.

    Simplifications.  [linalg.norm] of a row, [np.sqrt] and division by a number are given
    functions (division is multiplication by [inv]; a division by zero, which numpy turns
    into nan, is whatever [inv] says). *)
From Coq Require Import List Arith Bool.
From Verif Require Import Py Alg ListX NdArray_Model Contract_Model Net_Model.
Import ListNotations.
Local Open Scope nat_scope.
Local Open Scope py_scope.

Section Normalize.
Variable K : StarRing.
(** [linalg.norm], [np.sqrt], 1/x *)
Variables (nrm : list K -> K) (sqrtf inv : K -> K).

(** [np.dot(np.conj(u), v)] *)
Definition cdot (u v : list K) : K := sum_list (map (fun p => rmul (rconj (fst p)) (snd p)) (combine u v)).
(** [vec_i -= vec_j * np.dot(np.conj(vec_j), vec_i)], /repo/minitn/tensor.py:678-679 *)
Definition remove_part (v u : list K) : list K := map (fun p => rsub (fst p) (rmul (snd p) (cdot u v))) (combine v u).
(** /repo/minitn/tensor.py:677-682: the loop over the rows *)
Fixpoint gs_loop (rows vecs : list (list K)) (norms : list K) : list (list K) * list K :=
  match rows with
  | [] => (vecs, norms)
  | v :: rows =>
      let v := fold_left remove_part vecs v in
      let n := nrm v in
      gs_loop rows (vecs ++ [map (fun x => rmul x (inv n)) v]) (norms ++ [n])
  end.

(** Iterating over a matrix gives its rows; [np.array] of a list of rows. *)
Definition rows_of (a : arr K) : list (list K) :=
  map (fun i => map (fun j => get a [i; j]) (seq 0 (nth 1 (shape a) 0))) (seq 0 (nth 0 (shape a) 0)).
Definition of_rows (l : list (list K)) : arr K := mkArr [length l; length (nth 0 l [])] (concat l).

(** /repo/minitn/tensor.py:671-685 for an array with parent axis [axis] *)
Definition normalize_along (a : arr K) (axis : nat) : res (arr K * list K) :=
  if negb (axis <? ndim a) then Raise IndexError else
  let dim := nth axis (shape a) 0 in
  let sh := del axis (shape a) in
  let! b := moveaxis a [axis] [0] in
  let! b := reshape_infer b [dim] [] in
  let '(vecs, norms) := gs_loop (rows_of b) [] [] in
  let! c := reshape_infer (of_rows vecs) [] sh in
  let! c := moveaxis c [0] [axis] in
  Ok (c, norms).

(** /repo/minitn/tensor.py:658-687: the returned norms and the new heap *)
Definition normalize (h : heap K) (n : id) (forced : bool) : res (option (list K) * heap K) :=
  let o := hget h n in
  match oarr o with
  | None => Ok (None, h)
  | Some a =>
      if negb (onorm o) && negb forced then Ok (None, h) else
      match oaxis o with
      | None =>
          let h := modify h n (put_aux (Some (arr_conj a))) in
          let! s := partial_trace a None (arr_conj a) None in
          let norm := sqrtf (get s []) in
          Ok (Some [norm], modify h n (put_arr (Some (arr_scale (inv norm) a))))
      | Some axis =>
          let! r := normalize_along a axis in
          Ok (Some (snd r), modify h n (put_arr (Some (fst r))))
      end
  end.
End Normalize.
Arguments cdot {K} _ _. Arguments remove_part {K} _ _. Arguments gs_loop {K} _ _ _ _ _. Arguments rows_of {K} _. Arguments of_rows {K} _.
Arguments normalize_along {K} _ _ _ _. Arguments normalize {K} _ _ _ _ _ _.
