(** The Hamiltonian of a network as one matrix:
    /repo/minitn/algorithms/ml.py:419-437 [MultiLayer.dense_hamiltonian].  The copy in
    /repo/minitn/heom/propagate.py has the same text.

    Simplifications.  The integer [1] that [np.kron] starts from is the 1 x 1 matrix with
    that entry; a network without leaves would give it back as an integer.  The float [0.]
    returned for an empty list of terms is [None].  Adding matrices of different shapes
    raises ValueError; numpy would broadcast shapes with lengths 1. *)
From Coq Require Import String List Arith Bool.
From Verif Require Import Py Alg ListX NdArray_Model Net_Model.
Import ListNotations.
Local Open Scope nat_scope.
Local Open Scope list_scope.
Local Open Scope py_scope.

Section DenseH.
Variable K : StarRing.

(** [np.kron] of two matrices. *)
Definition np_kron (a b : arr K) : arr K :=
  let m := nth 0 (shape a) 0 in let n := nth 1 (shape a) 0 in
  let p := nth 0 (shape b) 0 in let q := nth 1 (shape b) 0 in
  build [m * p; n * q] (fun x =>
    rmul (get a [nth 0 x 0 / p; nth 1 x 0 / q]) (get b [nth 0 x 0 mod p; nth 1 x 0 mod q])).

(** /repo/minitn/algorithms/ml.py:427-428: [t, i = l[0]] and [t.shape[i]], where the shape of
    a tensor without an array is None (/repo/minitn/tensor.py:123-127). *)
Definition leaf_dim (h : heap K) (l : id) : res nat :=
  let! x := dindex (oacc (hget h l)) 0 in
  match oarr (hget h (fst x)) with
  | None => Raise TypeError
  | Some a => match nth_error (shape a) (snd x) with Some d => Ok d | None => Raise IndexError end
  end.

(** [dict(term)] *)
Definition dict_of (term : list (id * arr K)) : list (id * arr K) :=
  fold_left (fun d e => dput d (fst e) (snd e)) term [].

(** /repo/minitn/algorithms/ml.py:431-435: one term; [leaves] with their dimensions. *)
Definition dense_term (leaves : list (id * nat)) (term : list (id * arr K)) : arr K :=
  let term_ := dict_of term in
  fold_left (fun h_i l =>
    np_kron h_i (match dget term_ (fst l) with Some m => m | None => eye (snd l) (snd l) end))
    leaves (mkArr [1; 1] [r1]).

(** /repo/minitn/algorithms/ml.py:430 and 436 *)
Fixpoint dense_sum (leaves : list (id * nat)) (ans : option (arr K)) (terms : list (list (id * arr K))) : res (option (arr K)) :=
  match terms with
  | [] => Ok ans
  | term :: terms =>
      let h_i := dense_term leaves term in
      let! ans := match ans with None => Ok h_i | Some a => arr_add a h_i end in
      dense_sum leaves (Some ans) terms
  end.

(** /repo/minitn/algorithms/ml.py:419-437 [dense_hamiltonian] *)
Definition dense_hamiltonian {F} (fuel : nat) (h : heap K) (root : id)
  (h_list : list (list (id * arr K))) (f_list : option F) : res (option (arr K)) :=
  match f_list with
  | Some _ => Raise NotImplementedError
  | None =>
      let! ls := leaves fuel h root in
      let! dims := mapM (leaf_dim h) ls in
      dense_sum (combine ls dims) None h_list
  end.
End DenseH.
Arguments np_kron {K} _ _. Arguments leaf_dim {K} _ _. Arguments dict_of {K} _. Arguments dense_term {K} _ _.
Arguments dense_sum {K} _ _ _. Arguments dense_hamiltonian {K F} _ _ _ _ _.
