(** [get_ext_wfns] of /repo/minitn/heom/network.py.

    Simplifications.  Arrays are of two axes (of one, [np.shape(wfns)[1]] is an IndexError); an
    array is its two sizes and a function of two indices, read below the sizes only.
    [scipy.linalg.orth] is a parameter.  Fuel bounds the passes of the loop. *)
From Coq Require Import Arith Bool String.
From Verif Require Import Py Alg.
Local Open Scope nat_scope.
Local Open Scope py_scope.

Section Krylov.
Variable K : StarRing.
Record mat := mkMat { rows : nat; cols : nat; ent : nat -> nat -> K }.
(** [np.transpose] *)
Definition transpose (A : mat) : mat := mkMat (cols A) (rows A) (fun i j => ent A j i).
(** [A @ B] *)
Definition matmul (A B : mat) : res mat :=
  if cols A =? rows B then Ok (mkMat (rows A) (cols B) (fun i j => sumn (cols A) (fun k => rmul (ent A i k) (ent B k j)))) else Raise ValueError.
(** [A[:, :n]] *)
Definition first_cols (n : nat) (A : mat) : mat := mkMat (rows A) (Nat.min n (cols A)) (ent A).
Variable orth : mat -> mat.
(** network.py:64-69 the loop; the result of [np.concatenate] in line 69 is dropped, but it
    refuses arrays with different numbers of rows *)
Fixpoint search (fuel n_states : nat) (op vecs : mat) : res mat :=
  match fuel with
  | 0 => Raise RecursionError
  | S fuel =>
      let space := orth vecs in
      if n_states <=? rows space then Ok space
      else
        let! vecs := matmul op vecs in
        if rows space =? rows vecs then search fuel n_states op vecs else Raise ValueError
  end.
(** network.py:57-73 [get_ext_wfns]; line 59 replaces the argument [n_states] *)
Definition get_ext_wfns (fuel n_states : nat) (wfns op : mat) (search_method : string) : res mat :=
  let n_states := cols wfns in
  let space := transpose wfns in
  let vecs := transpose wfns in
  if negb (cols space <=? n_states) then Raise AssertionError
  else if String.eqb search_method "krylov" then
    let! space := search fuel n_states op vecs in
    let psi := first_cols n_states space in
    Ok (transpose psi)
  else Raise NotImplementedError.
End Krylov.
Arguments mkMat {K}. Arguments rows {K}. Arguments cols {K}. Arguments ent {K}. Arguments transpose {K}. Arguments matmul {K}.
Arguments first_cols {K}. Arguments search {K}. Arguments get_ext_wfns {K}.
