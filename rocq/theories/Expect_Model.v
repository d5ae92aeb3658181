(** Matrix elements and expectation values of a sum of terms:
    /repo/minitn/algorithms/ml.py:325-345 [MultiLayer.matrix_element] and [expection]
    with [term_visitor] 280-323.  The copies in /repo/minitn/heom/propagate.py
    have the same text, except that its [expection] has no assertion (HeomExp_Model.v).

    Simplifications.  [self.time] is an argument (see Eom_Model.v).  The operator [op],
    if given, holds matrices only.  [np.testing.assert_almost_equal(x, 0)] is a test
    [close] on the exact imaginary part. *)
From Coq Require Import String List Arith Bool Reals.
From Verif Require Import Py Alg ListX NdArray_Model Contract_Model Net_Model Cache_Model Cplx.
Import ListNotations.
Local Open Scope nat_scope.
Local Open Scope list_scope.
Local Open Scope py_scope.

Section Values.
Variable K : StarRing.
Variable T : Type.
Variable sys : system K T.
Variable fuel : nat.

(** /repo/minitn/tensor.py:346-347 *)
Definition value_of (v : option (arr K)) : K := match v with None => r1 | Some c => get c [] end.

(** /repo/minitn/algorithms/ml.py:296-302 *)
Definition visited (op : option (list (list (id * arr K)))) (time : T) : list (list (id * arr K)) :=
  match op with None => all_terms K T sys time | Some o => o end.

(** /repo/minitn/algorithms/ml.py:329-332 and 338-340: [ans += f(self.root)] term by term. *)
Definition sum_terms (f : heap K -> id -> res (option (arr K) * heap K)) (terms : list (list (id * arr K)))
  (s : state K) : res (K * state K) :=
  let! l := visitor fuel (sheap K s) (sroot K s) None true in
  each_term K fuel false 0
    (fun n acc s => let! r := f (sheap K s) (sroot K s) in
                    let '(v, h) := r in Ok ((acc + value_of v)%S, with_heap K s h))
    0 terms r0 (with_heap K s (set_all (reset_obj K) (sheap K s) l)).

(** /repo/minitn/algorithms/ml.py:325-332 *)
Definition ml_matrix_element op (time : T) (s : state K) : res (K * state K) :=
  sum_terms (matrix_element fuel) (visited op time) s.
End Values.

(** /repo/minitn/algorithms/ml.py:334-345 *)
Definition ml_expection (close : R -> bool) {T} (sys : system C_star T) (fuel : nat) (normalized : bool) op (time : T) (s : state C_star)
  : res (R * state C_star) :=
  let! r := sum_terms C_star fuel (expection fuel) (visited C_star T sys op time) s in
  let '(ans, s) := r in
  let! r := if normalized
            then let! r := global_square fuel (sheap C_star s) (sroot C_star s) in
                 let '(v, h) := r in Ok (rmul ans (Cinv (value_of C_star v)), with_heap C_star s h)
            else Ok (ans, s) in
  let '(ans, s) := r in
  if close (snd ans) then Ok (fst ans, s) else Raise AssertionError.
