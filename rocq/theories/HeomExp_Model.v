(** The expectation value of /repo/minitn/heom/propagate.py:341-350, the copy of [expection]
    of ml.py without the assertion and without [np.real].

    Simplifications as in Expect_Model.v; the division is meant for a state that is not zero. *)
From Coq Require Import String List Arith Bool Reals.
From Verif Require Import Py Alg ListX NdArray_Model Contract_Model Net_Model Cache_Model Cplx Expect_Model.
Import ListNotations.
Local Open Scope py_scope.

(** /repo/minitn/heom/propagate.py:341-350 *)
Definition heom_expection {T} (sys : system C_star T) (fuel : nat) (normalized : bool) op (time : T) (s : state C_star)
  : res (C_star * state C_star) :=
  let! r := sum_terms C_star fuel (expection fuel) (visited C_star T sys op time) s in
  let '(ans, s) := r in
  if normalized
  then let! r := global_square fuel (sheap C_star s) (sroot C_star s) in
       let '(v, h) := r in Ok (rmul ans (Cinv (value_of C_star v)), with_heap C_star s h)
  else Ok (ans, s).
