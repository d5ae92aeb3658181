(** Right-hand sides of the equations of motion with their coefficients:
    /repo/minitn/algorithms/ml.py:470-472 [coefficient] and 594-608 [diff] of
    [_split_prop], /repo/minitn/heom/propagate.py:476-478 [coefficient].

    Simplifications.  Numbers are exact complex numbers.  [self.time] is an argument,
    [None] standing for imaginary time.  [hbar] is an argument.  Dtypes are left out: arrays are complex. *)
From Coq Require Import String List Arith Bool Reals.
From Verif Require Import Py Alg ListX NdArray_Model Contract_Model Net_Model Cache_Model Cplx.
Import ListNotations.
Local Open Scope nat_scope.
Local Open Scope list_scope.
Local Open Scope py_scope.

(** /repo/minitn/algorithms/ml.py:470-472 *)
Definition coefficient (hbar : R) (time : option R) : C_star :=
  match time with None => rmul C_i (RtoC hbar) | Some _ => RtoC hbar end.
(** /repo/minitn/heom/propagate.py:476-478 *)
Definition heom_coefficient (hbar : R) (time : option R) : C_star :=
  match time with None => RtoC (- hbar) | Some _ => RtoC hbar end.

(** /repo/minitn/algorithms/ml.py:292-294: the time given to the functions in [f_list]. *)
Definition time_of (time : option R) : R := match time with None => 0%R | Some t => t end.

(** /repo/minitn/algorithms/ml.py:594-608 and /repo/minitn/heom/propagate.py:605-619,
    with the [coefficient] of the class. *)
Definition split_diff (coef : option R -> C_star) (sys : system C_star R) (fuel : nat) (imaginary : bool)
  (init_energy : option R) (t : id) (cache : bool) (time : R) (y : list C_star) (s : state C_star)
  : res (list C_star * state C_star) :=
  let tm := if imaginary then None else Some time in
  let! r := diff C_star R sys fuel t cache (time_of tm) y s in
  let '(ans, s) := r in
  let ans := match init_energy with
             | None => ans
             | Some e => map (fun p => rsub (fst p) (rmul (RtoC e) (snd p))) (combine ans y)
             end in
  Ok (map (fun x => rmul x (Cinv (coef tm))) ans, s).
