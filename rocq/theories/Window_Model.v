(** Window and potential functions, /repo/minitn/lib/numerical.py.

    Simplifications.  Numbers are exact, and functions act on one number at a time; a zero length
    (numpy gives nan) is excluded in the theorems. *)
From Coq Require Import List Reals.
From Verif Require Import Py.
Import ListNotations.
Local Open Scope R_scope.

(** numerical.py:28-32 [WindowFunction.g0prime], 34-40 [g1prime] *)
Definition g0prime (length t : R) : R := 1 - Rabs t / length.
Definition g1prime (length t : R) : R :=
  let y1 := (1 - Rabs t / length) * cos (PI * t / length) in
  let y2 := sin (PI * Rabs t / length) / PI in
  y1 + y2.

(** numerical.py:70-75 [PotentialFunction.linear_corr]; [x[0]] and [x[1]] of a list *)
Definition linear_corr (c : R) (x : list R) : res R :=
  match x with x0 :: x1 :: _ => Ok (c * x0 * x1) | _ => Raise IndexError end.
(** numerical.py:77-92 [square_well], by [np.where] *)
Definition square_well (depth width x0 v0 x : R) : R :=
  if Rlt_dec x0 x then if Rlt_dec x (x0 + width) then v0 else v0 + depth else v0 + depth.
(** numerical.py:94-103 [w_well] *)
Definition w_well (d0 a x : R) : R := d0 / a ^ 4 * (x ^ 2 - a ^ 2) ^ 2.
