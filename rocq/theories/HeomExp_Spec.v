(** What a checked real answer says about an unchecked complex one. *)
From Coq Require Import Reals.
From Verif Require Import Py Alg Cplx.

(** The checked answer is the real part if the imaginary part passes, AssertionError if it does
    not, and any other exception is shared. *)
Definition checked (close : R -> bool) (z : res C_star) : res R :=
  match z with
  | Ok (re, im) => if close im then Ok re else Raise AssertionError
  | Raise e => Raise e
  end.
