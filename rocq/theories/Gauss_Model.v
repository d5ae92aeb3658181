(** [gaussian_wfn] of /repo/minitn/bases/girds.py.

    Simplifications.  Numbers are exact and the function acts on one point at a time; a complex
    number is a pair.  A power with a negative base (nan in numpy) is excluded in the theorems. *)
From Coq Require Import Reals.
Local Open Scope R_scope.

(** girds.py:227-234; [exp(1.0j * y)] is [(cos y, sin y)] *)
Definition gaussian_wfn (x0 p0 alpha hbar x : R) : R * R :=
  let c := Rpower (alpha / PI) (1 / 4) * exp (- alpha * (x - x0) ^ 2 / 2) in
  (c * cos (p0 * (x - x0) / hbar), c * sin (p0 * (x - x0) / hbar)).
