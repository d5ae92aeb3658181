(** Harmonic oscillator functions, /repo/minitn/lib/symbolic.py.

    Simplifications.  Numbers are exact.  The expressions [sympy] forms here are polynomials times
    [exp(-x**2)]; they are the lists of the coefficients of the polynomials, which are integers,
    and [sym.diff] acts on these lists.  [sym.expand] and [sym.simplify] rewrite an expression and
    do not change its value.  The arguments are numbers, not symbols. *)
From Coq Require Import List Arith ZArith Reals.
Import ListNotations.
Local Open Scope Z_scope.

(** Polynomials: the coefficients of [1, x, x**2, ...] *)
Fixpoint peval (p : list Z) (x : R) : R :=
  match p with [] => 0%R | c :: p => (IZR c + x * peval p x)%R end.
Fixpoint padd (p q : list Z) : list Z :=
  match p, q with [], _ => q | _, [] => p | a :: p, b :: q => a + b :: padd p q end.
Definition pscale (c : Z) (p : list Z) : list Z := map (Z.mul c) p.
Fixpoint pderiv_from (k : Z) (p : list Z) : list Z :=
  match p with [] => [] | c :: p => k * c :: pderiv_from (k + 1) p end.
Definition pderiv (p : list Z) : list Z := match p with [] => [] | _ :: p => pderiv_from 1 p end.

(** [sym.diff(p * exp(-x**2), x)], by the product and the chain rule *)
Definition gauss_diff (p : list Z) : list Z := padd (pderiv p) (pscale (-2) (0 :: p)).
(** symbolic.py:43-51 [Polynomial.hermite], with [exp(x**2) * exp(-x**2)] simplified *)
Definition hermite (n : nat) : list Z := pscale ((-1) ^ Z.of_nat n) (Nat.iter n gauss_diff [1]).

Local Open Scope R_scope.
(** symbolic.py:29-40 [BasisFunction.harmonic_oscillator], and with it
    /repo/minitn/lib/numerical.py:57-64, at one point; [sym.root(., 4)] of a positive number *)
Definition harmonic_oscillator (n : nat) (k m hbar y : R) : R :=
  let factor := m * k / hbar in
  sqrt (sqrt factor) * peval (hermite n) (factor * y) / sqrt (2 ^ n * INR (fact n)) * exp (- factor / 2 * y ^ 2) / sqrt (sqrt PI).

(** numerical.py:107-112 [PotentialFunction.sho], at one point *)
Definition sho (k x0 x : R) : R := 1 / 2 * (k * (x - x0)) ^ 2.
