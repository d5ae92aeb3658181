(** Derivatives and stationary states. *)
From Coq Require Import Arith Reals.
Local Open Scope R_scope.

(** [g] is the [n]-th derivative of [f]. *)
Fixpoint nth_derivative (n : nat) (f g : R -> R) : Prop :=
  match n with
  | O => forall x, g x = f x
  | S n => exists h, nth_derivative n f h /\ forall x, derivable_pt_lim h x (g x)
  end.
(** Hermite's polynomials by the formula of Rodrigues *)
Definition rodrigues (n : nat) (h : R -> R) : Prop :=
  exists g, nth_derivative n (fun x => exp (- x ^ 2)) g /\ forall x, h x = (-1) ^ n * exp (x ^ 2) * g x.
(** Schroedinger's equation for a particle of mass [m] in the potential [v], at energy [e] *)
Definition stationary (hbar m : R) (v : R -> R) (e : R) (psi : R -> R) : Prop :=
  exists psi' psi'', (forall x, derivable_pt_lim psi x (psi' x)) /\ (forall x, derivable_pt_lim psi' x (psi'' x)) /\
    forall x, - hbar ^ 2 / (2 * m) * psi'' x + v x * psi x = e * psi x.
(** The state in coordinates scaled by [s]; this keeps the integral of the square. *)
Definition stretched (s : R) (psi : R -> R) : R -> R := fun x => sqrt s * psi (s * x).
