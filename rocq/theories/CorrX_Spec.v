(** Specification of decomposed spectral densities: damped oscillations, partial fractions. *)
From Coq Require Import Reals.
From Verif Require Import Alg Cplx.
Local Open Scope R_scope.

Fixpoint Rsum (n : nat) (f : nat -> R) : R := match n with O => 0 | S n => Rsum n f + f n end.
Fixpoint Rprod (n : nat) (f : nat -> R) : R := match n with O => 1 | S n => Rprod n f * f n end.
(** The value at a complex frequency of [4 l w^2 g z / ((z^2 - w^2)^2 + (2 g z)^2)], the density of an oscillator
    of frequency [w] with friction [g] and reorganization energy [l] *)
Definition oscillator_density (l w g : R) (z v : C_star) : Prop :=
  let r := (z * z - RtoC (w * w))%S in (v * (r * r + RtoC (4 * (g * g)) * (z * z)) = RtoC (4 * l * (w * w) * g) * z)%S.
