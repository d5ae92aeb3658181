(** Expectation values of a wave function on the real line. *)
From Coq Require Import Reals.
From Verif Require Import Discretise_Spec.
Local Open Scope R_scope.

(** [v] is the integral of [f] over the whole line: both ends go to infinity on their own. *)
Definition whole (f : R -> R) (v : R) : Prop :=
  (forall a b, a <= b -> exists w, integral f a b w) /\
  forall eps, 0 < eps -> exists r, 0 <= r /\ forall a b w, a <= - r -> r <= b -> integral f a b w -> Rabs (w - v) < eps.
(** [d] is the derivative of the complex function [f]. *)
Definition derivative (f d : R -> R * R) : Prop :=
  forall x, derivable_pt_lim (fun y => fst (f y)) x (fst (d x)) /\ derivable_pt_lim (fun y => snd (f y)) x (snd (d x)).
Definition modulus2 (z : R * R) : R := fst z ^ 2 + snd z ^ 2.
(** the conjugate of [z] times [w] *)
Definition pairing (z w : R * R) : R * R := (fst z * fst w + snd z * snd w, fst z * snd w - snd z * fst w).
(** [(-i hbar d - q) f] at one point, [z] the value of [f] and [dz] that of [d f] *)
Definition momentum (hbar q : R) (z dz : R * R) : R * R := (hbar * snd dz - q * fst z, - hbar * fst dz - q * snd z).
