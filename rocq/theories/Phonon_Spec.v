(** The harmonic oscillator in the basis of its first [n] states. *)
From Coq Require Import List Arith Reals.
From Verif Require Import Alg Cplx NdArray_Model.
Import ListNotations.

(** A square matrix with the given entries. *)
Definition entries (n : nat) (M : arr C_star) (f : nat -> nat -> C_star) : Prop :=
  wf M /\ shape M = [n; n] /\ forall i j, i < n -> j < n -> get M [i; j] = f i j.
(** [M v] *)
Definition applied (n : nat) (M : arr C_star) (v w : list C_star) : Prop :=
  length w = n /\ forall i, i < n -> nth i w r0 = sumn n (fun j => rmul (get M [i; j]) (nth j v r0)).
Definition hermitian (n : nat) (M : arr C_star) : Prop :=
  shape M = [n; n] /\ forall i j, i < n -> j < n -> get M [i; j] = rconj (get M [j; i]).
(** [i a+ j = sqrt i] for [i = j + 1] *)
Definition raise_entry (i j : nat) : C_star := if i =? S j then RtoC (sqrt (INR i)) else r0.
Definition lower_entry (i j : nat) : C_star := if S i =? j then RtoC (sqrt (INR j)) else r0.
Definition diagonal (f : nat -> R) (i j : nat) : C_star := if i =? j then RtoC (f i) else r0.
