(** Split steps on the values at the points of a grid. *)
From Coq Require Import List Arith Bool Reals ZArith.
From Verif Require Import Py Alg Cplx NdArray_Model Grid_Model Grid_Spec Wave_Model.
Import ListNotations.
Notation length := Datatypes.length.
Local Open Scope nat_scope.

(** An imaginary number *)
Definition im (r : R) : C_star := (0%R, r).
(** The value of state [a] at point [k] *)
Definition val (w : waves) (a k : nat) : C_star := match w with One v => nth k v r0 | Many vs => nth k (nth a vs []) r0 end.
(** An array of [n] numbers if [one], otherwise [s] rows of [n] numbers *)
Definition fits (one : bool) (s n : nat) (w : waves) : Prop :=
  match w with One v => one = true /\ s = 1 /\ length v = n | Many vs => one = false /\ length vs = s /\ Forall (fun v => length v = n) vs end.
(** A matrix at every point *)
Definition at_points (s : nat) (M : nat -> nat -> nat -> C_star) (psi : nat -> nat -> C_star) (a k : nat) : C_star :=
  sumn s (fun b => rmul (M k a b) (psi b k)).
(** Half a step of the potential, the other one between a Fourier sum and its inverse, half a step *)
Definition split_step (sgn : Z) (s n : nat) (P Q : nat -> nat -> nat -> C_star) (psi : nat -> nat -> C_star) : nat -> nat -> C_star :=
  at_points s P (fun b k => rmul (RtoC (/ INR n)) (centred (- sgn) n (at_points s Q (fun c l => centred sgn n (at_points s P psi c) l) b) k)).
Fixpoint split_steps (sgn : Z) (s n : nat) (P Q : nat -> nat -> nat -> nat -> C_star) (k : nat) (psi : nat -> nat -> C_star) : nat -> nat -> C_star :=
  match k with O => psi | S k => split_step sgn s n (P k) (Q k) (split_steps sgn s n P Q k psi) end.
(** The sum of the squares of all values *)
Definition total (s n : nat) (psi : nat -> nat -> C_star) : C_star := sumn s (fun a => sumn n (fun k => rmul (rconj (psi a k)) (psi a k))).
Definition isometry (s : nat) (M : nat -> nat -> C_star) : Prop :=
  forall a b, a < s -> b < s -> sumn s (fun c => rmul (rconj (M c a)) (M c b)) = delta a b.
(** The sign of the Fourier sum from a grid of this kind *)
Definition ft_sign (k : kind) : Z := match k with Coordinate => (-1)%Z | Momentum => 1%Z end.
(** A grid with its conjugate grid, all points different *)
Definition ready (h : gheap) (i j : nat) : Prop :=
  paired h /\ i < length h /\ j < length h /\ proper (gget h i) /\ proper (gget h j) /\ g_conj (gget h i) = Some j /\ g_conj (gget h j) = Some i /\
  NoDup (g_space (gget h i)) /\ NoDup (g_space (gget h j)).
(** The matrix with eigenvalues [l] and eigenvectors in the columns of [U] is [A] *)
Definition eigensystem (s : nat) (A : nat -> nat -> C_star) (l : list R) (U : nat -> nat -> C_star) : Prop :=
  (forall i k, i < s -> k < s -> sumn s (fun j => rmul (A i j) (U j k)) = rmul (RtoC (nth k l 0%R)) (U i k)) /\
  (forall i j, i < s -> j < s -> sumn s (fun k => rmul (rconj (U k i)) (U k j)) = delta i j) /\
  (forall i j, i < s -> j < s -> sumn s (fun k => rmul (U i k) (rconj (U j k))) = delta i j).
(** The function gives these values at the points *)
Definition sampled (one : bool) (s : nat) (xs : list R) (f : wave) (psi : nat -> nat -> C_star) : Prop :=
  exists w, f xs = Ok w /\ fits one s (length xs) w /\ forall a k, a < s -> k < length xs -> val w a k = psi a k.
(** [X] is [exp(c A)]: every eigenvector of [A] is one of [X] *)
Definition exp_of (s : nat) (c : C_star) (A X : nat -> nat -> C_star) : Prop :=
  forall (l : C_star) u, (forall i, i < s -> sumn s (fun j => rmul (A i j) (u j)) = rmul l (u i)) -> forall i, i < s -> sumn s (fun j => rmul (X i j) (u j)) = rmul (Cexp (rmul c l)) (u i).
(** Simpson's rule on three points at equal distances *)
Definition simpson3 (h : R) (ys : list C_star) : C_star := rmul (RtoC (h / 3)) (radd (nth 0 ys r0) (radd (rmul (RtoC 4) (nth 1 ys r0)) (nth 2 ys r0))).
(** The quadrature of the squares *)
Definition quad (simps : list C_star -> list R -> C_star) (s : nat) (xs : list R) (psi : nat -> nat -> C_star) : C_star :=
  sumn s (fun a => simps (map (fun k => rmul (rconj (psi a k)) (psi a k)) (seq 0 (length xs))) xs).
