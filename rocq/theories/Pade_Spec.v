(** Approximating the Bose and Fermi functions: continued fractions, spectra of symmetric matrices. *)
From Coq Require Import List Arith Reals.
From Verif Require Import CorrX_Spec.
Import ListNotations.
Local Open Scope R_scope.

(** [1 / (1 - e^-x)] and [1 / (e^x + 1)] *)
Definition bose (x : R) : R := 1 / (1 - exp (- x)).
Definition fermi (x : R) : R := 1 / (exp x + 1).

(** Lambert's continued fraction [1 / (a + t / (a+2 + t / (a+4 + ...)))], cut after [M] denominators *)
Fixpoint frac (a : R) (M : nat) (t : R) : R := match M with O => 0 | S M => 1 / (a + t * frac (a + 2) M t) end.
(** [a (a+2) (a+4) ...], [M] factors *)
Definition odds (a : R) (M : nat) : R := Rprod M (fun i => a + 2 * INR i).
(** A bound on what is cut off *)
Definition cut (a : R) (M : nat) (x : R) : R := Rabs x / 4 * (x ^ 2 / 4) ^ M / (odds a M * odds a (S M)).

(** [sum_j 2 eta_j x / (x^2 + xi_j^2)] *)
Definition pole_sum (xi eta : list R) (x : R) : R := Rsum (length xi) (fun j => 2 * nth j eta 0 * x / (x ^ 2 + nth j xi 0 ^ 2)).

(** [l] lists the eigenvalues of a symmetric matrix of [M] rows: it has an orthonormal set of eigenvectors. *)
Definition spectrum (M : nat) (T : nat -> nat -> R) (l : list R) : Prop :=
  length l = M /\ exists v : nat -> nat -> R,
    (forall j k, (j < M)%nat -> (k < M)%nat -> Rsum M (fun i => v j i * v k i) = if (j =? k)%nat then 1 else 0) /\
    (forall j i, (j < M)%nat -> (i < M)%nat -> Rsum M (fun k => T i k * v j k) = nth j l 0 * v j i).
Definition falling (l : list R) : Prop := forall i j, (i < j < length l)%nat -> nth j l 0 <= nth i l 0.
Definition rising (l : list R) : Prop := forall i j, (i < j < length l)%nat -> nth i l 0 < nth j l 0.
(** The symmetric matrix with zeros but for [1 / sqrt ((a + 2 i) (a + 2 i + 2))] beside the diagonal *)
Definition beside (a : R) (i j : nat) : R :=
  if (j =? S i)%nat then 1 / sqrt ((a + 2 * INR i) * (a + 2 * INR i + 2)) else
  if (i =? S j)%nat then 1 / sqrt ((a + 2 * INR j) * (a + 2 * INR j + 2)) else 0.
(** An eigenvalue routine does its work on the matrix [beside a] of [M] rows, given by its entries or by the list of
    its off-diagonal entries. *)
Definition finds (eig : nat -> (nat -> nat -> R) -> list R) (a : R) (M : nat) : Prop :=
  forall T, (forall i j, (i < M)%nat -> (j < M)%nat -> T i j = beside a i j) -> spectrum M (beside a) (eig M T).
Definition finds_falling (eig : list R -> list R) (a : R) (M : nat) : Prop :=
  forall sub, length sub = (M - 1)%nat -> (forall i, (i < M - 1)%nat -> nth i sub 0 = beside a i (S i)) -> spectrum M (beside a) (eig sub) /\ falling (eig sub).
(** A list of simple poles on the positive half of an axis, nearest first *)
Definition pole_list (N : nat) (xi eta : list R) : Prop := length xi = N /\ length eta = N /\ rising xi /\ forall j, (j < N)%nat -> 0 < nth j xi 0.
(** Solutions of [e^(i w) = s] with [s] = 1 or -1 *)
Definition unit_root (s w : R) : Prop := cos w = s /\ sin w = 0.
