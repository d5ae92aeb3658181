(** The hierarchical equations of motion, written out tier by tier. *)
From Coq Require Import List Arith Bool.
From Verif Require Import Alg ListX NdArray_Model.
Import ListNotations.
Local Open Scope nat_scope.

Section Spec.
Variable K : StarRing.
Local Open Scope star_scope.

(** An extended density: a matrix for every tier [n]. *)
Definition ext : Type := list nat -> nat -> nat -> K.

Fixpoint inside (n dims : list nat) : bool :=
  match n, dims with
  | [], [] => true
  | x :: n, d :: dims => (x <? d)%nat && inside n dims
  | _, _ => false
  end.

(** The extended density held by an array; tiers that were cut off count as zero. *)
Definition tiers (dims : list nat) (a : arr K) : ext := fun n i j =>
  if inside n dims then get a (n ++ [i; j]) else 0.

Definition occ (n : list nat) (k : nat) : nat := nth k n O.
Definition more (k : nat) (n : list nat) : list nat := upd k (S (occ n k)) n.
Definition less (k : nat) (n : list nat) : list nat := upd k (pred (occ n k)) n.

Fixpoint num (n : nat) : K := match n with O => 0 | S n => num n + 1 end.

(** (A rho)_ij and (rho A)_ij *)
Definition lmul (d : nat) (A : nat -> nat -> K) (rho : nat -> nat -> K) (i j : nat) : K := sumn d (fun a => A i a * rho a j).
Definition rmult (d : nat) (rho : nat -> nat -> K) (A : nat -> nat -> K) (i j : nat) : K := sumn d (fun a => rho i a * A a j).
Definition tr (A : nat -> nat -> K) : nat -> nat -> K := fun i j => A j i.
Definition mat (a : arr K) : nat -> nat -> K := fun i j => get a [i; j].

(** d rho_n / dt = - i [H, rho_n] - (sum n_k gamma_k) rho_n - i/hbar sum_k [X, rho_(n + e_k)]
      - i/hbar sum_k n_k (c_k X rho_(n - e_k) - c_k' rho_(n - e_k) X).
    The left factors are given separately ([Hl], [Xl]) from the right ones ([Hr], [Xr]). *)
Definition plain_rhs (im ihbar : K) (d kmax : nat) (Hl Hr Xl Xr : nat -> nat -> K) (gamma c c' : nat -> K) (rho : ext) : ext := fun n i j =>
  - im * (lmul d Hl (rho n) i j - rmult d (rho n) Hr i j)
  - sumn kmax (fun k => num (occ n k) * gamma k) * rho n i j
  + sumn kmax (fun k => - (im * ihbar) * (lmul d Xl (rho (more k n)) i j - rmult d (rho (more k n)) Xr i j))
  + sumn kmax (fun k => - (im * ihbar) * num (occ n k) * (c k * lmul d Xl (rho (less k n)) i j - c' k * rmult d (rho (less k n)) Xr i j)).

(** The same with the coupling to the neighbouring tiers scaled: up by f sqrt(n_k + 1), down by
    sqrt(n_k) / f. *)
Definition scaled_rhs (im : K) (sq : nat -> K) (f f' : K) (d kmax : nat) (Hl Hr Xl Xr : nat -> nat -> K) (gamma c c' : nat -> K) (rho : ext) : ext := fun n i j =>
  - im * (lmul d Hl (rho n) i j - rmult d (rho n) Hr i j)
  - sumn kmax (fun k => num (occ n k) * gamma k) * rho n i j
  + sumn kmax (fun k => - im * (f * sq (S (occ n k))) * (lmul d Xl (rho (more k n)) i j - rmult d (rho (more k n)) Xr i j))
  + sumn kmax (fun k => - im * (f' * sq (occ n k)) * (c k * lmul d Xl (rho (less k n)) i j - c' k * rmult d (rho (less k n)) Xr i j)).

(** The equations of eom.py: the factors sqrt(n_k - 1) and sqrt(n_k) stand where sqrt(n_k) and
    sqrt(n_k + 1) should. *)
Definition shifted_rhs (im ihbar : K) (sq : nat -> K) (d kmax : nat) (Hl Hr Xl Xr : nat -> nat -> K) (gamma c c' : nat -> K) (rho : ext) : ext := fun n i j =>
  - im * (lmul d Hl (rho n) i j - rmult d (rho n) Hr i j)
  - sumn kmax (fun k => num (occ n k) * gamma k) * rho n i j
  + sumn kmax (fun k => - (im * ihbar) * sq (pred (occ n k)) * (lmul d Xl (rho (less k n)) i j - rmult d (rho (less k n)) Xr i j))
  + sumn kmax (fun k => - (im * ihbar) * sq (occ n k) * (c k * lmul d Xl (rho (more k n)) i j - c' k * rmult d (rho (more k n)) Xr i j)).

Definition tier0 (kmax : nat) : list nat := repeat O kmax.
Definition trace (d : nat) (rho : nat -> nat -> K) : K := sumn d (fun i => rho i i).

(** The scale factors prod_k f^(n_k) sqrt(n_k!). *)
Fixpoint pow (f : K) (n : nat) : K := match n with O => 1 | S n => pow f n * f end.
Fixpoint sqfact (sq : nat -> K) (n : nat) : K := match n with O => 1 | S n => sqfact sq n * sq (S n) end.
Definition factor (f : K) (sq : nat -> K) (kmax : nat) (n : list nat) : K :=
  prodL (seq 0 kmax) (fun k => pow f (occ n k) * sqfact sq (occ n k)).

(** - i [H, rho] *)
Definition free_rhs (im : K) (d : nat) (H : nat -> nat -> K) (rho : nat -> nat -> K) : nat -> nat -> K := fun i j =>
  - im * (lmul d H rho i j - rmult d rho H i j).
Fixpoint times {A} (f : A -> A) (n : nat) (x : A) : A := match n with O => x | S n => f (times f n x) end.
End Spec.
Arguments pow {K} _ _. Arguments sqfact {K} _ _. Arguments factor {K} _ _ _ _. Arguments free_rhs {K} _ _ _ _ _ _. Arguments shifted_rhs {K} _ _ _ _ _ _ _ _ _ _ _ _ _ _ _ _.
Arguments tiers {K} _ _ _ _ _. Arguments num {K} _. Arguments lmul {K} _ _ _ _ _. Arguments rmult {K} _ _ _ _ _.
Arguments tr {K} _ _ _. Arguments mat {K} _ _ _. Arguments trace {K} _ _.
Arguments plain_rhs {K} _ _ _ _ _ _ _ _ _ _ _ _ _ _ _. Arguments scaled_rhs {K} _ _ _ _ _ _ _ _ _ _ _ _ _ _ _ _ _.
