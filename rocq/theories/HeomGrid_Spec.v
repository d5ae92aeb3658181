(** The hierarchy when every mode has operators of its own kind. *)
From Coq Require Import List Arith.
From Verif Require Import Alg ListX Heom_Spec.
Import ListNotations.
Local Open Scope nat_scope.

Section Spec.
Variable K : StarRing.
Local Open Scope star_scope.

(** The operators of a mode: number of quanta, one more, one less. *)
Record ladder := mkLadder { l_number : nat -> nat -> K; l_up : nat -> nat -> K; l_down : nat -> nat -> K }.

(** [O] acting on the axis [k] of length [p] *)
Definition on_axis (p : nat) (O : nat -> nat -> K) (k : nat) (rho : ext K) : ext K := fun n i j =>
  sumn p (fun x => O (occ n k) x * rho (upd k x n) i j).

(** d rho / dt = - i [H, rho] + sum_k gamma_k N_k rho - i sum_k (X (c_k/f_k U_k + f_k D_k) rho - ((c'_k/f_k U_k + f_k D_k) rho) X);
    [Hl], [Xl] act from the left, [Hr], [Xr] from the right. *)
Definition ladder_rhs (im : K) (d : nat) (dims : list nat) (Hl Hr Xl Xr : nat -> nat -> K) (ops : nat -> ladder) (gamma c c' f f' : nat -> K) (rho : ext K) : ext K := fun n i j =>
  - im * (lmul d Hl (rho n) i j - rmult d (rho n) Hr i j)
  + sumn (length dims) (fun k =>
      let up := on_axis (nth k dims O) (l_up (ops k)) k rho in
      let down := on_axis (nth k dims O) (l_down (ops k)) k rho in
      gamma k * on_axis (nth k dims O) (l_number (ops k)) k rho n i j
      - im * (lmul d Xl (fun a b => c k * f' k * up n a b + f k * down n a b) i j
              - rmult d (fun a b => c' k * f' k * up n a b + f k * down n a b) Xr i j)).

(** Numbered tiers *)
Definition numbered (sq : nat -> K) : ladder := {|
  l_number := fun x y => if (x =? y)%nat then num x else 0;
  l_up := fun x y => if (x =? S y)%nat then sq x else 0;
  l_down := fun x y => if (S x =? y)%nat then sq y else 0 |}.
(** A coordinate q with derivative dq: N = (q^2 - d^2 - 1)/2, U = (q - d)/sqrt 2, D = (q + d)/sqrt 2; [q] is diagonal. *)
Definition coordinate (isq2 half : K) (q dq dq2 : nat -> nat -> K) : ladder := {|
  l_number := fun x y => half * (q x y * q x y - dq2 x y - (if (x =? y)%nat then 1 else 0));
  l_up := fun x y => isq2 * (q x y - dq x y);
  l_down := fun x y => isq2 * (q x y + dq x y) |}.

(** [E], p' rows and p columns, takes the operators [o] to the operators [o']. *)
Definition intertwines (p p' : nat) (E : nat -> nat -> K) (o o' : ladder) : Prop := forall x y, x < p' -> y < p ->
  let same O O' := sumn p' (fun z => O' x z * E z y) = sumn p (fun z => E x z * O z y) in
  same (l_number o) (l_number o') /\ same (l_up o) (l_up o') /\ same (l_down o) (l_down o').
End Spec.
Arguments mkLadder {K} _ _ _. Arguments l_number {K} _ _ _. Arguments l_up {K} _ _ _. Arguments l_down {K} _ _ _.
Arguments on_axis {K} _ _ _ _ _ _ _. Arguments ladder_rhs {K} _ _ _ _ _ _ _ _ _ _ _ _ _ _ _ _ _. Arguments numbered {K} _. Arguments coordinate {K} _ _ _ _ _. Arguments intertwines {K} _ _ _ _ _.
