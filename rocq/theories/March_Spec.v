(** Linear maps on lists, polynomials of a matrix, bilinear products, Fourier sums. *)
From Coq Require Import List Arith Reals.
From Verif Require Import Py Alg ListX Cplx.
Import ListNotations.
Local Open Scope nat_scope.

(** [z = a + c b] *)
Definition vlin {K : StarRing} (c : K) (a b z : list K) : Prop :=
  length b = length a /\ length z = length a /\ forall k, nth k z r0 = radd (nth k a r0) (rmul c (nth k b r0)).
(** Three results: all errors of one kind, or related values *)
Definition tri {A} (P : A -> A -> A -> Prop) (x y z : res A) : Prop :=
  match x, y, z with
  | Ok a, Ok b, Ok d => P a b d
  | Raise e, Raise e', Raise e'' => e' = e /\ e'' = e
  | _, _, _ => False
  end.
Definition linear_op {K : StarRing} (h : list K -> res (list K)) : Prop :=
  forall c a b z, vlin c a b z -> tri (vlin c) (h a) (h b) (h z).

(** [sum_j H[k, j] v[j]], and [p_0 v + p_1 H v + p_2 H H v + ...] *)
Definition times_mat (n : nat) (H : nat -> nat -> C_star) (v : nat -> C_star) (k : nat) : C_star := sumn n (fun j => rmul (H k j) (v j)).
Fixpoint poly_of (n : nat) (H : nat -> nat -> C_star) (p : list C_star) (v : nat -> C_star) (k : nat) : C_star :=
  match p with
  | [] => r0
  | a :: p => radd (rmul a (v k)) (times_mat n H (poly_of n H p v) k)
  end.

(** The polynomial of one Runge-Kutta step of length [h] for [y' = -i f H y], in powers of [H] *)
Fixpoint p_add (p q : list C_star) : list C_star :=
  match p, q with
  | [], q => q
  | p, [] => p
  | a :: p, b :: q => radd a b :: p_add p q
  end.
Section Step.
Variables (f : R) (rows : list (list R)) (weights : list R).
Definition p_rate (p : list C_star) : list C_star := r0 :: map (rmul (ropp (rmul C_i (RtoC f)))) p.
Fixpoint p_sum (h : R) (cs : list R) (ks : list (list C_star)) : list C_star :=
  match cs, ks with
  | c :: cs, k :: ks => p_add (map (rmul (RtoC (h * c))) k) (p_sum h cs ks)
  | _, _ => []
  end.
Fixpoint p_stages (h : R) (rs : list (list R)) (ks : list (list C_star)) : list (list C_star) :=
  match rs with
  | [] => ks
  | r :: rs => p_stages h rs (ks ++ [p_rate (p_add [r1] (p_sum h r ks))])
  end.
Definition step_poly (h : R) : list C_star := p_add [r1] (p_sum h weights (p_stages h rows [p_rate [r1]])).
(** The steps of the lengths [hs], one after the other *)
Definition steps (n : nat) (H : nat -> nat -> C_star) (hs : list R) (v : nat -> C_star) : nat -> C_star :=
  fold_left (fun v h => poly_of n H (step_poly h) v) hs v.
End Step.
Definition total (l : list R) : R := fold_right Rplus 0%R l.

(** The inverse discrete Fourier transform *)
Definition inverse_dft (ifft : list C_star -> list C_star) : Prop :=
  forall a k, length (ifft a) = length a /\
    (k < length a -> nth k (ifft a) r0 = rmul (RtoC (/ INR (length a))) (sumn (length a) (fun j => rmul (nth j a r0) (Cexp (0, 2 * PI * INR j * INR k / INR (length a))%R)))).
(** The sum of the squares of the absolute values *)
Definition size2 (v : list C_star) : R := fold_right (fun z s => (Cnorm2 z + s)%R) 0%R v.
