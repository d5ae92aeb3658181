(** What matrix product states and operators stand for: sums over all configurations. *)
From Coq Require Import List Arith.
From Verif Require Import Py Alg Ord ListX NdArray_Model.
Import ListNotations.
Local Open Scope nat_scope.

Section MpsSpec.
Variable K : StarRing.
Local Open Scope star_scope.

(** The entry (i, j) of the product of the matrices that the configuration [ss] selects. *)
Fixpoint amp (mps : list (arr K)) (ss : list nat) (i j : nat) : K :=
  match mps, ss with
  | [], [] => delta i j
  | A :: mps, s :: ss => sumn (nth 2 (shape A) O) (fun m => get A [s; i; m] * amp mps ss m j)
  | _, _ => 0
  end.

(** The same for operators. *)
Fixpoint oper (mpo : list (arr K)) (ss ts : list nat) (a b : nat) : K :=
  match mpo, ss, ts with
  | [], [], [] => delta a b
  | W :: mpo, s :: ss, t :: ts => sumn (nth 1 (shape W) O) (fun c => get W [a; c; s; t] * oper mpo ss ts c b)
  | _, _, _ => 0
  end.

(** Numbers of local states. *)
Definition phys (mps : list (arr K)) : list nat := map (fun A => nth 0 (shape A) O) mps.

(** [<1| O |2>] as a sum over all pairs of configurations, with the bonds left open at both
    ends; the code does not conjugate the first state. *)
Definition element (m1 o m2 : list (arr K)) (i a k j b l : nat) : K :=
  sumL (indices (phys m1)) (fun ss => sumL (indices (phys m2)) (fun ts => amp m1 ss i j * oper o ss ts a b * amp m2 ts k l)).
Definition overlap (m1 m2 : list (arr K)) (i k j l : nat) : K :=
  sumL (indices (phys m1)) (fun ss => amp m1 ss i j * amp m2 ss k l).

(** The matrices [mps] sit on the sites [p], [p + 1], ... of a chain with [d x] local states
    at the site [x] and bonds of [D x] values to the left of the site [x]. *)
Fixpoint fits (d D : nat -> nat) (p : nat) (mps : list (arr K)) : Prop :=
  match mps with
  | [] => True
  | A :: mps => (wf A /\ shape A = [d p; D p; D (S p)]) /\ fits d D (S p) mps
  end.
Fixpoint fits_op (d d' D : nat -> nat) (p : nat) (mpo : list (arr K)) : Prop :=
  match mpo with
  | [] => True
  | W :: mpo => (wf W /\ shape W = [D p; D (S p); d p; d' p]) /\ fits_op d d' D (S p) mpo
  end.
(** A whole chain of [n] sites: its end bonds have one value. *)
Definition chain (n : nat) (d D : nat -> nat) (mps : list (arr K)) : Prop :=
  length mps = n /\ fits d D O mps /\ D O = 1%nat /\ D n = 1%nat.
Definition chain_op (n : nat) (d d' D : nat -> nat) (mpo : list (arr K)) : Prop :=
  length mpo = n /\ fits_op d d' D O mpo /\ D O = 1%nat /\ D n = 1%nat.

(** The state and the operator as functions of the configurations. *)
Definition dense (mps : list (arr K)) (ss : list nat) : K := amp mps ss O O.
Definition dense_op (mpo : list (arr K)) (ss ts : list nat) : K := oper mpo ss ts O O.
Definition dense_element (m1 o m2 : list (arr K)) : K :=
  sumL (indices (phys m1)) (fun ss => sumL (indices (phys m2)) (fun ts => dense m1 ss * dense_op o ss ts * dense m2 ts)).
Definition dense_overlap (m1 m2 : list (arr K)) : K := sumL (indices (phys m1)) (fun ss => dense m1 ss * dense m2 ss).

(** [L] is the contraction of everything to the left of the site [p], and [R] of everything
    from the site [p] on. *)
Definition left_env (mpo mps : list (arr K)) (p : nat) (x y : nat) (L : arr K) : Prop :=
  wf L /\ shape L = [x; y; y] /\
  forall b j l, (b < x)%nat -> (j < y)%nat -> (l < y)%nat ->
    get L [b; j; l] = element (firstn p mps) (firstn p mpo) (firstn p mps) O O O j b l.
Definition right_env (mpo mps : list (arr K)) (p : nat) (x y : nat) (R : arr K) : Prop :=
  wf R /\ shape R = [x; y; y] /\
  forall a i k, (a < x)%nat -> (i < y)%nat -> (k < y)%nat ->
    get R [a; i; k] = element (skipn p mps) (skipn p mpo) (skipn p mps) i a k O O O.
End MpsSpec.
Arguments amp {K} _ _ _ _. Arguments oper {K} _ _ _ _ _. Arguments phys {K} _. Arguments element {K} _ _ _ _ _ _ _ _ _. Arguments overlap {K} _ _ _ _ _ _.
Arguments fits {K} _ _ _ _. Arguments fits_op {K} _ _ _ _ _. Arguments chain {K} _ _ _ _. Arguments chain_op {K} _ _ _ _ _.
Arguments dense {K} _ _. Arguments dense_op {K} _ _ _. Arguments dense_element {K} _ _ _. Arguments dense_overlap {K} _ _.
Arguments left_env {K} _ _ _ _ _ _. Arguments right_env {K} _ _ _ _ _ _.

(** ** Spin chains *)
Section SpinSpec.
Variable K : StarRing.
Variable half : K.
Local Open Scope star_scope.

(** The operators of one spin, 0 is up and 1 is down. *)
Definition s_id (s t : nat) : K := if (s =? t)%nat then 1 else 0.
Definition s_z (s t : nat) : K := if (s =? t)%nat then (if (s =? 0)%nat then half else - half) else 0.
Definition s_p (s t : nat) : K := if ((s =? 1) && (t =? 0))%nat%bool then 1 else 0.
Definition s_m (s t : nat) : K := if ((s =? 0) && (t =? 1))%nat%bool then 1 else 0.

(** The operator that is [f x] at the site [x], for [n] sites. *)
Definition product_op (n : nat) (f : nat -> nat -> nat -> K) (ss ts : list nat) : K :=
  prodL (seq 0 n) (fun x => f x (nth x ss O) (nth x ts O)).
Definition at_site (n x : nat) (o : nat -> nat -> K) : list nat -> list nat -> K :=
  product_op n (fun y => if (y =? x)%nat then o else s_id).
Definition at_pair (n x : nat) (o o' : nat -> nat -> K) : list nat -> list nat -> K :=
  product_op n (fun y => if (y =? x)%nat then o else if (y =? S x)%nat then o' else s_id).

(** [sum_x j (S+_x S-_(x+1) + S-_x S+_(x+1)) + jz Sz_x Sz_(x+1) - sum_x h Sz_x] *)
Definition spin_chain (n : nat) (j jz h : K) (ss ts : list nat) : K :=
  sumn (n - 1) (fun x => j * (at_pair n x s_p s_m ss ts + at_pair n x s_m s_p ss ts) + jz * at_pair n x s_z s_z ss ts)
  - sumn n (fun x => h * at_site n x s_z ss ts).
End SpinSpec.
Arguments s_id {K} _ _. Arguments s_z {K} _ _ _. Arguments s_p {K} _ _. Arguments s_m {K} _ _. Arguments product_op {K} _ _ _ _. Arguments at_site {K} _ _ _ _ _. Arguments at_pair {K} _ _ _ _ _ _.
Arguments spin_chain {K} _ _ _ _ _ _ _.
