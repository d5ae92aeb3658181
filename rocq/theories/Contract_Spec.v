(** What the contractions are supposed to compute, entry by entry. *)
From Coq Require Import List Arith.
From Verif Require Import Alg ListX NdArray_Model.
Import ListNotations.

Section Spec.
Variable K : StarRing.
Local Open Scope star_scope.

(** [c] is [a] with axis [i] contracted against axis [j] of [b]; the remaining
    axes of [b] stand in the place of axis [i]. *)
Definition contracts (a : arr K) (i : nat) (b : arr K) (j : nat) (c : arr K) : Prop :=
  wf c /\
  shape c = firstn i (shape a) ++ del j (shape b) ++ skipn (S i) (shape a) /\
  forall x y z,
    in_range x (firstn i (shape a)) ->
    in_range y (del j (shape b)) ->
    in_range z (skipn (S i) (shape a)) ->
    get c (x ++ y ++ z)
    = sumn (nth i (shape a) O) (fun m => get a (x ++ m :: z) * get b (ins j m y)).

(** [c] is the matrix of partial scalar products of [a] and [b]. *)
Definition traces (a : arr K) (i : nat) (b : arr K) (j : nat) (c : arr K) : Prop :=
  wf c /\
  shape c = [nth i (shape a) O; nth j (shape b) O] /\
  forall n m, (n < nth i (shape a) O)%nat -> (m < nth j (shape b) O)%nat ->
    get c [n; m]
    = sumL (indices (del i (shape a))) (fun r => get a (ins i n r) * get b (ins j m r)).

(** [c] is the full scalar product of [a] and [b]. *)
Definition traces_all (a b c : arr K) : Prop :=
  wf c /\ shape c = [] /\
  get c [] = sumL (indices (shape a)) (fun r => get a r * get b r).

(** Matrix product. *)
Definition mat_mul_of (m n p : arr K) : Prop :=
  exists a b c, shape m = [a; b] /\ shape n = [b; c] /\ wf p /\ shape p = [a; c] /\
  forall i j, (i < a)%nat -> (j < c)%nat ->
    get p [i; j] = sumn b (fun k => get m [i; k] * get n [k; j]).

(** Orthonormality along an axis, as the code uses it: rows indexed by the axis. *)
Definition isometric (a : arr K) (axis : nat) : Prop :=
  forall i i', (i < nth axis (shape a) O)%nat -> (i' < nth axis (shape a) O)%nat ->
    sumL (indices (del axis (shape a)))
      (fun r => rmul (rconj (get a (ins axis i r))) (get a (ins axis i' r))) = delta i i'.

End Spec.
Arguments isometric {K} _ _.
Arguments contracts {K} _ _ _ _ _. Arguments traces {K} _ _ _ _ _.
Arguments traces_all {K} _ _ _. Arguments mat_mul_of {K} _ _ _.
