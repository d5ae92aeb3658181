(** What the derivatives of the tensors of a network should be. *)
From Coq Require Import String List Arith Bool.
From Verif Require Import Py Alg ListX NdArray_Model Net_Model Net_Spec Env_Spec Cache_Model Cache_Spec.
Import ListNotations.
Local Open Scope nat_scope.

Section EomSpec.
Variable K : StarRing.
Implicit Types A B : id -> arr K.

(** The arrays with the one of [r] exchanged. *)
Definition exchanged A (r : id) (a : arr K) : id -> arr K := fun n => if n =? r then a else A n.
(** The conjugated arrays, with [f] in the place of the one of [r]. *)
Definition varied A (r : id) (f : arr K) : id -> arr K := fun n => if n =? r then f else arr_conj (A n).

(** The matrix of a term at a leaf. *)
Definition factor (term : list (id * arr K)) (l : id) (p q : nat) : K :=
  match last_of term l with None => delta p q | Some m => get m [p; q] end.
(** Matrices sit on leaves and have the dimension of the leaf. *)
Definition suits (h : heap K) (t : tree) A (term : list (id * arr K)) : Prop :=
  (forall l m, In (l, m) term -> oleaf (hget h l) = true) /\
  Forall2 (fun l d => match last_of term l with None => True | Some m => wf m /\ shape m = [d; d] end) (lids t) (ldims A None 0 t).

(** Matrix element of a product of matrices between the states with arrays [A] and [B];
    the first index of each matrix belongs to [A]. *)
Definition element A B (t : tree) (term : list (id * arr K)) : K :=
  sumL (indices (ldims A None 0 t)) (fun v => sumL (indices (ldims B None 0 t)) (fun w =>
    rmul (rmul (dense A t v) (dense B t w))
         (prodL (lids t) (fun l => factor term l (asg (lids t) v l) (asg (lids t) w l))))).

(** [sum_I f_I c_I] *)
Definition pairing (f c : arr K) : K := sumL (indices (shape c)) (fun i => rmul (get f i) (get c i)).

(** The links of the heap form the tree [Nd r ks], the arrays [A] fit it, tensors other
    than the root that are flagged as normalised are so, the terms sit on leaves. *)
Definition standing (fuel : nat) (h : heap K) (r : id) (ks : list (nat * tree * nat)) A (terms : list (list (id * arr K))) : Prop :=
  let R := Nd r ks in
  hangs h None R /\ NoDup (ids R) /\ fits A None 0 R /\ length (ids R) <= fuel /\
  (forall n, In n (nids R) -> oarr (hget h n) = Some (A n)) /\
  (forall n, In n (nids R) -> n <> r -> onorm (hget h n) = true -> unit_along (A n) (oaxis (hget h n))) /\
  Forall (suits h R A) terms.

(** Sum of the terms as a matrix on the values of the leaves, and whether it equals
    [sg] times its adjoint. *)
Definition total (terms : list (list (id * arr K))) (t : tree) (v w : list nat) : K :=
  sumL terms (fun term => prodL (lids t) (fun l => factor term l (asg (lids t) v l) (asg (lids t) w l))).
Definition adjoint_to (sg : K) terms A (t : tree) : Prop :=
  forall v w, In v (indices (ldims A None 0 t)) -> In w (indices (ldims A None 0 t)) ->
    total terms t v w = rmul sg (rconj (total terms t w v)).

(** [sum_I conj(x_I) y_I]; the expectation value with the array [y] in the root [r];
    [y + eps d]. *)
Definition inner (x y : arr K) : K := sumL (indices (shape y)) (fun i => rmul (rconj (get x i)) (get y i)).
Definition expected A (r : id) (t : tree) terms (y : arr K) : K :=
  sumL terms (element (exchanged A r y) (varied A r (arr_conj y)) t).
Definition advanced (y : list K) (eps : K) (d : list K) : list K :=
  map (fun p => radd (fst p) (rmul eps (snd p))) (combine y d).
(** With the vector [y] in the root, [n] is the square of the norm of the root array and
    [q] the value of [u] times the expectation value, both real ([re] embeds the reals). *)
Definition observed {T} (re : T -> K) (u : K) A (r : id) (t : tree) terms (y : list K) (n q : T) : Prop :=
  let a := mkArr (shape (A r)) y in inner a a = re n /\ rmul u (expected A r t terms a) = re q.
End EomSpec.
Arguments exchanged {K} _ _ _ _. Arguments varied {K} _ _ _ _. Arguments factor {K} _ _ _ _. Arguments suits {K} _ _ _ _.
Arguments element {K} _ _ _ _. Arguments pairing {K} _ _.
Arguments standing {K} _ _ _ _ _ _. Arguments total {K} _ _ _ _. Arguments adjoint_to {K} _ _ _ _. Arguments inner {K} _ _.
Arguments expected {K} _ _ _ _ _. Arguments advanced {K} _ _ _. Arguments observed {K T} _ _ _ _ _ _ _ _ _.
