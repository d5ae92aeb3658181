(** [Hierachy] of /repo/minitn/heom/seom.py: terms for an extended wave function
    c[n_0, ..., n_(k-1), q, p].

    Simplifications as in Heom_Model.v: no dtypes, [np.sqrt] on 0, 1, 2, ... is a given function
    and [np.allclose(g, 0.0)] a given test.  [hj] is [0.5j * self.hbar].  The assertions of the
    constructor, lines 41-49, are [init] of Heom_Model.v. *)
From Coq Require Import List Arith Bool.
From Verif Require Import Py Alg ListX NdArray_Model Contract_Model Heom_Model.
Import ListNotations.
Local Open Scope nat_scope.
Local Open Scope py_scope.

Section Seom.
Variable K : StarRing.
Variables (im hj : K) (sq : nat -> K) (close0 : K -> bool).
Variable n_dims : list nat.
(** [self.corr.exp_coeff], [symm_coeff], [asymm_coeff]; [exp_coeff] has any number of axes. *)
Variables (exp_coeff : arr K) (symm asymm : list K).
(** The arguments of the constructor. *)
Variables sys_hamiltonian sys_op : arr K.

(** /repo/minitn/heom/seom.py:51-52 *)
Definition op : arr K := mat_T sys_op.
Definition h : arr K := mat_T sys_hamiltonian.
Definition sqrt_n (d : nat) : arr K := diag (map sq (seq 0 d)).

(** /repo/minitn/heom/seom.py:55-60 *)
Definition creator (k : nat) : res (arr K) := let! d := item n_dims k in matmul (eye_up d) (sqrt_n d).
(** /repo/minitn/heom/seom.py:62-67 *)
Definition annihilator (k : nat) : res (arr K) := let! d := item n_dims k in matmul (sqrt_n d) (eye_dn d).
(** /repo/minitn/heom/seom.py:69-71 is [numberer] of Heom_Model.v. *)

(** /repo/minitn/heom/seom.py:73-76; axis [_p] is the last one (lines 43-44). *)
Definition diff_h : list (term K) := [[(k_max n_dims + 1, h)]].

(** /repo/minitn/heom/seom.py:79-80 and 83: [gamma] is bound for one axis only. *)
Definition gamma_entry (i j : nat) : res K :=
  if ndim exp_coeff =? 1 then gamma_at K (data exp_coeff) i j else Raise UnboundLocalError.
(** /repo/minitn/heom/seom.py:82-90, for one pair. *)
Definition diff_n_pair (p : nat * nat) : res (list (term K)) :=
  let (i, j) := p in
  let! g := gamma_entry i j in
  if close0 g then Ok [] else
  let! n := numberer K n_dims i in
  let t := [(i, arr_scale (hj * g)%S n)] in
  if i =? j then Ok [t] else
  let! at_ := creator i in
  let! a := annihilator j in
  Ok [t ++ [(i, at_); (j, a)]].
(** /repo/minitn/heom/seom.py:78-91 *)
Definition diff_n : res (list (term K)) :=
  let! l := map_res diff_n_pair (list_prod (seq 0 (k_max n_dims)) (seq 0 (k_max n_dims))) in Ok (concat l).

(** /repo/minitn/heom/seom.py:93-101 *)
Definition diff_k (k : nat) : res (list (term K)) :=
  let! c := c_at K im symm asymm k in
  let! at_ := creator k in
  let! a := annihilator k in
  Ok [ [(k_max n_dims + 1, op); (k, a)]; [(k_max n_dims + 1, arr_scale c op); (k, at_)] ].

(** /repo/minitn/heom/seom.py:103-113 *)
Definition diff : res (list (term K)) :=
  let! n := diff_n in
  let! l := map_res diff_k (seq 0 (k_max n_dims)) in
  Ok (diff_h ++ n ++ concat l).
End Seom.
