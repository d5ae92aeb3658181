(** Generators of the hierarchical equations of motion:
    /repo/minitn/heom/eom2.py, /repo/minitn/heom/eom.py, /repo/minitn/heom/hierachy.py.

    The extended density is an array rho[n_0, ..., n_(k-1), i, j].  A generator is a list
    of terms; a term is a list of pairs (axis, matrix).

    Simplifications.  dtype conversions and printing are left out.  Division by [hbar] and
    by [scale] is multiplication by a given inverse; [np.sqrt] on the numbers 0, 1, 2, ...
    is a given function.  [np.allclose(g, 0.0)] is a given test.  The variant of
    hierachy.py with a [basis] (DVR) is in HeomGrid_Model.v; here [basis=None]. *)
From Coq Require Import List Arith Bool.
From Verif Require Import Py Alg ListX NdArray_Model Contract_Model.
Import ListNotations.
Local Open Scope nat_scope.
Local Open Scope py_scope.

Section Heom.
Variable K : StarRing.

(** Numbers 0, 1, 2, ... *)
Fixpoint nr (n : nat) : K := match n with 0 => r0 | S n => (nr n + r1)%S end.

(** [l[k]] *)
Definition item {A} (l : list A) (k : nat) : res A :=
  match nth_error l k with Some x => Ok x | None => Raise IndexError end.

(** List comprehension with a body that may raise. *)
Fixpoint map_res {A B} (f : A -> res B) (l : list A) : res (list B) :=
  match l with
  | [] => Ok []
  | x :: l => let! y := f x in let! r := map_res f l in Ok (y :: r)
  end.

(** [np.eye(dim, k=1)], [np.eye(dim, k=-1)], [np.diag(v)], [np.arange(dim)] *)
Definition eye_up (dim : nat) : arr K := build [dim; dim] (fun x => delta (S (nth 0 x 0)) (nth 1 x 0)).
Definition eye_dn (dim : nat) : arr K := build [dim; dim] (fun x => delta (nth 0 x 0) (S (nth 1 x 0))).
Definition diag (v : list K) : arr K :=
  build [length v; length v] (fun x => rmul (delta (nth 0 x 0) (nth 1 x 0)) (nth (nth 0 x 0) v r0)).
Definition arange (dim : nat) : list K := map nr (seq 0 dim).

Definition term : Type := list (nat * arr K).

(** 1j; 1/hbar; np.sqrt *)
Variables (im ihbar : K) (sq : nat -> K).

Variable n_dims : list nat.
Variables h op : arr K.
Definition k_max : nat := length n_dims.

(** The assertions of the constructors: /repo/minitn/heom/eom2.py:38-51, eom.py:39-51,
    hierachy.py:41-57 *)
Definition init (corr_k_max : nat) : res unit :=
  if negb (k_max =? corr_k_max) then Raise AssertionError
  else if negb (ndim op =? 2) then Raise AssertionError
  else if list_eq_dec Nat.eq_dec (shape op) (shape h) then Ok tt else Raise AssertionError.

(** /repo/minitn/heom/eom2.py:79-80, eom.py:79-80 [_numberer], eom2.py:82-83, eom.py:82-83 [_sqrt_numberer] *)
Definition numberer (k : nat) : res (arr K) := let! d := item n_dims k in Ok (diag (arange d)).
Definition sqrt_numberer (k : nat) : res (arr K) := let! d := item n_dims k in Ok (diag (map sq (seq 0 d))).

(** ** eom2.py *)
Section Plain.
Variables gamma symm asymm : list K.
Variable close0 : K -> bool.

(** /repo/minitn/heom/eom2.py:69-77 [_raiser], [_lower] *)
Definition raiser2 (k : nat) : res (arr K) := let! d := item n_dims k in Ok (eye_up d).
Definition lower2 (k : nat) : res (arr K) := let! d := item n_dims k in Ok (eye_dn d).

(** /repo/minitn/heom/eom2.py:85-94 [_diff_ij] *)
Definition diff_ij : list term :=
  [ [(k_max, arr_scale (- im)%S (mat_T h))]; [(k_max + 1, arr_scale im h)] ].

(** /repo/minitn/heom/eom2.py:96-111 [_diff_n], for one-dimensional [exp_coeff]:
    [gamma[i, j]] of the diagonal matrix. *)
Definition gamma_at (i j : nat) : res K :=
  let! g := item gamma i in let! _ := item gamma j in Ok (if i =? j then g else r0).
Definition diff_n_term (p : nat * nat) : res (list term) :=
  let (i, j) := p in
  let! g := gamma_at i j in
  if close0 g then Ok [] else
  let! n := numberer i in
  let t := [(i, arr_scale (- g)%S n)] in
  if i =? j then Ok [t] else
  let! n_i := sqrt_numberer i in
  let! n_j := sqrt_numberer j in
  let! r := raiser2 i in
  let! l := lower2 j in
  let! a := matmul r n_i in
  let! b := matmul n_j l in
  Ok [t ++ [(i, a); (j, b)]].
Definition diff_n2 : res (list term) :=
  let! l := map_res diff_n_term (list_prod (seq 0 k_max) (seq 0 k_max)) in Ok (concat l).

(** /repo/minitn/heom/eom2.py:113-124 [_diff_k] *)
Definition c_at (k : nat) : res K :=
  let! s := item symm k in let! a := item asymm k in Ok (s + im * a)%S.
Definition diff_k2 (k : nat) : res (list term) :=
  let! c := c_at k in
  let! n := numberer k in
  let! r := raiser2 k in
  let! l := lower2 k in
  let! rn := matmul r n in
  Ok [ [(k_max, arr_scale (- im * ihbar)%S (mat_T op)); (k, l)];
       [(k_max + 1, arr_scale (im * ihbar)%S op); (k, l)];
       [(k_max, arr_scale (- im * ihbar * c)%S (mat_T op)); (k, rn)];
       [(k_max + 1, arr_scale (im * ihbar * rconj c)%S op); (k, rn)] ].

(** /repo/minitn/heom/eom2.py:126-136 [diff] *)
Definition diff2 : res (list term) :=
  let! n := diff_n2 in
  let! l := map_res diff_k2 (seq 0 k_max) in
  Ok (diff_ij ++ n ++ concat l).

(** ** eom.py *)

(** /repo/minitn/heom/eom.py:69-77 [_raiser], [_lower] *)
Definition raiser1 (k : nat) : res (arr K) := let! d := item n_dims k in Ok (eye_dn d).
Definition lower1 (k : nat) : res (arr K) := let! d := item n_dims k in Ok (eye_up d).

(** /repo/minitn/heom/eom.py:92-109 [_diff_n]; [_diff_ij] 85-90 is the one of eom2.py. *)
Definition diff_n1 : res (list term) :=
  map_res (fun p => let! n := numberer (fst p) in Ok [(fst p, arr_scale (- snd p)%S n)])
    (combine (seq 0 (length gamma)) gamma).

(** /repo/minitn/heom/eom.py:111-123 [_diff_k] *)
Definition diff_k1 (k : nat) : res (list term) :=
  let! c := c_at k in
  let! n := sqrt_numberer k in
  let! r := raiser1 k in
  let! l := lower1 k in
  let! nl := matmul n l in
  let! rn := matmul r n in
  Ok [ [(k_max, arr_scale (- im * ihbar)%S op); (k, nl)];
       [(k_max + 1, arr_scale (im * ihbar)%S op); (k, nl)];
       [(k_max, arr_scale (- im * ihbar * c)%S op); (k, rn)];
       [(k_max + 1, arr_scale (im * ihbar * rconj c)%S op); (k, rn)] ].

(** /repo/minitn/heom/eom.py:125-135 [diff] *)
Definition diff1 : res (list term) :=
  let! n := diff_n1 in
  let! l := map_res diff_k1 (seq 0 k_max) in
  Ok (diff_ij ++ n ++ concat l).
End Plain.

(** ** hierachy.py *)
Section Scaled.
Variables derivative coeff conj_coeff : list K.
(** [scale] and 1/[scale] *)
Variables scale iscale : K.

(** /repo/minitn/heom/hierachy.py:82-98 [_raiser], 100-116 [_lower], 118-133 [_numberer]
    (the branches with [basis[k] is None]) *)
Definition raiser3 (k : nat) : res (arr K) :=
  let! d := item n_dims k in matmul (eye_up d) (diag (map sq (seq 0 d))).
Definition lower3 (k : nat) : res (arr K) :=
  let! d := item n_dims k in matmul (diag (map sq (seq 0 d))) (eye_dn d).

(** /repo/minitn/heom/hierachy.py:146-165: the three terms of mode [k] *)
Definition diff_k3 (k : nat) : res (list term) :=
  let! ck := item coeff k in
  let! cck := item conj_coeff k in
  let! g := item derivative k in
  let! n := numberer k in
  let! r := raiser3 k in
  let! l := lower3 k in
  let! m1 := arr_add (arr_scale (ck * iscale)%S r) (arr_scale scale l) in
  let! m2 := arr_add (arr_scale (cck * iscale)%S r) (arr_scale scale l) in
  Ok [ [(k, arr_scale g n)];
       [(k_max, arr_scale (- im)%S op); (k, m1)];
       [(k_max + 1, arr_scale im op); (k, m2)] ].

(** /repo/minitn/heom/hierachy.py:135-167 [_diff] *)
Definition diff3 : res (list term) :=
  let! l := map_res diff_k3 (seq 0 k_max) in
  Ok ([ [(k_max, arr_scale (- im)%S h)]; [(k_max + 1, arr_scale im h)] ] ++ concat l).

(** /repo/minitn/heom/hierachy.py:59-65 [h_list]: axes are renamed to leaves. *)
Definition h_list {L} (sys_i sys_j : L) (ph_indices : list L) : res (list (list (L * arr K))) :=
  let convention := ph_indices ++ [sys_i; sys_j] in
  let! d := diff3 in
  map_res (map_res (fun p => let! l := item convention (fst p) in Ok (l, snd p))) d.
End Scaled.

(** ** Initial state and action of the terms *)

(** /repo/minitn/heom/hierachy.py:67-80, eom.py:53-67, eom2.py:53-67 [gen_extended_rho]:
    [np.tensordot(ext, rho, axes=0)] is the outer product.  [np.prod] of an empty list is
    the float 1.0, which [np.zeros] refuses as a length. *)
Definition outer (a b : arr K) : arr K :=
  build (shape a ++ shape b) (fun x => rmul (get a (firstn (ndim a) x)) (get b (skipn (ndim a) x))).
Definition gen_extended_rho (rho : arr K) : res (arr K) :=
  match shape rho with
  | [d; d'] =>
      if d =? d' then
        if length n_dims =? 0 then Raise TypeError else
        if prod n_dims =? 0 then Raise IndexError else
        let ext := build [prod n_dims] (fun x => delta (nth 0 x 0) 0) in
        reshape (outer ext rho) (n_dims ++ shape rho)
      else Raise AssertionError
  | _ => Raise AssertionError
  end.

(** How a term acts on the array of a tensor whose axes are all linked to leaves:
    /repo/minitn/algorithms/ml.py:308-323 [term_visitor] sets the array of each leaf of the
    term (a later pair for the same leaf overwrites an earlier one), and
    /repo/minitn/algorithms/ml.py:367-379 [_single_eom] contracts each axis with the array
    of its leaf, [None] meaning nothing. *)
Definition leaf_array (t : term) (i : nat) : option (arr K) :=
  option_map snd (find (fun p => fst p =? i) (rev t)).
Fixpoint contract_axes (t : term) (a : arr K) (axes : list nat) : res (arr K) :=
  match axes with
  | [] => Ok a
  | i :: axes => let! a := partial_product a i (leaf_array t i) 0 in contract_axes t a axes
  end.
Definition apply_term (t : term) (a : arr K) : res (arr K) := contract_axes t a (seq 0 (ndim a)).

(** The sum over the terms: /repo/minitn/algorithms/ml.py:439-468 [eom] before the division
    by the coefficient. *)
Fixpoint apply_terms (l : list term) (a : arr K) : res (arr K) :=
  match l with
  | [] => Ok (zeros (shape a))
  | t :: l => let! x := apply_term t a in let! y := apply_terms l a in arr_add x y
  end.
(** Applying a generator repeatedly. *)
Fixpoint powers (l : list term) (n : nat) (a : arr K) : res (arr K) :=
  match n with 0 => Ok a | S n => let! b := powers l n a in apply_terms l b end.
End Heom.

Arguments nr {K} _. Arguments eye_up {K} _. Arguments eye_dn {K} _. Arguments diag {K} _. Arguments arange {K} _.
Arguments outer {K} _ _. Arguments gen_extended_rho {K} _ _. Arguments leaf_array {K} _ _.
Arguments apply_term {K} _ _. Arguments apply_terms {K} _ _. Arguments contract_axes {K} _ _ _. Arguments powers {K} _ _ _.
