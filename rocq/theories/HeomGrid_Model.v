(** The hierarchy with the tiers of a mode on a grid: /repo/minitn/heom/hierachy.py with a [basis].

    An entry of [basis] is [None] (the tiers are numbered, Heom_Model.v) or an object with
    [grid_points], [q_mat()], [dq_mat()], [dq2_mat()] and, perhaps, [eig_mat()].

    Simplifications.  Numbers are exact, dtype conversions are left out.  [np.sqrt(2)] enters through its inverse, 0.5
    is given, and so are the square root in [fk] and its inverse; where the real part under the root is not positive
    ([nan], or a division by zero) the given values stand for nothing.  What is printed is left out, but not the exceptions
    raised while it is computed. *)
From Coq Require Import List Arith Bool Reals.
From Verif Require Import Py Alg ListX Cplx NdArray_Model Dvr_Model Heom_Model.
Import ListNotations.
Local Open Scope nat_scope.
Local Open Scope py_scope.

Section Grid.
Variable K : StarRing.

Record grid := mkGrid { g_num : nat; g_q : arr K; g_dq : arr K; g_dq2 : arr K; g_eig : option (arr K) }.

(** 1j; np.sqrt; 1/sqrt(2); 0.5; [fk] of /repo/minitn/heom/hierachy.py:153 and its inverse *)
Variables (im : K) (sq : nat -> K) (isq2 half : K) (fk ifk : K -> K -> K).

Definition diffr (a b : arr K) : res (arr K) := arr_add a (arr_scale (- r1)%S b).
(** [a**2]: every entry by itself *)
Definition squares (a : arr K) : arr K := mkArr (shape a) (map (fun x => rmul x x) (data a)).

(** /repo/minitn/heom/hierachy.py:93-97, 111-115 and 128-132: [eig_mat().T @ ans @ eig_mat()], to be printed *)
Definition shown (g : grid) (ans : arr K) : res (arr K) :=
  match g_eig g with
  | None => Raise AttributeError
  | Some e => let! x := matmul (mat_T e) ans in let! _ := matmul x e in Ok ans
  end.
(** /repo/minitn/heom/hierachy.py:90-98, [_raiser] with a basis *)
Definition raiser_g (g : grid) : res (arr K) :=
  let! a := diffr (arr_scale isq2 (g_q g)) (arr_scale isq2 (g_dq g)) in shown g (mat_T a).
(** /repo/minitn/heom/hierachy.py:107-116, [_lower] with a basis *)
Definition lower_g (g : grid) : res (arr K) :=
  let! a := arr_add (arr_scale isq2 (g_q g)) (arr_scale isq2 (g_dq g)) in shown g (mat_T a).
(** /repo/minitn/heom/hierachy.py:122-133, [_numberer] with a basis *)
Definition numberer_g (g : grid) : res (arr K) :=
  let! a := diffr (squares (g_q g)) (g_dq2 g) in
  let! b := diffr a (eye (g_num g) (g_num g)) in shown g (mat_T (arr_scale half b)).

Variable n_dims : list nat.
Variables h op : arr K.
Variables derivative coeff conj_coeff : list K.
Variables scale iscale : K.
(** [self.basis], /repo/minitn/heom/hierachy.py:50-52: [None] becomes [None] for every mode *)
Definition set_basis (b : option (list (option grid))) : list (option grid) :=
  match b with None => repeat None (length n_dims) | Some l => l end.
Variable basis : list (option grid).

(** /repo/minitn/heom/hierachy.py:146-165: the three terms of mode [k] *)
Definition diff_kg (k : nat) : res (list (term K)) :=
  let! ck := item coeff k in
  let! cck := item conj_coeff k in
  let! b := item basis k in
  match b with
  | None => diff_k3 K im sq n_dims op derivative coeff conj_coeff scale iscale k
  | Some g =>
      let! der := item derivative k in
      let! n := numberer_g g in
      let! r := raiser_g g in
      let! l := lower_g g in
      let! m1 := arr_add (arr_scale (ck * ifk ck cck)%S r) (arr_scale (fk ck cck) l) in
      let! m2 := arr_add (arr_scale (cck * ifk ck cck)%S r) (arr_scale (fk ck cck) l) in
      Ok [ [(k, arr_scale der n)];
           [(length n_dims, arr_scale (- im)%S op); (k, m1)];
           [(length n_dims + 1, arr_scale im op); (k, m2)] ]
  end.

(** /repo/minitn/heom/hierachy.py:135-167 [_diff] *)
Definition diff_g : res (list (term K)) :=
  let! l := map_res diff_kg (seq 0 (length n_dims)) in
  Ok ([ [(length n_dims, arr_scale (- im)%S h)]; [(length n_dims + 1, arr_scale im h)] ] ++ concat l).
End Grid.
Arguments mkGrid {K} _ _ _ _ _. Arguments g_num {K} _. Arguments g_q {K} _. Arguments g_dq {K} _. Arguments g_dq2 {K} _. Arguments g_eig {K} _.
Arguments set_basis {K} _ _.

(** /repo/minitn/heom/hierachy.py:153 over the complex numbers: [np.sqrt(np.real((ck + cck) / 2.0))] *)
Definition fk_C (c c' : C_star) : C_star := RtoC (sqrt ((fst c + fst c') / 2)).
Definition ifk_C (c c' : C_star) : C_star := RtoC (/ sqrt ((fst c + fst c') / 2)).
Definition isq2_C : C_star := RtoC (/ sqrt 2).
Definition half_C : C_star := RtoC (/ 2).

(** A [SineDVR] (/repo/minitn/bases/dvr.py:576-680, Dvr_Model.v) as an entry of [basis]; the class has no [eig_mat], [e] is the one
    that a caller may have attached to the object. *)
Definition sine_grid (a b : R) (n : nat) (e : option (arr C_star)) : res (grid C_star) :=
  let! dq := dq_mat a b n in
  let! dq2 := dq2_mat a b n in
  Ok (mkGrid (length (grid_points a b n)) (toC (q_mat a b n)) (toC dq) (toC dq2) e).
