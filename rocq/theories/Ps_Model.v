(** [ProjectorSplitting] of /repo/minitn/heom/propagate2.py: [term_visitor] 58-69, [_form_env]
    71-79, [_single_diff] 81-111, [_single_prop] 113-136, [remove_env] 138-144 and [move] 146-157.

    The state is that of Cache_Model.v: heap, [self.root] and [self.env_].

    Simplifications.  [self.time] is not read by what is modelled: there are no time-dependent
    terms.  Which calls of [diff] the ODE solver makes, and which vector it returns, is
    arbitrary: a propagation is a list of vectors, for which [diff] is called, and the vector at
    the end.  An exception raised by a call of [diff] ends the run.  Records are those of
    Cache_Model.v with [tt] for the time. *)
From Coq Require Import String List Arith Bool.
From Verif Require Import Py Alg ListX NdArray_Model Contract_Model Net_Model Cache_Model.
Import ListNotations.
Local Open Scope nat_scope.
Local Open Scope list_scope.
Local Open Scope py_scope.

Section Ps.
Variable K : StarRing.
Implicit Types h : heap K.
Notation state := (state K).
Variable h_list : list (list (id * arr K)).
Variable fuel : nat.

(** /repo/minitn/heom/propagate2.py:65-66; whether the object is a leaf is not asked. *)
Fixpoint set_arrays h (term : list (id * arr K)) : heap K :=
  match term with
  | [] => h
  | (l, a) :: term => set_arrays (modify h l (put_arr (Some a))) term
  end.

(** /repo/minitn/heom/propagate2.py:64-69 for the terms from number [n] on. *)
Fixpoint each_term {A} (body : nat -> A -> state -> res (A * state))
  (n : nat) (terms : list (list (id * arr K))) (acc : A) (s : state) : res (A * state) :=
  match terms with
  | [] => Ok (acc, s)
  | term :: terms =>
      let! r := body n acc (with_heap K s (set_arrays (sheap K s) term)) in
      let '(acc, s) := r in
      each_term body (S n) terms acc (with_heap K s (set_all (reset_obj K) (sheap K s) (map fst term)))
  end.

(** /repo/minitn/heom/propagate2.py:58-69 [term_visitor]. *)
Definition term_visitor {A} (body : nat -> A -> state -> res (A * state)) (acc : A) (s : state) : res (A * state) :=
  let! l := visitor fuel (sheap K s) (sroot K s) None true in
  each_term body 0 h_list acc (with_heap K s (set_all (reset_obj K) (sheap K s) l)).

(** /repo/minitn/heom/propagate2.py:75-78. *)
Definition form_term (n : nat) (u : unit) (s : state) : res (unit * state) :=
  let! l := visitor fuel (sheap K s) (sroot K s) None false in
  let! s := fill K fuel n (flat_map (fun t => map (fun i => (t, i)) (seq 0 (order (sheap K s) t))) l) s in
  Ok (tt, s).
(** /repo/minitn/heom/propagate2.py:71-79 [_form_env]. *)
Definition form_env (s : state) : res state :=
  let! r := term_visitor form_term tt (with_env K s (no_env K)) in
  Ok (snd r).

(** /repo/minitn/heom/propagate2.py:81-111 [_single_diff]; nothing is stored. *)
Definition single_diff (t : id) (n : nat) (s : state) : res (arr K * state) :=
  match oarr (hget (sheap K s) t) with
  | None => Raise TypeError
  | Some a =>
      let! r := apply_envs K fuel n t false (seq 0 (order (sheap K s) t)) a s in
      if is_none (oaxis (hget (sheap K s) t)) then Ok r else Raise RuntimeError
  end.

(** /repo/minitn/heom/propagate2.py:124-125. *)
Definition diff_term (t : id) (n : nat) (ans : list K) (s : state) : res (list K * state) :=
  let! r := single_diff t n s in
  let '(x, s) := r in
  let! ans := vec_add K ans (data x) in
  Ok (ans, s).
(** /repo/minitn/heom/propagate2.py:119-126 [diff]; the vector stays in the tensor.  A
    tensor without array is taken to raise, as in Cache_Model.v; no network of the theorems has one. *)
Definition diff (t : id) (y : list K) (s : state) : res (list K * state) :=
  match oarr (hget (sheap K s) t) with
  | None => Raise AttributeError
  | Some origin =>
      let! a := reshape (mkArr [length y] y) (shape origin) in
      term_visitor (diff_term t) (repeat r0 (length y)) (with_heap K s (modify (sheap K s) t (put_arr (Some a))))
  end.

(** One call of [diff] by the solver. *)
Definition do_call (t : id) (y : list K) (s : state) : run K unit :=
  ([Called K unit s false tt y], let! r := diff t y s in Ok (snd r)).

(** /repo/minitn/heom/propagate2.py:113-136 [_single_prop], with the vectors for which the
    solver calls [diff] and the one it returns; line 134 is [update] of Cache_Model.v. *)
Definition single_prop (t : id) (ys : list (list K)) (y : list K) (s : state) : run K unit :=
  if negb (is_none (oaxis (hget (sheap K s) t))) then ([], Raise RuntimeError) else
  andthen K unit (foreach K unit (do_call t) ys (mkState K (sheap K s) t (senv K s)))
    (fun s => ([], update K t y s)).

(** /repo/minitn/heom/propagate2.py:138-144 [remove_env]: as in ml.py. *)
Definition remove_env : list id -> state -> state := Cache_Model.remove_env K unit (mkSystem K unit h_list None).

Section Move.
(** [compressed_svd] as called by [split_unite] (no rank, no bound) and by
    [unite_split] ([svd_rank], [svd_err]). *)
Variables csvd1 csvd2 : arr K -> res (arr K * arr K * arr K).

(** [op(mid)]: no operation, or a [_single_prop] of the inserted tensor. *)
Definition run_op (op : option (list (list K) * list K)) (mid : id) (s : state) : run K unit :=
  match op with
  | None => ([], Ok s)
  | Some (ys, y) => single_prop mid ys y s
  end.

(** /repo/minitn/tensor.py:457-476 [split_unite] with the operation above, and
    /repo/minitn/heom/propagate2.py:155-156. *)
Definition split_unite_op (n : id) (i : nat) (op : option (list (list K) * list K)) (s : state) : run K unit :=
  match dindex (oacc (hget (sheap K s) n)) i with
  | Raise e => ([], Raise e)
  | Ok (e, j) =>
      let nz := onorm (hget (sheap K s) n) && onorm (hget (sheap K s) e) in
      match split csvd1 (sheap K s) n (AxInt i) None None (Some n) nz with
      | Raise x => ([], Raise x)
      | Ok (mid, _, h) =>
          andthen K unit (run_op op mid (with_heap K s h)) (fun s =>
          match unite (sheap K s) e j (Some e) nz with
          | Raise x => ([], Raise x)
          | Ok (_, h) => ([], Ok (remove_env [n; mid; e] (mkState K h e (senv K s))))
          end)
      end
  end.

(** /repo/minitn/tensor.py:478-503 [unite_split] with the operation above, and
    /repo/minitn/heom/propagate2.py:155-156. *)
Definition unite_split_op (n : id) (i : nat) (op : option (list (list K) * list K)) (s : state) : run K unit :=
  match linkage_visitor fuel (sheap K s) n None true false with
  | Raise x => ([], Raise x)
  | Ok linkage_old =>
  match dindex (oacc (hget (sheap K s) n)) i with
  | Raise e => ([], Raise e)
  | Ok (e, j) =>
      let nz := onorm (hget (sheap K s) n) && onorm (hget (sheap K s) e) in
      let axes := map (fun k => i + k) (seq 0 (order (sheap K s) e - 1)) in
      match unite (sheap K s) n i None nz with
      | Raise x => ([], Raise x)
      | Ok (mid, h) =>
          andthen K unit (run_op op mid (with_heap K s h)) (fun s =>
          match split csvd2 (sheap K s) mid (AxList axes) (Some (j, i)) (Some e) (Some n) nz with
          | Raise x => ([], Raise x)
          | Ok (_, _, h) =>
              match linkage_visitor fuel h n None true false with
              | Raise x => ([], Raise x)
              | Ok linkage_new =>
                  if edges_eqb linkage_old linkage_new
                  then ([], Ok (remove_env [n; mid; e] (mkState K h e (senv K s))))
                  else ([], Raise AssertionError)
              end
          end)
      end
  end
  end.

(** /repo/minitn/heom/propagate2.py:146-157 [move]. *)
Definition move (n : id) (i : nat) (op : option (list (list K) * list K)) (unite_first : bool) (s : state) : run K unit :=
  match dindex (oacc (hget (sheap K s) n)) i with
  | Raise e => ([], Raise e)
  | Ok (e, _) =>
      andthen K unit ([Moved K unit s i], Ok (remove_env [n; e] s)) (fun s =>
      if unite_first then unite_split_op n i op s else split_unite_op n i op s)
  end.

(** The statements that [one_site_step] (166-188) and [two_site_step] (190-222) are made of,
    each on the current root. *)
Inductive command :=
| Form
| Prop_ (ys : list (list K)) (y : list K)
| Move (i : nat) (op : option (list (list K) * list K)) (unite_first : bool).
Definition do_command (c : command) (s : state) : run K unit :=
  match c with
  | Form => ([], form_env s)
  | Prop_ ys y => single_prop (sroot K s) ys y s
  | Move i op unite_first => move (sroot K s) i op unite_first s
  end.
Definition exec : list command -> state -> run K unit := foreach K unit do_command.
End Move.
End Ps.
