(** The stored environments of /repo/minitn/algorithms/ml.py ([MultiLayer.env_])
    while a splitting step runs: [term_visitor] 280-323, [_single_eom] 347-376,
    [_form_env] 409-417, the inner functions of [_split_prop] 592-626,
    [remove_env] 628-634 and [move] 636-645.  The copies in
    /repo/minitn/heom/propagate.py have the same text.

    The state is the heap of Net_Model.v, [self.root] and the dictionary
    [self.env_], kept as a function from keys [(n, tensor, i)].

    Simplifications.  [self.time] is an argument of the functions that read it.
    Which calls of [diff], [reformer] and [updater] the ODE solver makes, and with
    which vectors, is arbitrary: a propagation is a list of such calls.  The
    vector given to [updater] stands for the one after [normalize], which divides
    the array of a root by its norm and keeps its shape.  The last two statements
    of [diff] before the array is put back ([init_energy], [coefficient]) depend on
    the sum over the terms and [y] alone; [diff] returns that sum.  Logging is left
    out.  An exception raised inside [diff] ends the run, although [log_inner_product]
    (542-556) swallows it; that the solver gives up early is covered, since the list of
    calls may end anywhere.  Lines 377-389 of [_single_eom] are for tensors that are not the root,
    which [_split_prop] refuses. *)
From Coq Require Import String List Arith Bool.
From Verif Require Import Py Alg ListX NdArray_Model Contract_Model Net_Model.
Import ListNotations.
Local Open Scope nat_scope.
Local Open Scope list_scope.
Local Open Scope py_scope.

Section Cache.
Variable K : StarRing.
Variable T : Type.
Implicit Types h : heap K.

(** [self.env_] *)
Definition envs := nat -> id -> nat -> option (option (arr K)).
Definition no_env : envs := fun _ _ _ => None.
Definition same_key (n : nat) (t : id) (i n' : nat) (t' : id) (i' : nat) : bool :=
  (n =? n') && (t =? t') && (i =? i').
Definition env_put (e : envs) n t i v : envs :=
  fun n' t' i' => if same_key n t i n' t' i' then Some v else e n' t' i'.
Definition env_del (e : envs) n t i : envs :=
  fun n' t' i' => if same_key n t i n' t' i' then None else e n' t' i'.

Record state := mkState { sheap : heap K; sroot : id; senv : envs }.
Definition with_heap (s : state) h : state := mkState h (sroot s) (senv s).
Definition with_env (s : state) e : state := mkState (sheap s) (sroot s) e.

(** [self.h_list] and [self.f_list]: terms are lists of leaves with matrices,
    in [f_list] with functions of the time. *)
Record system := mkSystem {
  h_list : list (list (id * arr K));
  f_list : option (list (list (id * (T -> arr K)))) }.

(** /repo/minitn/algorithms/ml.py:296-300 and 314-316. *)
Definition all_terms (sys : system) (time : T) : list (list (id * arr K)) :=
  h_list sys ++ match f_list sys with
                | None => []
                | Some f => map (map (fun p => (fst p, snd p time))) f
                end.

(** /repo/minitn/tensor.py:108-109 [Tensor.reset] and 864-865 [Leaf.reset]. *)
Definition reset_obj (o : obj K) : obj K := if oleaf o then put_arr None o else put_cache [] o.

(** /repo/minitn/algorithms/ml.py:308-313: reset of a tensor, then [load_cache]
    (/repo/minitn/tensor.py:111-113) for the linkages with an entry in [env_]. *)
Definition load (use_cache : bool) (e : envs) (n : nat) (o : obj K) : obj K :=
  put_cache (if use_cache
             then fold_left (fun c x => match e n (fst (snd x)) (snd (snd x)) with
                                        | Some v => dput c (fst x) v
                                        | None => c
                                        end) (oacc o) []
             else []) o.

(** /repo/minitn/algorithms/ml.py:314-320 *)
Fixpoint set_leaves h (term : list (id * arr K)) : res (heap K) :=
  match term with
  | [] => Ok h
  | (l, a) :: term => if oleaf (hget h l) then set_leaves (modify h l (put_arr (Some a))) term
                      else Raise RuntimeError
  end.

Section Run.
Variable sys : system.
Variable fuel : nat.

(** /repo/minitn/algorithms/ml.py:305-323 for the terms from number [n] on; [body]
    is the body of the [for] loop over the generator. *)
Fixpoint each_term {A} (use_cache : bool) (skip : nat) (body : nat -> A -> state -> res (A * state))
  (n : nat) (terms : list (list (id * arr K))) (acc : A) (s : state) : res (A * state) :=
  match terms with
  | [] => Ok (acc, s)
  | term :: terms =>
      if n <? skip then each_term use_cache skip body (S n) terms acc s else
      let! l := visitor fuel (sheap s) (sroot s) None false in
      let! h := set_leaves (set_all (load use_cache (senv s) n) (sheap s) l) term in
      let! r := body n acc (with_heap s h) in
      let '(acc, s) := r in
      each_term use_cache skip body (S n) terms acc
        (with_heap s (set_all reset_obj (sheap s) (map fst term)))
  end.

(** /repo/minitn/algorithms/ml.py:280-323 [term_visitor] with [op=None]. *)
Definition term_visitor {A} (use_cache only_td : bool) (time : T) (body : nat -> A -> state -> res (A * state))
  (acc : A) (s : state) : res (A * state) :=
  let! l := visitor fuel (sheap s) (sroot s) None true in
  each_term use_cache (if only_td then length (h_list sys) else 0) body 0 (all_terms sys time) acc
    (with_heap s (set_all reset_obj (sheap s) l)).

(** /repo/minitn/algorithms/ml.py:414-416 *)
Fixpoint fill (n : nat) (l : list (id * nat)) (s : state) : res state :=
  match l with
  | [] => Ok s
  | (t, i) :: l =>
      let! r := partial_env_proper fuel false (sheap s) t i in
      let '(v, h) := r in
      fill n l (mkState h (sroot s) (env_put (senv s) n t i v))
  end.

(** /repo/minitn/algorithms/ml.py:409-417 [_form_env] *)
Definition form_env (update : bool) (time : T) (s : state) : res state :=
  let! r := term_visitor false update time
    (fun n _ s =>
       let! l := visitor fuel (sheap s) (sroot s) None false in
       let! s := fill n (flat_map (fun t => map (fun i => (t, i)) (seq 0 (order (sheap s) t))) l) s in
       Ok (tt, s)) tt (with_env s no_env) in
  Ok (snd r).

(** /repo/minitn/algorithms/ml.py:370-376 *)
Fixpoint apply_envs (n : nat) (t : id) (cache : bool) (l : list nat) (tmp : arr K) (s : state)
  : res (arr K * state) :=
  match l with
  | [] => Ok (tmp, s)
  | i :: l =>
      let! r := match senv s n t i with
                | Some v => Ok (v, s)
                | None =>
                    let! r := partial_env_proper fuel false (sheap s) t i in
                    let '(v, h) := r in
                    Ok (v, mkState h (sroot s) (if cache then env_put (senv s) n t i v else senv s))
                end in
      let '(v, s) := r in
      let! tmp := pp_all tmp [(i, v)] in
      apply_envs n t cache l tmp s
  end.

(** /repo/minitn/algorithms/ml.py:347-376 [_single_eom] of the root. *)
Definition single_eom (t : id) (n : nat) (cache : bool) (s : state) : res (arr K * state) :=
  match oarr (hget (sheap s) t) with
  | None => Raise TypeError
  | Some a => apply_envs n t cache (seq 0 (order (sheap s) t)) a s
  end.

(** [ans += x] for vectors. *)
Definition vec_add (x y : list K) : res (list K) :=
  if length x =? length y then Ok (map (fun p => (fst p + snd p)%S) (combine x y)) else Raise ValueError.

(** /repo/minitn/algorithms/ml.py:594-608 [diff]. *)
Definition diff (t : id) (cache : bool) (time : T) (y : list K) (s : state) : res (list K * state) :=
  match oarr (hget (sheap s) t) with
  | None => Raise AttributeError
  | Some origin =>
      let! a := reshape (mkArr [length y] y) (shape origin) in
      let! r := term_visitor true false time
        (fun n ans s =>
           let! r := single_eom t n cache s in
           let '(x, s) := r in
           let! ans := vec_add ans (data x) in
           Ok (ans, s))
        (repeat r0 (length y)) (with_heap s (modify (sheap s) t (put_arr (Some a)))) in
      let '(ans, s) := r in
      Ok (ans, with_heap s (modify (sheap s) t (put_arr (Some origin))))
  end.

(** /repo/minitn/algorithms/ml.py:614-616 [updater], for the vector after
    [normalize]. *)
Definition update (t : id) (y : list K) (s : state) : res state :=
  match oarr (hget (sheap s) t) with
  | None => Raise AttributeError
  | Some origin =>
      let! a := reshape (mkArr [length y] y) (shape origin) in
      Ok (with_heap s (modify (sheap s) t (put_arr (Some a))))
  end.

(** What is recorded: each call of [diff] with the state it starts from, and each
    move of the root along an axis; kept when an exception is raised. *)
Inductive record :=
| Called (s : state) (cache : bool) (time : T) (y : list K)
| Moved (s : state) (i : nat).
Definition run : Type := list record * res state.
Definition andthen (m : run) (f : state -> run) : run :=
  match m with
  | (l, Ok s) => let '(l', r) := f s in (l ++ l', r)
  | (l, Raise e) => (l, Raise e)
  end.
Fixpoint foreach {A} (f : A -> state -> run) (l : list A) (s : state) : run :=
  match l with
  | [] => ([], Ok s)
  | x :: l => andthen (f x s) (foreach f l)
  end.

(** Calls made by the solver while a tensor is propagated. *)
Inductive call :=
| Diff (time : T) (y : list K)
| Update (y : list K)
| Reform (time : T).
Definition do_call (t : id) (cache : bool) (c : call) (s : state) : run :=
  match c with
  | Diff time y => ([Called s cache time y], let! r := diff t cache time y s in Ok (snd r))
  | Update y => ([], update t y s)
  | Reform time => ([], form_env true time s)
  end.

(** /repo/minitn/algorithms/ml.py:592-626 [_split_prop] *)
Definition split_prop (t : id) (cache : bool) (calls : list call) (s : state) : run :=
  if negb (is_none (oaxis (hget (sheap s) t))) then ([], Raise RuntimeError) else
  foreach (do_call t cache) calls (mkState (sheap s) t (senv s)).

(** /repo/minitn/algorithms/ml.py:628-634 [remove_env]; [linkages] are the current
    ones and only the numbers of [h_list] are gone through. *)
Definition remove_env (ts : list id) (s : state) : state :=
  with_env s
    (fold_left (fun e n => fold_left (fun e t => fold_left (fun e x => env_del e n t (fst (fst x)))
                                                           (linkages (sheap s) t) e) ts e)
               (seq 0 (length (h_list sys))) (senv s)).

Section Move.
(** [compressed_svd] as called by [split_unite] (no rank, no bound) and by
    [unite_split] ([svd_rank], [svd_err]). *)
Variables csvd1 csvd2 : arr K -> res (arr K * arr K * arr K).

(** [op(mid)]: no operation, or a [_split_prop] of the inserted tensor. *)
Definition run_op (op : option (bool * list call)) (mid : id) (s : state) : run :=
  match op with
  | None => ([], Ok s)
  | Some (cache, calls) => split_prop mid cache calls s
  end.

(** /repo/minitn/tensor.py:457-476 [split_unite] with the operation above. *)
Definition split_unite_op (n : id) (i : nat) (op : option (bool * list call)) (s : state) : run :=
  match dindex (oacc (hget (sheap s) n)) i with
  | Raise e => ([], Raise e)
  | Ok (e, j) =>
      let nz := onorm (hget (sheap s) n) && onorm (hget (sheap s) e) in
      match split csvd1 (sheap s) n (AxInt i) None None (Some n) nz with
      | Raise x => ([], Raise x)
      | Ok (mid, _, h) =>
          andthen (run_op op mid (with_heap s h)) (fun s =>
          match unite (sheap s) e j (Some e) nz with
          | Raise x => ([], Raise x)
          | Ok (_, h) => ([], Ok (remove_env [n; mid; e] (mkState h e (senv s))))
          end)
      end
  end.

(** /repo/minitn/tensor.py:478-503 [unite_split] with the operation above. *)
Definition unite_split_op (n : id) (i : nat) (op : option (bool * list call)) (s : state) : run :=
  match linkage_visitor fuel (sheap s) n None true false with
  | Raise x => ([], Raise x)
  | Ok linkage_old =>
  match dindex (oacc (hget (sheap s) n)) i with
  | Raise e => ([], Raise e)
  | Ok (e, j) =>
      let nz := onorm (hget (sheap s) n) && onorm (hget (sheap s) e) in
      let axes := map (fun k => i + k) (seq 0 (order (sheap s) e - 1)) in
      match unite (sheap s) n i None nz with
      | Raise x => ([], Raise x)
      | Ok (mid, h) =>
          andthen (run_op op mid (with_heap s h)) (fun s =>
          match split csvd2 (sheap s) mid (AxList axes) (Some (j, i)) (Some e) (Some n) nz with
          | Raise x => ([], Raise x)
          | Ok (_, _, h) =>
              match linkage_visitor fuel h n None true false with
              | Raise x => ([], Raise x)
              | Ok linkage_new =>
                  if edges_eqb linkage_old linkage_new
                  then ([], Ok (remove_env [n; mid; e] (mkState h e (senv s))))
                  else ([], Raise AssertionError)
              end
          end)
      end
  end
  end.

(** /repo/minitn/algorithms/ml.py:636-645 [move]; the last two statements are those
    that set the root and remove entries in the two definitions above. *)
Definition move (n : id) (i : nat) (op : option (bool * list call)) (unite_first : bool) (s : state) : run :=
  match dindex (oacc (hget (sheap s) n)) i with
  | Raise e => ([], Raise e)
  | Ok (e, _) =>
      andthen ([Moved s i], Ok (remove_env [n; e] s)) (fun s =>
      if unite_first then unite_split_op n i op s else split_unite_op n i op s)
  end.

(** The statements that splitting steps are made of, each on the current root. *)
Inductive command :=
| Form (time : T)
| Prop_ (cache : bool) (calls : list call)
| Move (i : nat) (op : option (bool * list call)) (unite_first : bool).
Definition do_command (c : command) (s : state) : run :=
  match c with
  | Form time => ([], form_env false time s)
  | Prop_ cache calls => split_prop (sroot s) cache calls s
  | Move i op unite_first => move (sroot s) i op unite_first s
  end.
Definition exec : list command -> state -> run := foreach do_command.
End Move.
End Run.
End Cache.
