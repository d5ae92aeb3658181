(** The eigenvalue solver [DavidsonAlgorithm] of /repo/minitn/lib/numerical.py.

    Simplifications.  Scalars are those of an exact ring; every vector has the length [N].  The
    library calls [orth], [eigh] and [norm], the operator and the preconditioners are functions
    given from outside.  Comparisons of a norm with a threshold are boolean functions of the
    vector.  Logging is left out.  The matrix [_submatrix] is a function of two indices; writing
    outside its size raises.  The lists of ritz vectors are the coefficient rows kept by the two
    closures, which read the search space when called. *)
From Coq Require Import List Arith Bool.
From Verif Require Import Py Alg.
Import ListNotations.
Local Open Scope nat_scope.
Local Open Scope py_scope.

Section Davidson.
Context {K : StarRing}.
Variable N : nat.
Notation vec := (list K).
(** Vector arithmetic of numpy *)
Definition vbuild (f : nat -> K) : vec := map f (seq 0 N).
Definition vzero : vec := vbuild (fun _ => r0).
Definition vadd (u v : vec) : vec := vbuild (fun i => radd (nth i u r0) (nth i v r0)).
Definition vscale (c : K) (u : vec) : vec := vbuild (fun i => rmul c (nth i u r0)).
Definition vsub (u v : vec) : vec := vbuild (fun i => rsub (nth i u r0) (nth i v r0)).
(** [np.dot(np.conj(u), v)] *)
Definition dotc (u v : vec) : K := sumn N (fun i => rmul (rconj (nth i u r0)) (nth i v r0)).

(** What is given from outside: the operator, [scipy.linalg.orth] on a list of vectors, [eigh]
    of the leading block of a given size with the lowest so many eigenpairs (eigenvalues and
    rows of coefficients), the number [1 / norm(v)], the test [norm(v) > 1e-7] of line 269, the
    test [norm(v) ** 2 > lin_dep_lim] of lines 341 and 351, the test of lines 243-246, the
    conversion of a number stored in a real array, and the standard preconditioner of lines
    356-376. *)
Record library := mkLib {
  matvec : vec -> vec;
  orth : list vec -> list vec;
  eigh : nat -> (nat -> nat -> K) -> nat -> list K * list (list K);
  inv_norm : vec -> K;
  gs_big : vec -> bool;
  lin_big : vec -> bool;
  conv_at : vec -> K -> K -> bool;
  cast : K -> K;
  precond_std : vec -> K -> vec -> vec }.
Variable L : library.
Variables max_cycle max_space_cls n_vals : nat.

(** lines 167-189 [__init__]; [s_log] records the search spaces and matrices given to [eigh] *)
Record state := mkSt {
  s_trial : list vec; s_search : list vec; s_col : list vec; s_sub : nat -> nat -> K;
  s_last : option (list K); s_ritz : option (list K); s_rvecs : option (list (list K));
  s_res : list vec; s_conv : list bool; s_pre : option (vec -> K -> vec -> vec);
  s_log : list (list vec * (nat -> nat -> K)) }.
Definition size : nat := max_space_cls + 3 * n_vals.
Definition init (init_vecs : list vec) (pre : option (vec -> K -> vec -> vec)) (log : list (list vec * (nat -> nat -> K))) : state :=
  mkSt init_vecs [] [] (fun _ _ => r0) None None None [] [] pre log.

(** lines 292-294 [_trans_vec], 302-307 *)
Definition trans_vec (row : list K) (basis : list vec) : vec :=
  fold_left (fun acc p => vadd acc (vscale (fst p) (snd p))) (combine row basis) vzero.
Definition ritz_vecs (st : state) (basis : list vec) : res (list vec) :=
  match s_rvecs st with None => Raise TypeError | Some rows => Ok (map (fun r => trans_vec r basis) rows) end.
(** lines 191-201 [_restart]: the vectors are read before the search space is emptied *)
Definition restart (st : state) : res state :=
  let! vs := ritz_vecs st (s_search st) in
  let st' := init vs None (s_log st) in
  Ok (mkSt (s_trial st') (s_search st') (s_col st') (s_sub st') (s_last st') (s_ritz st) (s_rvecs st') (s_res st') (s_conv st') (s_pre st') (s_log st')).

(** lines 258-272 [_orthonormalize] *)
Fixpoint gs_loop (vecs : list vec) (trial : list vec) : list vec :=
  match trial with
  | [] => vecs
  | v :: trial =>
      let v := fold_left (fun v w => vsub v (vscale (dotc w v) w)) vecs v in
      gs_loop (if gs_big L v then vecs ++ [vscale (inv_norm L v) v] else vecs) trial
  end.
Definition set_trial (t : list vec) (st : state) : state :=
  mkSt t (s_search st) (s_col st) (s_sub st) (s_last st) (s_ritz st) (s_rvecs st) (s_res st) (s_conv st) (s_pre st) (s_log st).
Definition orthonormalize (use_svd : bool) (st : state) : state :=
  match s_trial st with
  | [] => st
  | t => if use_svd then set_trial (orth L t) st else set_trial (gs_loop [] t) st
  end.

(** lines 274-289 [_extend_space] *)
Definition store (i j : nat) (x : K) (s : nat -> nat -> K) : res (nat -> nat -> K) :=
  if (i <? size) && (j <? size) then Ok (fun a b => if (a =? i) && (b =? j) then cast L x else s a b) else Raise IndexError.
Fixpoint for_each {A St} (f : A -> St -> res St) (l : list A) (s : St) : res St :=
  match l with [] => Ok s | x :: l => let! s := f x s in for_each f l s end.
Definition store_pair (v av : list vec) (i j : nat) (s : nat -> nat -> K) : res (nat -> nat -> K) :=
  let! s := store i j (dotc (nth i v []) (nth j av [])) s in
  store j i (rconj (s i j)) s.
Definition fill (v av : list vec) (head tail : nat) (s : nat -> nat -> K) : res (nat -> nat -> K) :=
  let! s := for_each (fun i => for_each (fun j => store_pair v av i j) (seq head (tail - head))) (seq 0 head) s in
  for_each (fun i s =>
    let! s := for_each (fun j => store_pair v av i j) (seq head (i - head)) s in
    store i i (dotc (nth i v []) (nth i av [])) s) (seq head (tail - head)) s.
Definition extend_space (st : state) : res state :=
  let head := length (s_search st) in
  let v := s_search st ++ s_trial st in
  let av := s_col st ++ map (matvec L) (s_trial st) in
  let! s := fill v av head (length v) (s_sub st) in
  Ok (mkSt (s_trial st) v av s (s_last st) (s_ritz st) (s_rvecs st) (s_res st) (s_conv st) (s_pre st) (s_log st)).

(** lines 291-308 [_calc_ritz_pairs]; [eigh] refuses an empty range of eigenvalues *)
Definition calc_ritz_pairs (st : state) : res state :=
  let n_space := length (s_search st) in
  let n_state := Nat.min n_space n_vals in
  if n_state =? 0 then Raise ValueError else
  let '(vals, rows) := eigh L n_space (s_sub st) n_state in
  Ok (mkSt (s_trial st) (s_search st) (s_col st) (s_sub st) (s_last st) (Some vals) (Some rows) (s_res st) (s_conv st) (s_pre st)
        (s_log st ++ [(s_search st, s_sub st)])).

(** lines 310-321 [_calc_residual_norms] *)
Definition ritz_of (st : state) : res (list K) := match s_ritz st with None => Raise TypeError | Some l => Ok l end.
Definition calc_residuals (st : state) : res state :=
  let! vals := ritz_of st in
  let! us := ritz_vecs st (s_search st) in
  let! aus := ritz_vecs st (s_col st) in
  let rs := map (fun p => vsub (snd p) (vscale (fst (fst p)) (snd (fst p)))) (combine (combine vals us) aus) in
  Ok (mkSt (s_trial st) (s_search st) (s_col st) (s_sub st) (s_last st) (s_ritz st) (s_rvecs st) rs (s_conv st) (s_pre st) (s_log st)).

(** lines 233-256 [_is_converged] *)
Definition set_conv (c : list bool) (st : state) : state :=
  mkSt (s_trial st) (s_search st) (s_col st) (s_sub st) (s_last st) (s_ritz st) (s_rvecs st) (s_res st) c (s_pre st) (s_log st).
Definition is_converged (st : state) : res (state * bool) :=
  let! vals := ritz_of st in
  match s_last st with
  | Some last =>
      if negb (length last =? length vals) then Ok (set_conv (repeat false (length vals)) st, false)
      else
        let c := map (fun p => conv_at L (fst p) (fst (snd p)) (snd (snd p))) (combine (s_res st) (combine last vals)) in
        Ok (set_conv c st, forallb (fun b => b) c)
  | None => Ok (set_conv (repeat false (length vals)) st, false)
  end.

(** lines 323-354 [_calc_trial_vecs] *)
Definition project_out (search : list vec) (v : vec) : vec :=
  fold_left (fun v base => vsub v (vscale (dotc base v) base)) search v.
Definition trial_of (pre : vec -> K -> vec -> vec) (search : list vec) (ritz0 : K) (p : vec * (vec * bool)) : list vec :=
  let '(residual, (u, conv)) := p in
  if lin_big L residual && negb conv then
    let v := pre residual ritz0 u in
    let v := vscale (inv_norm L v) v in
    let v := project_out search v in
    if lin_big L v then [vscale (inv_norm L v) v] else []
  else [].
Definition calc_trial_vecs (st : state) : res state :=
  let pre := match s_pre st with None => precond_std L | Some p => p end in
  let! vals := ritz_of st in
  let! us := ritz_vecs st (s_search st) in
  match vals with
  | [] => Raise IndexError
  | ritz0 :: _ =>
      let t := flat_map (trial_of pre (s_search st) ritz0) (combine (s_res st) (combine us (s_conv st))) in
      Ok (mkSt t (s_search st) (s_col st) (s_sub st) (s_last st) (s_ritz st) (s_rvecs st) (s_res st) (s_conv st) (Some pre) (s_log st))
  end.

(** lines 202-231 [kernel] *)
Fixpoint cycles (search_mode : bool) (n : nat) (st : state) : res state :=
  match n with
  | O => Ok st
  | S n =>
      let st := orthonormalize (negb search_mode) st in
      let! st := extend_space st in
      if search_mode && (n_vals <=? length (s_search st)) then Ok st else
      let! st := calc_ritz_pairs st in
      let! st := calc_residuals st in
      let! sb := is_converged st in
      let '(st, b) := sb in
      if b : bool then Ok st else
      let! vals := ritz_of st in
      let! st := (if size <? length vals + length (s_search st) then restart st else calc_trial_vecs st) in
      cycles search_mode n st
  end.
Definition kernel_eig (init_vecs : list vec) (pre : option (vec -> K -> vec -> vec)) : res (list K * list vec * state) :=
  let! st := cycles false max_cycle (init init_vecs pre []) in
  let! vs := ritz_vecs st (s_search st) in
  let! vals := ritz_of st in
  Ok (vals, vs, st).
Definition kernel_search (init_vecs : list vec) (pre : option (vec -> K -> vec -> vec)) : res (list vec * state) :=
  let! st := cycles true max_cycle (init init_vecs pre []) in Ok (s_search st, st).
End Davidson.
