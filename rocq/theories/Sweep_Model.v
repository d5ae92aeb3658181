(** Splitting sweeps of /repo/minitn/algorithms/ml.py:592-740 ([_split_prop],
    [move], [snd_order_step], [split_step], [unite_step], [r_split_step]); the
    copies in /repo/minitn/heom/propagate.py:603-775 have the same control flow.

    Arrays are not followed here.  A propagation or a move changes the arrays of
    the tensors it works on and the attributes [axis] and [MultiLayer.root]; only
    the latter decide what a sweep does next.  So the state is a heap whose links
    and axes are those of the network, and the current [self.root]; every
    propagation and every move is recorded in a list of events, which is kept when
    an exception is raised.  Environments ([_form_env], [remove_env]) are left to
    Cache_Model.v, arrays and links during a move to Net_Model.v.  The tensor that
    a move inserts for a while gets no number: a propagation of it is recorded as
    a propagation of the linkage or of the pair.

    Times are elements of any type with negation and halving. *)
From Coq Require Import List Arith Bool ZArith.
From Verif Require Import Py Alg ListX NdArray_Model Contract_Model Net_Model.
Import ListNotations.
Local Open Scope nat_scope.
Local Open Scope list_scope.
Local Open Scope py_scope.

Section Sweep.
Variable K : StarRing.
Variable T : Type.
Variable opp : T -> T.
Variable half_of : T -> T.

(** Propagation of a tensor, of the bond tensor on a linkage (inserted by
    [split_unite]), of the contraction of two neighbours (made by
    [unite_split]); move of the root along a linkage without propagation. *)
Inductive event :=
| Node (n : id) (tau : T)
| Bond (e : edge) (tau : T)
| Pair (e : edge) (tau : T)
| Shift (e : edge).

Definition state : Type := heap K * id.
Definition run : Type := list event * res state.
Definition ret (s : state) : run := ([], Ok s).
Definition fail (e : exn) : run := ([], Raise e).
Definition andthen (m : run) (f : state -> run) : run :=
  match m with
  | (l, Ok s) => let '(l', r) := f s in (l ++ l', r)
  | (l, Raise e) => (l, Raise e)
  end.
(** A [for] loop. *)
Fixpoint foreach {A} (f : A -> state -> run) (l : list A) (s : state) : run :=
  match l with
  | [] => ret s
  | x :: l => andthen (f x s) (foreach f l)
  end.

(** /repo/minitn/algorithms/ml.py:592-626 [_split_prop] on a tensor of the
    network: lines 616-619 are the test of [axis]. *)
Definition split_prop (n : id) (tau : T) (s : state) : run :=
  if is_none (oaxis (hget (fst s) n)) then ([Node n tau], Ok (fst s, n)) else fail RuntimeError.

(** /repo/minitn/algorithms/ml.py:636-645 [move], where [op] is [None] or the time
    of the [_split_prop] that is passed; the tests of [axis] are those of [split]
    (/repo/minitn/tensor.py:534-535) and [unite] (613-614), the axes those set at
    the end of [split] and [unite].  The two ends are not leaves in any call. *)
Definition move (t : id) (i : nat) (op : option T) (unite_first : bool) (s : state) : run :=
  let '(h, _) := s in
  match dindex (oacc (hget h t)) i with
  | Raise e => fail e
  | Ok (e, j) =>
      let after := (modify (modify h t (put_axis (Some i))) e (put_axis None), e) in
      if unite_first then
        if negb (is_none (oaxis (hget h t))) && negb (is_none (oaxis (hget h e))) then fail RuntimeError
        else ([match op with Some tau => Pair (t, i, e, j) tau | None => Shift (t, i, e, j) end], Ok after)
      else
        if negb (is_none (oaxis (hget h t))) then fail RuntimeError
        else ([match op with Some tau => Bond (t, i, e, j) tau | None => Shift (t, i, e, j) end], Ok after)
  end.

(** /repo/minitn/algorithms/ml.py:654-676 [split_step]. *)
Definition split_step (fuel : nat) (tau : T) (backward : bool) (s : state) : run :=
  let '(h, root) := s in
  match decorated_visitor fuel h root (oaxis (hget h root)) false with
  | Raise e => fail e
  | Ok linkages =>
      if backward then
        andthen (split_prop root tau s)
          (foreach (fun x s =>
             let '(rev, (t1, _, t2, j)) := x in
             if rev : bool then andthen (move t2 j (Some (opp tau)) false s) (split_prop t1 tau)
             else move t2 j None false s) (rev linkages))
      else
        andthen
          (foreach (fun x s =>
             let '(rev, (t1, i, _, _)) := x in
             if rev : bool then andthen (split_prop t1 tau s) (move t1 i (Some (opp tau)) false)
             else move t1 i None false s) linkages s)
          (fun s => split_prop (snd s) tau s)
  end.

(** /repo/minitn/algorithms/ml.py:647-652 [snd_order_step]. *)
Definition snd_order_step (step : T -> bool -> state -> run) (tau : T) (s : state) : run :=
  andthen (step (half_of tau) false s) (step (half_of tau) true).

(** /repo/minitn/algorithms/ml.py:686-688: [counter] as a function; -1 for a key
    that is missing (all the keys that are used are there). *)
Definition counters := id -> Z.
Definition count_children (h : heap K) (l : list id) : counters :=
  fun t => if memb t l then Z.of_nat (length (children h t (oaxis (hget h t)) false)) else (-1)%Z.
Definition decrement (c : counters) (n : id) : counters :=
  fun m => if m =? n then (c m - 1)%Z else c m.

(** One pass of the loop over linkages of /repo/minitn/algorithms/ml.py:689-708. *)
Definition run2 : Type := list event * res (counters * state).
Definition andthen2 (m : run2) (f : counters * state -> run2) : run2 :=
  match m with
  | (l, Ok s) => let '(l', r) := f s in (l ++ l', r)
  | (l, Raise e) => (l, Raise e)
  end.
Definition lift (c : counters) (m : run) : run2 :=
  match m with (l, Ok s) => (l, Ok (c, s)) | (l, Raise e) => (l, Raise e) end.
Fixpoint foreach2 {A} (f : A -> counters * state -> run2) (l : list A) (s : counters * state) : run2 :=
  match l with
  | [] => ([], Ok s)
  | x :: l => andthen2 (f x s) (foreach2 f l)
  end.

Definition unite_forward (tau : T) (origin : id) (x : bool * edge) (cs : counters * state) : run2 :=
  let '(rev, (t1, i, t2, _)) := x in
  let '(c, s) := cs in
  if rev then
    andthen2 (lift c (move t1 i (Some tau) true s)) (fun cs =>
      let '(c, s) := cs in
      let c := decrement c t2 in
      if negb (t2 =? origin) || (0 <? c t2)%Z then lift c (split_prop t2 (opp tau) s)
      else lift c (ret s))
  else if (0 <? c t2)%Z then lift c (move t1 i None false s) else lift c (ret s).

Definition unite_backward (tau : T) (origin : id) (n_origin : Z) (x : bool * edge) (cs : counters * state) : run2 :=
  let '(rev, (t2, _, t1, i)) := x in
  let '(c, s) := cs in
  if rev then
    andthen2
      (if negb (t2 =? origin) || negb (c t2 =? n_origin)%Z
       then lift (decrement c t2) (split_prop t2 (opp tau) s) else lift c (ret s))
      (fun cs => let '(c, s) := cs in lift c (move t1 i (Some tau) true s))
  else if (0 <? c t2)%Z then lift c (move t1 i None false s) else lift c (ret s).

(** /repo/minitn/algorithms/ml.py:678-710 [unite_step], with [__debug__] true. *)
Definition unite_step (fuel : nat) (tau : T) (backward : bool) (s : state) : run :=
  let '(h, origin) := s in
  match decorated_visitor fuel h origin (oaxis (hget h origin)) false,
        visitor fuel h origin (oaxis (hget h origin)) false with
  | Ok linkages, Ok ts =>
      let counter := count_children h ts in
      let '(l, r) :=
        if backward then foreach2 (unite_backward tau origin (counter origin)) (rev linkages) (counter, s)
        else foreach2 (unite_forward tau origin) linkages (counter, s) in
      (l, match r with
          | Raise e => Raise e
          | Ok (c, s) => if forallb (fun t => (c t =? 0)%Z) ts then Ok s else Raise AssertionError
          end)
  | Raise e, _ | _, Raise e => fail e
  end.

(** /repo/minitn/algorithms/ml.py:712-740 [r_split_step] below the test of
    [_root]: [root] and [axis] are [_root] and [_axis].  [branch] is [branch_prop]
    (with [r_split_step] as [rec]). *)
Definition branch (rec : T -> id -> option nat -> state -> run) (r : id) (axis : option nat) (tau : T)
  (backward : bool) (s : state) : run :=
  let '(h, _) := s in
  let op1 := if backward then Some (opp tau) else None in
  let op2 := if backward then None else Some (opp tau) in
  foreach (fun x s =>
    let '(i, t, j) := x in
    andthen (move r i op1 false s) (fun s =>
    andthen (rec tau t (Some j) s) (move t j op2 false))) (children h r axis false) s.

Fixpoint r_split (snd_order : bool) (fuel : nat) (tau : T) (root : id) (axis : option nat) (s : state) : run :=
  match fuel with
  | 0 => fail RecursionError
  | S fuel =>
      let rec := r_split snd_order fuel in
      if snd_order then
        andthen (branch rec root axis (half_of tau) false s) (fun s =>
        andthen (split_prop root tau s) (fun s =>
        branch rec root axis (half_of tau) true s))
      else
        andthen (branch rec root axis tau false s) (split_prop root tau)
  end.
Definition r_split_step (snd_order : bool) (fuel : nat) (tau : T) (s : state) : run :=
  r_split snd_order fuel tau (snd s) None s.

End Sweep.

Arguments Node {T} _ _. Arguments Bond {T} _ _. Arguments Pair {T} _ _. Arguments Shift {T} _.
Arguments ret {K T} _. Arguments fail {K T} _. Arguments andthen {K T} _ _. Arguments foreach {K T A} _ _ _.
Arguments split_prop {K T} _ _ _. Arguments move {K T} _ _ _ _ _. Arguments split_step {K T} _ _ _ _ _.
Arguments snd_order_step {K T} _ _ _ _. Arguments count_children {K} _ _ _.
Arguments andthen2 {K T} _ _. Arguments lift {K T} _ _. Arguments foreach2 {K T A} _ _ _.
Arguments unite_forward {K T} _ _ _ _ _. Arguments unite_backward {K T} _ _ _ _ _ _.
Arguments unite_step {K T} _ _ _ _ _. Arguments branch {K T} _ _ _ _ _ _ _.
Arguments r_split {K T} _ _ _ _ _ _ _ _. Arguments r_split_step {K T} _ _ _ _ _ _.
