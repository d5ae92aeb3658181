(** The splitting steps together with the arrays they work on: [split_step] 654-676,
    [snd_order_step] 647-652, [unite_step] 678-710 and [r_split_step] 712-740 of
    /repo/minitn/algorithms/ml.py (the copies in /repo/minitn/heom/propagate.py:655-775 have the
    same text), and [one_site_step] 166-188, [snd_order_step] 159-164, [two_site_step] 190-222 and
    [propagator] 224-250 of /repo/minitn/heom/propagate2.py.

    Sweep_Model.v follows the root only; here every statement does what Cache_Model.v or
    Ps_Model.v says: environments, singular value decompositions and arrays included.  What
    [_form_env], [_split_prop] / [_single_prop] and [move] do is a parameter first, because the
    two classes have the same text for the steps; the two sets of parameters are given below.

    Simplifications.  Which calls of [diff] the solver makes, and what it returns, is arbitrary:
    a state carries the number of operations done so far, and the operation of number [k] gets
    the answers number [k].  So the answers may be different each time, also for the same array.
    The times of the propagations are recorded and not used otherwise. *)
From Coq Require Import String Ascii List Arith Bool ZArith.
From Verif Require Import Py Alg ListX NdArray_Model Contract_Model Net_Model Sweep_Model Cache_Model.
From Verif Require Ps_Model Propagate_Model.
Import ListNotations.
Local Open Scope nat_scope.
Local Open Scope list_scope.
Local Open Scope py_scope.

Section Step.
Variable K : StarRing.
Variable T : Type.
Variable opp : T -> T.
Variable half_of : T -> T.
Variable fuel : nat.
(** States with a heap and [self.root]; records of what is done. *)
Variables X L : Type.
Variable hp : X -> heap K.
Variable rt : X -> id.
(** [_form_env()]; [prop(t)] for the time given; [move(t, i, op, unite_first)], the operation
    being no operation or a propagation for the time given. *)
Variable form : X -> res X.
Variable prop : T -> id -> X -> list L * res X.
Variable mv : id -> nat -> option T -> bool -> X -> list L * res X.

(** Propagations and moves that ended; records; state at the end. *)
Definition srun : Type := list (event T) * (list L * res X).
Definition sok (x : X) : srun := ([], ([], Ok x)).
Definition sfail (e : exn) : srun := ([], ([], Raise e)).
Definition sthen (m : srun) (f : X -> srun) : srun :=
  match m with
  | (ev, (l, Ok x)) => let '(ev', (l', r)) := f x in (ev ++ ev', (l ++ l', r))
  | (ev, (l, Raise e)) => (ev, (l, Raise e))
  end.
Fixpoint sforeach {A} (f : A -> X -> srun) (l : list A) (x : X) : srun :=
  match l with
  | [] => sok x
  | a :: l => sthen (f a x) (sforeach f l)
  end.

Definition sprop (t : id) (tau : T) (x : X) : srun :=
  match prop tau t x with
  | (l, Ok x) => ([Node t tau], (l, Ok x))
  | (l, Raise e) => ([], (l, Raise e))
  end.
Definition smove (t : id) (i : nat) (op : option T) (unite_first : bool) (x : X) : srun :=
  match dindex (oacc (hget (hp x) t)) i with
  | Raise e => sfail e
  | Ok (e, j) =>
      match mv t i op unite_first x with
      | (l, Ok x) =>
          ([match op with
            | None => Shift (t, i, e, j)
            | Some tau => if unite_first then Pair (t, i, e, j) tau else Bond (t, i, e, j) tau
            end], (l, Ok x))
      | (l, Raise y) => ([], (l, Raise y))
      end
  end.

(** /repo/minitn/algorithms/ml.py:654-676 [split_step];
    /repo/minitn/heom/propagate2.py:166-188 [one_site_step]. *)
Definition one_site (tau : T) (backward : bool) (x : X) : srun :=
  match form x with
  | Raise e => sfail e
  | Ok x =>
  match decorated_visitor fuel (hp x) (rt x) (oaxis (hget (hp x) (rt x))) false with
  | Raise e => sfail e
  | Ok linkages =>
      if backward then
        sthen (sprop (rt x) tau x)
          (sforeach (fun q x =>
             let '(rev, (t1, _, t2, j)) := q in
             if rev : bool then sthen (smove t2 j (Some (opp tau)) false x) (sprop t1 tau)
             else smove t2 j None false x) (rev linkages))
      else
        sthen
          (sforeach (fun q x =>
             let '(rev, (t1, i, _, _)) := q in
             if rev : bool then sthen (sprop t1 tau x) (smove t1 i (Some (opp tau)) false)
             else smove t1 i None false x) linkages x)
          (fun x => sprop (rt x) tau x)
  end
  end.

(** /repo/minitn/algorithms/ml.py:647-652, /repo/minitn/heom/propagate2.py:159-164
    [snd_order_step]. *)
Definition second_order (step : T -> bool -> X -> srun) (tau : T) (x : X) : srun :=
  sthen (step (half_of tau) false x) (step (half_of tau) true).

(** /repo/minitn/algorithms/ml.py:684-708, /repo/minitn/heom/propagate2.py:197-220: one pass of
    the loops of the two-site step, with the counters of Sweep_Model.v. *)
Definition crun : Type := list (event T) * (list L * res (counters * X)).
Definition cthen (m : crun) (f : counters * X -> crun) : crun :=
  match m with
  | (ev, (l, Ok x)) => let '(ev', (l', r)) := f x in (ev ++ ev', (l ++ l', r))
  | (ev, (l, Raise e)) => (ev, (l, Raise e))
  end.
Definition clift (c : counters) (m : srun) : crun :=
  match m with (ev, (l, Ok x)) => (ev, (l, Ok (c, x))) | (ev, (l, Raise e)) => (ev, (l, Raise e)) end.
Fixpoint cforeach {A} (f : A -> counters * X -> crun) (l : list A) (x : counters * X) : crun :=
  match l with
  | [] => ([], ([], Ok x))
  | a :: l => cthen (f a x) (cforeach f l)
  end.
Definition two_forward (tau : T) (origin : id) (q : bool * edge) (cx : counters * X) : crun :=
  let '(rev, (t1, i, t2, _)) := q in
  let '(c, x) := cx in
  if rev then
    cthen (clift c (smove t1 i (Some tau) true x)) (fun cx =>
      let '(c, x) := cx in
      let c := decrement c t2 in
      if negb (t2 =? origin) || (0 <? c t2)%Z then clift c (sprop t2 (opp tau) x)
      else clift c (sok x))
  else if (0 <? c t2)%Z then clift c (smove t1 i None false x) else clift c (sok x).
Definition two_backward (tau : T) (origin : id) (n_origin : Z) (q : bool * edge) (cx : counters * X) : crun :=
  let '(rev, (t2, _, t1, i)) := q in
  let '(c, x) := cx in
  if rev then
    cthen
      (if negb (t2 =? origin) || negb (c t2 =? n_origin)%Z
       then clift (decrement c t2) (sprop t2 (opp tau) x) else clift c (sok x))
      (fun cx => let '(c, x) := cx in clift c (smove t1 i (Some tau) true x))
  else if (0 <? c t2)%Z then clift c (smove t1 i None false x) else clift c (sok x).

(** /repo/minitn/algorithms/ml.py:678-710 [unite_step], with [__debug__] true;
    /repo/minitn/heom/propagate2.py:190-222 [two_site_step]. *)
Definition two_site (tau : T) (backward : bool) (x : X) : srun :=
  match form x with
  | Raise e => sfail e
  | Ok x =>
  let h := hp x in
  let origin := rt x in
  match decorated_visitor fuel h origin (oaxis (hget h origin)) false,
        visitor fuel h origin (oaxis (hget h origin)) false with
  | Ok linkages, Ok ts =>
      let counter := count_children h ts in
      let '(ev, (l, r)) :=
        if backward then cforeach (two_backward tau origin (counter origin)) (rev linkages) (counter, x)
        else cforeach (two_forward tau origin) linkages (counter, x) in
      (ev, (l, match r with
               | Raise e => Raise e
               | Ok (c, x) => if forallb (fun t => (c t =? 0)%Z) ts then Ok x else Raise AssertionError
               end))
  | Raise e, _ | _, Raise e => sfail e
  end
  end.

(** /repo/minitn/algorithms/ml.py:721-732 [branch_prop] with [r_split_step] as [rec], and
    712-740 [r_split_step]. *)
Definition sbranch (rec : T -> id -> option nat -> X -> srun) (r : id) (axis : option nat) (tau : T)
  (backward : bool) (x : X) : srun :=
  let op1 := if backward then Some (opp tau) else None in
  let op2 := if backward then None else Some (opp tau) in
  sforeach (fun q x =>
    let '(i, t, j) := q in
    sthen (smove r i op1 false x) (fun x =>
    sthen (rec tau t (Some j) x) (smove t j op2 false))) (children (hp x) r axis false) x.
Fixpoint recursive (snd_order : bool) (n : nat) (tau : T) (root : id) (axis : option nat) (x : X) : srun :=
  match n with
  | 0 => sfail RecursionError
  | S n =>
      let rec := recursive snd_order n in
      if snd_order then
        sthen (sbranch rec root axis (half_of tau) false x) (fun x =>
        sthen (sprop root tau x) (fun x =>
        sbranch rec root axis (half_of tau) true x))
      else
        sthen (sbranch rec root axis tau false x) (sprop root tau)
  end.
Definition recursive_step (snd_order : bool) (tau : T) (x : X) : srun :=
  match form x with
  | Raise e => sfail e
  | Ok x => recursive snd_order fuel tau (rt x) None x
  end.
End Step.
Arguments sok {T X L} _. Arguments sfail {T X L} _. Arguments sthen {T X L} _ _. Arguments sforeach {T X L A} _ _ _.
Arguments sprop {T X L} _ _ _ _. Arguments smove {K T X L} _ _ _ _ _ _ _. Arguments one_site {K T} _ _ {X L} _ _ _ _ _ _ _ _.
Arguments second_order {T} _ {X L} _ _ _. Arguments two_site {K T} _ _ {X L} _ _ _ _ _ _ _ _.
Arguments cthen {T X L} _ _. Arguments clift {T X L} _ _. Arguments cforeach {T X L A} _ _ _.
Arguments two_forward {K T} _ {X L} _ _ _ _ _ _ _. Arguments two_backward {K T} _ {X L} _ _ _ _ _ _ _ _.
Arguments sbranch {K T} _ {X L} _ _ _ _ _ _ _ _. Arguments recursive {K T} _ _ {X L} _ _ _ _ _ _ _ _ _.
Arguments recursive_step {K T} _ _ _ {X L} _ _ _ _ _ _ _ _.

(** The state of Cache_Model.v with the number of operations done. *)
Definition counted (K : StarRing) : Type := state K * nat.
Definition count {K : StarRing} {L} (k : nat) (m : list L * res (state K)) : list L * res (counted K) :=
  (fst m, match snd m with Ok s => Ok (s, k) | Raise e => Raise e end).
Definition cheap {K : StarRing} (x : counted K) : heap K := sheap K (fst x).
Definition croot {K : StarRing} (x : counted K) : id := sroot K (fst x).

(** ** /repo/minitn/algorithms/ml.py *)
Section Ml.
Variable K : StarRing.
Variable D : Type.
Variable sys : system K D.
Variable fuel : nat.
Variables csvd1 csvd2 : arr K -> res (arr K * arr K * arr K).
(** The calls made by the solver during operation [k], and [self.time] when it starts. *)
Variable calls : nat -> list (call K D).
Variable clock : nat -> D.
(** [cache] of the operation that is passed to [move]: [True] in [split_step] and [unite_step]
    (656-657, 680-681), the default [False] in [r_split_step] (719, 722); the tensors themselves
    are propagated with [True] (656, 680, 735, 739). *)
Variable bond_cache : bool.
Definition ml_form (x : counted K) : res (counted K) :=
  match form_env K D sys fuel false (clock (snd x)) (fst x) with Ok s => Ok (s, S (snd x)) | Raise e => Raise e end.
Definition ml_prop {T} (tau : T) (t : id) (x : counted K) : list (record K D) * res (counted K) :=
  count (S (snd x)) (Cache_Model.split_prop K D sys fuel t true (calls (snd x)) (fst x)).
Definition ml_move {T} (t : id) (i : nat) (op : option T) (unite_first : bool) (x : counted K) : list (record K D) * res (counted K) :=
  count (S (snd x)) (Cache_Model.move K D sys fuel csvd1 csvd2 t i
    (option_map (fun _ => (bond_cache, calls (snd x))) op) unite_first (fst x)).
End Ml.

(** ** /repo/minitn/heom/propagate2.py *)
Section Ps.
Variable K : StarRing.
Variable hl : list (list (id * arr K)).
Variable fuel : nat.
Variables csvd1 csvd2 : arr K -> res (arr K * arr K * arr K).
(** The vectors for which [diff] is called during operation [k], and the vector at the end. *)
Variable answers : nat -> list (list K) * list K.
Definition ps_form (x : counted K) : res (counted K) :=
  match Ps_Model.form_env K hl fuel (fst x) with Ok s => Ok (s, S (snd x)) | Raise e => Raise e end.
Definition ps_prop {T} (tau : T) (t : id) (x : counted K) : list (record K unit) * res (counted K) :=
  count (S (snd x)) (Ps_Model.single_prop K hl fuel t (fst (answers (snd x))) (snd (answers (snd x))) (fst x)).
Definition ps_move {T} (t : id) (i : nat) (op : option T) (unite_first : bool) (x : counted K) : list (record K unit) * res (counted K) :=
  count (S (snd x)) (Ps_Model.move K hl fuel csvd1 csvd2 t i (option_map (fun _ => answers (snd x)) op) unite_first (fst x)).

(** /repo/minitn/heom/propagate2.py:233-241: which step, and whether it is wrapped in
    [snd_order_step]; [true] for two sites. *)
Definition ps_choose (ps_method : string) (snd_order : bool) : res (bool * bool) :=
  if Propagate_Model.starts ps_method "U"%char then Ok (true, snd_order)
  else if Propagate_Model.starts ps_method "S"%char then Ok (false, snd_order)
  else Raise ValueError.

(** [self.time] is not read by anything that is modelled. *)
Variable Q : StarRing.
Variable half : Q.
Notation srun := (srun Q (counted K) (record K unit)).
Definition ps_step (c : bool * bool) (tau : Q) : counted K -> srun :=
  let one := one_site ropp fuel cheap croot ps_form ps_prop ps_move in
  let two := two_site ropp fuel cheap croot ps_form ps_prop ps_move in
  let step := if fst c then two else one in
  if snd c then second_order (fun x => (half * x)%S) step tau else step tau false.

(** /repo/minitn/heom/propagate2.py:242-250 after [n] steps, when [next] is called [calls] times;
    each pair is given with the state at the time of the [yield], and with the propagations and
    moves since the pair before. *)
Fixpoint ps_loop (steps : option nat) (dt first : Q) (c : bool * bool) (root : id) (calls n : nat) (ev : list (event Q)) (x : counted K)
  : list (Q * id * counted K * list (event Q)) * (list (record K unit) * Propagate_Model.status) :=
  match calls with
  | 0 => ([], ([], Propagate_Model.Suspended))
  | S calls =>
      if match steps with None => false | Some m => m <=? n end then ([], ([], Propagate_Model.Stopped)) else
      let time := (first + Propagate_Model.of_nat Q n * dt)%S in
      match calls with
      | 0 => ([(time, root, x, ev)], ([], Propagate_Model.Suspended))
      | S _ =>
          match ps_step c dt x with
          | (ev', (l, Ok x')) =>
              let '(ys, (l', r)) := ps_loop steps dt first c root calls (S n) ev' x' in ((time, root, x, ev) :: ys, (l ++ l', r))
          | (ev', (l, Raise e)) => ([(time, root, x, ev)], (l, Propagate_Model.Failed e))
          end
      end
  end.
(** /repo/minitn/heom/propagate2.py:224-250 [propagator]. *)
Definition ps_propagator (calls : nat) (steps : option nat) (dt first : Q) (ps_method : string) (snd_order : bool) (x : counted K)
  : list (Q * id * counted K * list (event Q)) * (list (record K unit) * Propagate_Model.status) :=
  match calls with
  | 0 => ([], ([], Propagate_Model.Suspended))
  | S _ =>
      match ps_choose ps_method snd_order with
      | Raise e => ([], ([], Propagate_Model.Failed e))
      | Ok c => ps_loop steps dt first c (croot x) calls 0 [] x
      end
  end.
End Ps.
