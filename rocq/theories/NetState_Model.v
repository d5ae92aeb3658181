(** Networks with separate arrays, /repo/minitn/structures/states.py.

    Simplifications.  The tensors of the template are not changed by these classes, so the heap
    is read only; a network is its root and its dictionary.  Arrays made by [np.reshape] share
    memory with the vector, which nothing here changes.  Fuel bounds the depth of recursion. *)
From Coq Require Import List Arith Bool.
From Verif Require Import Py Alg ListX NdArray_Model Net_Model.
Import ListNotations.
Local Open Scope nat_scope.
Local Open Scope list_scope.
Local Open Scope py_scope.

Section State.
Variable K : StarRing.
(** An entry of the dictionary: None, an array, or the array [np.array(None)] of one object *)
Inductive value := VNone | VArr (a : arr K) | VObj.
Record net := mkNet { n_root : id; n_wfn : list (id * value) }.
Variable fuel : nat.
Variable h : heap K.
(** lines 39-56 [__init__]; [wfn=None] is the empty dictionary *)
Definition network (template : id) (wfn : list (id * value)) : res net :=
  let! l := visitor fuel h template None true in
  match filter (fun t => is_none (oaxis (hget h t))) l with
  | [r] => Ok (mkNet r wfn)
  | _ => Raise NotImplementedError
  end.
(** lines 120-122 [vertices] *)
Definition vertices (N : net) : res (list id) := visitor fuel h (n_root N) (oaxis (hget h (n_root N))) true.
Definition mem (k : id) (l : list id) : bool := existsb (Nat.eqb k) l.
(** lines 57-65 [__getitem__] *)
Definition getitem (N : net) (key : id) : res value :=
  let! vs := vertices N in
  if mem key vs then match dget (n_wfn N) key with Some v => Ok v | None => Raise KeyError end else Raise KeyError.
(** lines 67-76 [__setitem__] *)
Definition setitem (N : net) (key : id) (v : value) : res net :=
  let! vs := vertices N in
  if mem key vs then
    match dget (n_wfn N) key with
    | None | Some VNone => Ok (mkNet (n_root N) (dput (n_wfn N) key v))
    | _ => Raise RuntimeError
    end
  else Raise KeyError.
(** lines 79-82 [as_template] *)
Definition as_template (N : net) : res net :=
  let! vs := vertices N in network (n_root N) (fold_left (fun d t => dput d t VNone) vs []).
(** lines 84-87 [copy] *)
Definition np_array (v : value) : value := match v with VNone => VObj | v => v end.
Definition copy (N : net) : res net := network (n_root N) (map (fun e => (fst e, np_array (snd e))) (n_wfn N)).
(** lines 89-103 [deepcopy]: [attributes] is a local name without a value *)
Definition deepcopy (N : net) : res net := Raise UnboundLocalError.
(** lines 134-144 [vectorize] *)
Fixpoint flat (N : net) (l : list id) : res (list (list K)) :=
  match l with
  | [] => Ok []
  | t :: l =>
      match dget (n_wfn N) t with
      | None => Raise KeyError
      | Some (VArr a) => let! vs := flat N l in Ok (data a :: vs)
      | Some _ => Raise TypeError (* an array of objects, outside this model *)
      end
  end.
Definition vectorize_net (N : net) : res (list K) :=
  let! vs := vertices N in
  let! l := flat N vs in
  match l with [] => Raise ValueError | _ => Ok (concat l) end.
(** lines 146-166 [tensorize]: [np.prod(None)] is None, [np.prod([])] the float 1.0 *)
Fixpoint fill (M : net) (l : list id) (vec : list K) (start : nat) : res net :=
  match l with
  | [] => Ok M
  | t :: l =>
      match oarr (hget h t) with
      | None => Raise TypeError
      | Some a =>
          match shape a with
          | [] => Raise TypeError
          | _ =>
            let stop := start + prod (shape a) in
            let sl := firstn (stop - start) (skipn start vec) in
            let! b := reshape (mkArr [length sl] sl) (shape a) in
            let! M := setitem M t (VArr b) in
            fill M l vec stop
          end
      end
  end.
Definition tensorize_net (N : net) (vec : list K) : res net :=
  let! M := as_template N in
  let! vs := vertices N in
  fill M vs vec 0.

(** ** lines 169-246 [Tree]; [pp] and [pt] are [Tensor.partial_product] and
    [Tensor.partial_trace], [operator] and [conj] the arguments *)
Section Env.
Variables (V : Type) (one : V).
Variable wfn : id -> res V.
Variable pp : V -> nat -> option V -> res V.
Variable pt : V -> nat -> V -> res V.
Variable operator : option (id -> res (option V)).
Variable conj : option (id -> res V).
Notation envs := (list (id * option nat * V)).
Definition key_eqb (x y : id * option nat) : bool := (fst x =? fst y) && opt_eqb (snd x) (snd y).
Definition eget (d : envs) (k : id * option nat) : option V := option_map snd (find (fun e => key_eqb (fst e) k) d).
(** [tensor[axis]]; no tensor has an axis None *)
Definition access (t : id) (axis : option nat) : res half :=
  match axis with None => Raise KeyError | Some i => dindex (oacc (hget h t)) i end.
Fixpoint kids_env (f : envs -> id -> nat -> res (option V * envs)) (d : envs) (l : list (nat * id * nat)) : res (list (nat * option V) * envs) :=
  match l with
  | [] => Ok ([], d)
  | (j, g, k) :: l => let! r := f d g k in let! rs := kids_env f (snd r) l in Ok ((j, fst r) :: fst rs, snd rs)
  end.
Fixpoint pps (temp : V) (l : list (nat * option V)) : res V :=
  match l with [] => Ok temp | (j, m) :: l => let! t := pp temp j m in pps t l end.
(** [_single_env]: the branch that computes returns nothing *)
Fixpoint single_env (n : nat) (d : envs) (t : id) (axis : option nat) : res (option V * envs) :=
  match n with
  | 0 => Raise RecursionError
  | S n =>
      match eget d (t, axis) with
      | Some v => Ok (Some v, d)
      | None =>
          let! c := access t axis in
          let! r := (if oleaf (hget h (fst c)) then
                       match operator with None => Ok (None, d) | Some op => let! v := op (fst c) in Ok (v, d) end
                     else
                       let! ce := kids_env (fun d g k => single_env n d g (Some k)) d (children h (fst c) (Some (snd c)) true) in
                       if is_none conj && opt_eqb axis (oaxis (hget h t)) && onorm (hget h t) && forallb (fun a => is_none (snd a)) (fst ce) then Ok (None, snd ce)
                       else
                         let! a := wfn (fst c) in
                         let! temp := pps a (fst ce) in
                         let! b := (match conj with None => wfn (fst c) | Some f => f (fst c) end) in
                         let! v := pt temp (snd c) b in Ok (Some v, snd ce)) in
          Ok (None, (t, axis, match fst r with Some v => v | None => one end) :: snd r)
      end
  end.
Definition leaves_net (N : net) : res (list id) := let! vs := vertices N in Ok (filter (fun t => oleaf (hget h t)) vs).
Definition subleaves (N : net) : res (list id) := let! ls := leaves_net N in mapM (fun t => let! c := access t (Some 0) in Ok (fst c)) ls.
Fixpoint env_loop (d : envs) (l : list (id * nat)) : res envs :=
  match l with [] => Ok d | (t, i) :: l => let! r := single_env fuel d t (Some i) in env_loop (snd r) l end.
Definition tree_partial_env (N : net) : res (list (id * option nat * option V) ) :=
  let! ts := subleaves N in
  let! d := env_loop [] (flat_map (fun t => map (fun i => (t, i)) (seq 0 (order h t))) ts) in
  let! r := single_env fuel d (n_root N) None in
  Ok ((n_root N, None, fst r) :: map (fun e => (fst e, Some (snd e))) (snd r)).
End Env.
End State.
Arguments VNone {K}. Arguments VArr {K}. Arguments VObj {K}.
Arguments mkNet {K}. Arguments n_root {K}. Arguments n_wfn {K}.
