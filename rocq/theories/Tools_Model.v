(** Helpers of /repo/minitn/lib/tools.py: graph visitor, Huffman tree, lazy
    attributes, unzip. *)
From Coq Require Import String List Arith Bool.
From Verif Require Import Py.
Import ListNotations.
Open Scope py_scope.
Open Scope list_scope.

(** * iter_visitor *)
Section Visitor.
Variable V : Type.
Variable mem : V -> list V -> bool.       (* [vertex in visited] *)

Inductive method := DFS | BFS | OtherMethod.

(** /repo/minitn/lib/tools.py:102-112.  [ext v visited] lists the elements of the
    set [r(v) - visited] in the order in which [stack.extend] iterates over it;
    Python leaves that order open, so it is a parameter.  The result lists the
    yielded vertices.  Running out of [fuel] stands for a loop that is still
    running. *)
Fixpoint visit_loop (ext : V -> list V -> list V) (m : method) (fuel : nat)
  (stack visited : list V) : res (list V) :=
  match fuel with
  | 0 => Raise RecursionError
  | S fuel =>
      match stack with
      | [] => Ok []
      | x :: xs =>
          let! vs := match m with
                     | DFS => Ok (last stack x, removelast stack)   (* stack.pop() *)
                     | BFS => Ok (x, xs)
                     | OtherMethod => Raise NotImplementedError
                     end in
          let '(vertex, stack) := vs in
          if mem vertex visited then visit_loop ext m fuel stack visited
          else
            let visited := vertex :: visited in
            let! rest := visit_loop ext m fuel (stack ++ ext vertex visited) visited in
            Ok (vertex :: rest)
      end
  end.

Definition iter_visitor ext m fuel start := visit_loop ext m fuel [start] [].
End Visitor.
Arguments visit_loop {V} _ _ _ _ _ _. Arguments iter_visitor {V} _ _ _ _ _.

(** * huffman_tree *)
Section Huffman.
Variable N : Type.                        (* names of tree nodes *)
Variable neqb : N -> N -> bool.           (* [==] on names *)
Variable P : Type.                        (* importances *)
Variable padd : P -> P -> P.
Variable p0 : P.                          (* the int 0 that [sum] starts from *)
Variable ple : P -> P -> bool.

(** [list.sort(key=key)]: stable sort on the second component. *)
Fixpoint sinsert (x : N * P) (l : list (N * P)) : list (N * P) :=
  match l with
  | [] => [x]
  | y :: l' => if ple (snd x) (snd y) then x :: l else y :: sinsert x l'
  end.
Fixpoint ssort (l : list (N * P)) : list (N * P) :=
  match l with [] => [] | x :: l => sinsert x (ssort l) end.

(** A dict as an association list; assignment overwrites. *)
Definition dict := list (N * list N).
Fixpoint dlookup (g : dict) (k : N) : option (list N) :=
  match g with
  | [] => None
  | (k', v) :: g => if neqb k k' then Some v else dlookup g k
  end.
Fixpoint dset (g : dict) (k : N) (v : list N) : dict :=
  match g with
  | [] => [(k, v)]
  | (k', v') :: g => if neqb k k' then (k', v) :: g else (k', v') :: dset g k v
  end.
Fixpoint ddel (g : dict) (k : N) : dict :=
  match g with
  | [] => []
  | (k', v') :: g => if neqb k k' then g else (k', v') :: ddel g k
  end.

(** /repo/minitn/lib/tools.py:139-152.  [obj_new i] is the result of the [i]-th
    call of [obj_new]; the bare [except] around the slices never triggers.
    Slices use a natural [n_branch].  Running out of fuel stands for a loop that
    is still running. *)
Fixpoint huffman_loop (obj_new : nat -> N) (n_branch : nat) (fuel : nat) (i : nat)
  (sequence : list (N * P)) (graph : dict) : res (dict * N) :=
  match fuel with
  | 0 => Raise RecursionError
  | S fuel =>
      match sequence with
      | [] => Raise IndexError                       (* sequence[0] *)
      | [(name, _)] => Ok (graph, name)
      | _ =>
          let sequence := ssort sequence in
          let branch := firstn n_branch sequence in
          let sequence := skipn n_branch sequence in
          let p := fold_left padd (map snd branch) p0 in
          let new := obj_new i in
          let graph := dset graph new (map fst branch) in
          huffman_loop obj_new n_branch fuel (S i) ((new, p) :: sequence) graph
      end
  end.

(** /repo/minitn/lib/tools.py:126-152 with [importances] given. *)
Definition huffman_tree (sources : list N) (importances : list P) (obj_new : nat -> N)
  (n_branch : nat) (fuel : nat) : res (dict * N) :=
  huffman_loop obj_new n_branch fuel 0 (combine sources importances) [].

(** /repo/minitn/models/spinboson.py:118-131 [SpinBosonModel._update]: [huffman_tree]
    is called without importances and without [n_branch], so both take their
    defaults; [obj_new] has a default argument and therefore returns the same
    name on each call.  A [KeyError] is swallowed, any other error propagates. *)
Fixpoint dupdate (g h : dict) : dict :=
  match h with [] => g | (k, v) :: h => dupdate (dset g k v) h end.

Definition sb_update (graph : dict) (leaves : list N) (root const : N) (p1 : P) (fuel : nat)
  : res dict :=
  let! st := huffman_tree leaves (map (fun _ => p1) leaves) (fun _ => const) 2 fuel in
  let '(subtree, r) := st in
  match dlookup subtree r with
  | None => Ok graph
  | Some v => Ok (dupdate graph (dset (ddel subtree r) root v))
  end.
End Huffman.
Arguments sinsert {N P} _ _ _. Arguments ssort {N P} _ _.
Arguments dlookup {N} _ _ _. Arguments dset {N} _ _ _ _. Arguments ddel {N} _ _ _.
Arguments dupdate {N} _ _ _.
Arguments huffman_loop {N} _ {P} _ _ _ _ _ _ _ _ _.
Arguments huffman_tree {N} _ {P} _ _ _ _ _ _ _ _.
Arguments sb_update {N} _ {P} _ _ _ _ _ _ _ _ _.

(** /repo/minitn/lib/tools.py:133-137: the default [counter] starts from its
    default argument on each call. *)
Definition default_counter (i : nat) : nat := let x := 0 in x + 1.

(** * lazyproperty *)
Section Lazy.
Variable Val Other : Type.

(** An instance: its [__dict__] entries for attribute names, and the rest of the
    state that the wrapped function may read. *)
Record inst := { idict : string -> option Val; iother : Other }.

Definition iset (o : inst) (k : string) (v : Val) : inst :=
  {| idict := fun k' => if String.eqb k' k then Some v else idict o k'; iother := iother o |}.
Definition idel (o : inst) (k : string) : inst :=
  {| idict := fun k' => if String.eqb k' k then None else idict o k'; iother := iother o |}.

(** /repo/minitn/lib/tools.py:19-29.  Reading [instance.attr] where the class
    attribute [attr] is a [lazyproperty] around a function with
    [__name__ = fname].  The descriptor has no [__set__], so the instance dict
    is looked up first.  The boolean tells whether [func] was called. *)
Definition lazy_get (attr fname : string) (func : inst -> Val) (o : inst)
  : Val * inst * bool :=
  match idict o attr with
  | Some v => (v, o, false)
  | None => let v := func o in (v, iset o fname v, true)
  end.

(** One step of a client: read the attribute, change other state, or write
    another attribute. *)
Inductive lazy_op := LRead | LMutate (f : Other -> Other) | LWrite (k : string) (v : Val)
                   | LDel (k : string).

(** Values of the reads and number of calls of [func] over a history. *)
Fixpoint lazy_run (attr fname : string) (func : inst -> Val) (o : inst)
  (ops : list lazy_op) : list Val * nat :=
  match ops with
  | [] => ([], 0)
  | LRead :: ops =>
      let '(v, o, called) := lazy_get attr fname func o in
      let '(vs, n) := lazy_run attr fname func o ops in
      (v :: vs, if called then S n else n)
  | LMutate f :: ops =>
      lazy_run attr fname func {| idict := idict o; iother := f (iother o) |} ops
  | LWrite k v :: ops => lazy_run attr fname func (iset o k v) ops
  | LDel k :: ops => lazy_run attr fname func (idel o k) ops
  end.
End Lazy.
Arguments idict {Val Other} _ _. Arguments iother {Val Other} _.
Arguments lazy_get {Val Other} _ _ _ _. Arguments lazy_run {Val Other} _ _ _ _ _.
Arguments LRead {Val Other}. Arguments LMutate {Val Other} _.
Arguments LWrite {Val Other} _ _. Arguments LDel {Val Other} _.
Arguments iset {Val Other} _ _ _. Arguments idel {Val Other} _ _.

(** * unzip *)
(** [it[i]] on a tuple. *)
Definition tuple_get {A} (t : list A) (i : nat) : res A :=
  match nth_error t i with Some x => Ok x | None => Raise IndexError end.

(** /repo/minitn/lib/tools.py:32-49 [unzip]: [next(_tmp)] raises [StopIteration]
    on an empty iterable; the number of output iterators is the length of the
    first item.  The outer list stands for the returned generator, each inner
    result for fully consuming one iterator. *)
Definition unzip {A} (rows : list (list A)) : res (list (res (list A))) :=
  match rows with
  | [] => Raise StopIteration
  | r :: _ => Ok (map (fun i => mapM (fun row => tuple_get row i) rows) (seq 0 (length r)))
  end.
