(** The constructor of [MultiLayer], /repo/minitn/algorithms/ml.py:98-146.

    The terms of the Hamiltonian are mutable lists: they live in a list of their own, and
    [h_list] and [f_list] hold positions in it, so that the caller's terms after the call are
    visible.  An entry is a key (a string or an object of the network) with a value; what
    [np.ndim] and [callable] say of a value is given from outside, and so is [hex(id(x))].
    The attributes set by the constructor and not used in it are left out. *)
From Coq Require Import String List Arith Bool.
From Verif Require Import Py Alg ListX NdArray_Model Net_Model.
Import ListNotations.
Notation length := Datatypes.length.
Local Open Scope nat_scope.
Local Open Scope list_scope.
Local Open Scope py_scope.

Inductive key := KStr (s : string) | KObj (n : nat).

Section Init.
Context {K : StarRing} {V : Type}.
Variables (ndim : V -> nat) (callable : V -> bool) (hexid : nat -> string).
Notation term := (list (key * V)).

(** ml.py lines 121-134: the type checks *)
Definition is_leaf (h : heap K) (k : key) : bool := match k with KStr _ => false | KObj n => oleaf (hget h n) end.
Definition check_pair (h : heap K) (use_str : bool) (good : V -> bool) (p : key * V) : res unit :=
  if negb (is_leaf h (fst p)) && negb use_str then Raise TypeError
  else if negb (good (snd p)) then Raise TypeError else Ok tt.
Definition check_terms (h : heap K) (use_str : bool) (good : V -> bool) (terms : list term) (l : list nat) : res unit :=
  forM (fun i => forM (check_pair h use_str good) (nth i terms [])) l.

(** [str(x)]: /repo/minitn/tensor.py:73-75 and 849-851 [__repr__] *)
Definition str_of (h : heap K) (k : key) : string :=
  match k with
  | KStr s => s
  | KObj n => ((if oleaf (hget h n) then "Leaf_" else "Tensor_") ++ match oname (hget h n) with Some s => s | None => hexid n end)%string
  end.

(** line 137: the dict of leaves by name; later entries replace earlier ones *)
Definition leaves_dict (h : heap K) (l : list nat) : list (option string * nat) := rev (map (fun n => (oname (hget h n), n)) l).
Fixpoint lookup (d : list (option string * nat)) (s : string) : option nat :=
  match d with
  | [] => None
  | (Some s', n) :: d => if String.eqb s s' then Some n else lookup d s
  | (None, _) :: d => lookup d s
  end.

(** ml.py lines 139-141: [n] times [pop(0)] and [append]; the term left behind, whether or not a
    key is missing *)
Fixpoint rotate (h : heap K) (d : list (option string * nat)) (n : nat) (t : term) : term * res unit :=
  match n with
  | O => (t, Ok tt)
  | S n =>
      match t with
      | [] => ([], Raise IndexError)
      | (k, v) :: t =>
          match lookup d (str_of h k) with
          | None => (t, Raise KeyError)
          | Some m => rotate h d n (t ++ [(KObj m, v)])
          end
      end
  end.
(** line 138 *)
Fixpoint convert (h : heap K) (d : list (option string * nat)) (terms : list term) (l : list nat) : list term * res unit :=
  match l with
  | [] => (terms, Ok tt)
  | i :: l =>
      let t := nth i terms [] in
      match rotate h d (length t) t with
      | (t', Ok _) => convert h d (upd i t' terms) l
      | (t', Raise e) => (upd i t' terms, Raise e)
      end
  end.

(** ml.py lines 121-141 *)
Definition ml_init (fuel : nat) (h : heap K) (root : nat) (terms : list term) (h_list : list nat) (f_list : option (list nat)) (use_str : bool) : list term * res unit :=
  match check_terms h use_str (fun v => ndim v =? 2) terms h_list with
  | Raise e => (terms, Raise e)
  | Ok _ =>
      match (match f_list with None => Ok tt | Some fl => check_terms h use_str callable terms fl end) with
      | Raise e => (terms, Raise e)
      | Ok _ =>
          if use_str then
            match leaves fuel h root with
            | Raise e => (terms, Raise e)
            | Ok ls => convert h (leaves_dict h ls) terms (match f_list with None => h_list | Some fl => h_list ++ fl end)
            end
          else (terms, Ok tt)
      end
  end.
End Init.
