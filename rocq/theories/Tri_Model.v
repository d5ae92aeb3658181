(** Enumeration of product states and initial tensors. *)
From Coq Require Import List Arith Bool.
From Verif Require Import Py Alg ListX NdArray_Model.
Import ListNotations.

(** [case1 == case2] on lists of ints. *)
Fixpoint case_eqb (a b : list nat) : bool :=
  match a, b with
  | [], [] => true
  | x :: a, y :: b => Nat.eqb x y && case_eqb a b
  | _, _ => false
  end.

(** /repo/minitn/lib/numerical.py:427-429: running products, first entry 1. *)
Fixpoint prod_list_from (p : nat) (ns : list nat) : list nat :=
  match ns with [] => [p] | n :: ns => p :: prod_list_from (p * n) ns end.

(** /repo/minitn/lib/numerical.py:432-433 [key]; [zip] drops the last product. *)
Definition key (ns case : list nat) : nat :=
  list_sum (map (fun p => fst p * snd p) (combine (prod_list_from 1 ns) case)).

(** /repo/minitn/lib/numerical.py:438-442: raise one digit in every possible way. *)
Definition bump_all (ns : list nat) (cases : list (list nat)) : list (list nat) :=
  flat_map (fun case =>
    map (fun j => firstn j case ++ [nth j case 0 + 1] ++ skipn (j + 1) case)
      (filter (fun j => nth j case 0 + 1 <? nth j ns 0) (seq 0 (length ns)))) cases.

(** /repo/minitn/lib/numerical.py:443-446: drop repetitions, keep first occurrences. *)
Definition dedup (l : list (list nat)) : list (list nat) :=
  fold_left (fun acc case => if existsb (case_eqb case) acc then acc else acc ++ [case]) l [].

(** /repo/minitn/lib/numerical.py:435-446 [combinations[m]]. *)
Fixpoint combinations (ns : list nat) (m : nat) : list (list nat) :=
  match m with
  | 0 => [repeat 0 (length ns)]
  | S m => dedup (bump_all ns (combinations ns m))
  end.

(** /repo/minitn/lib/numerical.py:423-448 [triangular], the same code as
    /repo/minitn/algorithms/ml.py:164-191 and /repo/minitn/heom/propagate.py:167-192:
    the list of yielded numbers. *)
Definition triangular (ns : list nat) : list nat :=
  flat_map (fun m => map (key ns) (combinations ns m)) (seq 0 (last (prod_list_from 1 ns) 1)).

Section Auto.
Variable K : StarRing.

(** /repo/minitn/models/network.py:28-37 and /repo/minitn/algorithms/ml.py:255-271:
    the array given to a tensor with parent dimension [n_parent] (1 at the root)
    and child dimensions [ns]; [zip] pairs the rows with the first yielded
    numbers, rows beyond the last number stay zero.  [axis] is the parent axis. *)
Definition auto_rows (n_parent : nat) (ns : list nat) : arr K :=
  build [n_parent; prod ns] (fun idx =>
    match nth_error (triangular ns) (nth 0 idx 0) with
    | Some n => if nth 1 idx 0 =? n then r1 else r0
    | None => r0
    end).

Definition auto_array (axis : option nat) (n_parent : nat) (ns : list nat) : res (arr K) :=
  match axis with
  | None => reshape (auto_rows 1 ns) ns
  | Some ax =>
      bind (reshape (auto_rows n_parent ns) (n_parent :: ns)) (fun a => moveaxis a [0] [ax])
  end.
End Auto.
Arguments auto_rows {K} _ _. Arguments auto_array {K} _ _ _.
