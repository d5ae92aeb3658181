(** What stored environments should be. *)
From Coq Require Import String List Arith Bool.
From Verif Require Import Py Alg ListX NdArray_Model Net_Model Cache_Model.
Import ListNotations.
Local Open Scope nat_scope.

Section CacheSpec.
Variable K : StarRing.
Variable T : Type.
Implicit Types h : heap K.

(** The same state with nothing stored. *)
Definition forget (s : state K) : state K := mkState K (sheap K s) (sroot K s) (no_env K).
Definition result {A B} (m : res (A * B)) : res A := match m with Ok (x, _) => Ok x | Raise e => Raise e end.

(** The matrix that a term gives a leaf. *)
Definition last_of (term : list (id * arr K)) (l : id) : option (arr K) :=
  fold_left (fun acc p => if fst p =? l then Some (snd p) else acc) term None.
(** The network with the leaves of one term, and no cached environment. *)
Definition dressed h (term : list (id * arr K)) : heap K :=
  map (fun p => put_cache [] (if oleaf (snd p) then put_arr (last_of term (fst p)) (snd p) else snd p))
      (combine (seq 0 (length h)) h).
(** The environment of axis [i] of [r] for one term, computed anew. *)
Definition fresh_env (fuel : nat) h (r : id) (term : list (id * arr K)) (i : nat) : res (option (arr K)) :=
  result (partial_env_proper fuel false (dressed h term) r i).

(** Every recorded move goes to an inner tensor. *)
Definition inner_moves (log : list (record K T)) : Prop :=
  forall s i, In (Moved K T s i) log ->
    exists e j, dget (oacc (hget (sheap K s) (sroot K s))) i = Some (e, j) /\ oleaf (hget (sheap K s) e) = false.
End CacheSpec.
Arguments forget {K} _. Arguments last_of {K} _ _. Arguments dressed {K} _ _. Arguments fresh_env {K} _ _ _ _ _.
Arguments inner_moves {K T} _.
