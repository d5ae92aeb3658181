(** The initial state for finite temperature: [autocomplete] of /repo/minitn/algorithms/ml.py:217-278 with [max_entangled] and
    [_local_matvec], 193-215.  The copies in /repo/minitn/heom/propagate.py (194-217, 219-286) have the same text up to line breaks.

    Simplifications.  Numbers are exact, [1/np.sqrt(n)] is a given number, [np.allclose] a given test.  Arrays in the lists of terms
    have two axes.  What the eigenvalue solver takes from scipy is the record [library] of Davidson_Model.v, here for every size and
    every operator; the operator is called on one vector first, since all its calls fail or none does.  Printing is dropped.
    A leaf without name has no method [endswith]. *)
From Coq Require Import String Ascii List Arith Bool.
From Verif Require Import Py Alg ListX NdArray_Model Contract_Model Net_Model Tri_Model Normalize_Model Template_Model.
From Verif Require Davidson_Model.
Import ListNotations.
Local Open Scope nat_scope.
Local Open Scope list_scope.
Local Open Scope py_scope.

(** [s.endswith("'")] *)
Fixpoint primed (s : string) : bool :=
  match s with EmptyString => false | String c EmptyString => Ascii.eqb c "'" | String _ s => primed s end.

Section Ft.
Variable K : StarRing.
(** [linalg.norm], [np.sqrt], 1/x, [np.linalg.matrix_rank], [1/np.sqrt(n)], [np.allclose], scipy *)
Variables (nrm : list K -> K) (sqrtf inv : K -> K) (rank_of : arr K -> nat) (isqrt : nat -> K) (close : list K -> list K -> bool).
Variable lib : nat -> (list K -> list K) -> @Davidson_Model.library K.
Variables max_cycle max_space : nat.

(** /repo/minitn/algorithms/ml.py:195-198 and 200-204: the first term that is one pair with this leaf *)
Fixpoint single {V} (l : list (list (id * V))) (leaf : id) : option V :=
  match l with
  | [] => None
  | [(x, v)] :: l => if x =? leaf then Some v else single l leaf
  | _ :: l => single l leaf
  end.
(** /repo/minitn/algorithms/ml.py:194-206; [self.f_list] may be None, its entries are functions of the time *)
Definition local_h (h_list : list (list (id * arr K))) (f_list : option (list (list (id * (K -> arr K))))) (leaf : id) : res (arr K) :=
  match single h_list leaf with
  | Some a => Ok a
  | None =>
      match f_list with
      | None => Raise RuntimeError
      | Some fl => match single fl leaf with Some f => Ok (f r0) | None => Raise RuntimeError end
      end
  end.
(** /repo/minitn/algorithms/ml.py:208-211 [matvec] *)
Definition local_matvec (h : arr K) (vec : list K) : res (list K) :=
  let! m := reshape (mkArr [length vec] vec) (shape h) in
  let! p := matmul h m in
  Ok (data p).
(** [mat = h]: the function given to the solver *)
Definition operator (h : arr K) (vec : list K) : list K := match local_matvec h vec with Ok w => w | Raise _ => [] end.

(** /repo/minitn/algorithms/ml.py:239-240 *)
Definition vec_i (n : nat) : list K := map (fun k => if k / n =? k mod n then isqrt n else r0) (seq 0 (n * n)).
(** /repo/minitn/algorithms/ml.py:243-244 *)
Definition found (n p : nat) (h : arr K) : res (list (list K)) :=
  let! _ := local_matvec h (vec_i n) in
  let! r := Davidson_Model.kernel_search (n * n) (lib (n * n) (operator h)) max_cycle max_space p [vec_i n] None in
  Ok (fst r).
(** /repo/minitn/algorithms/ml.py:245-251 *)
Definition ft_rows (n p : nat) (array : list (list K)) : res (list (list K)) :=
  if p <=? length array then Ok (firstn p array)
  else if n * n <? p - length array then Raise IndexError
  else Ok (array ++ map (fun j => map (fun k => delta k j) (seq 0 (n * n))) (seq 0 (p - length array))).
(** /repo/minitn/algorithms/ml.py:252-254 *)
Definition ft_array (n p : nat) (array : list (list K)) : res (arr K) :=
  if negb (length array =? p) then Raise AssertionError else
  match array with
  | [] => Raise IndexError
  | r :: _ => if close r (vec_i n) then reshape (mkArr [p; n * n] (concat array)) [p; n; n] else Raise AssertionError
  end.

Variables (h_list : list (list (id * arr K))) (f_list : option (list (list (id * (K -> arr K))))).
Variable bonds : list (edge * nat).

(** /repo/minitn/algorithms/ml.py:231-234: the loop over the children.  The names [n_leaf] and [leaf] keep their values when no
    child is found, [n_leaf] that of another tensor, given as [prev]. *)
Fixpoint pick (h : heap K) (t : id) (prev : option nat) (last : option id) (l : list (nat * id * nat)) : res (nat * id) :=
  match l with
  | [] => match prev, last with Some n, Some x => Ok (n, x) | _, _ => Raise UnboundLocalError end
  | (i, leaf, j) :: l =>
      match oname (hget h leaf) with
      | None => Raise AttributeError
      | Some s => if primed s then pick h t prev (Some leaf) l else let! n := bget bonds (t, i, leaf, j) in Ok (n, leaf)
      end
  end.

(** /repo/minitn/algorithms/ml.py:272-274: the array is set and normalised, its rank is looked at *)
Definition finish (h : heap K) (t : id) (a : arr K) : res (heap K) :=
  let h := modify h t (put_arr (Some a)) in
  let! nh := normalize nrm sqrtf inv h t true in
  let h := snd nh in
  match oaxis (hget h t), oarr (hget h t) with
  | Some ax, Some b =>
      let h := modify h t (put_aux (Some (arr_conj b))) in
      let! g := partial_trace b (Some ax) (arr_conj b) (Some ax) in
      if rank_of (mkArr (shape g) (map sqrtf (data g))) =? nth ax (shape b) 0 then Ok h else Raise AssertionError
  | _, _ => Ok h
  end.

(** /repo/minitn/algorithms/ml.py:228-274: one tensor; the name [n_leaf] outlives it *)
Definition ft_step (max_entangled : bool) (h : heap K) (prev : option nat) (t : id) : res (heap K * option nat) :=
  match oarr (hget h t) with
  | Some _ => Ok (h, prev)
  | None =>
      let axis := oaxis (hget h t) in
      if max_entangled && (length (children h t axis false) =? 0) then
        if negb (length (children h t axis true) =? 2) then Raise RuntimeError else
        match axis with
        | None => Raise RuntimeError
        | Some ax =>
            let! nl := pick h t prev None (children h t axis true) in
            let! q := dindex (oacc (hget h t)) ax in
            let! p := bget bonds (fst q, snd q, t, ax) in
            let! mat := local_h h_list f_list (snd nl) in
            let! ws := found (fst nl) p mat in
            let! rows := ft_rows (fst nl) p ws in
            let! a := ft_array (fst nl) p rows in
            let! h := finish h t a in
            Ok (h, Some (fst nl))
        end
      else
        let! ns := mapM (fun x => bget bonds (t, fst (fst x), snd (fst x), snd x)) (children h t axis true) in
        let! np := match axis with
                   | None => Ok 1
                   | Some ax => let! q := dindex (oacc (hget h t)) ax in bget bonds (fst q, snd q, t, ax)
                   end in
        let! a := auto_array axis np ns in
        let! h := finish h t a in
        Ok (h, prev)
  end.
Fixpoint ft_loop (max_entangled : bool) (h : heap K) (prev : option nat) (l : list id) : res (heap K) :=
  match l with
  | [] => Ok h
  | t :: l => let! hp := ft_step max_entangled h prev t in ft_loop max_entangled (fst hp) (snd hp) l
  end.
(** /repo/minitn/algorithms/ml.py:217-278 [autocomplete] *)
Definition ft_autocomplete (max_entangled : bool) (fuel : nat) (h : heap K) (root : id) : res (heap K) :=
  let! l := visitor fuel h root (oaxis (hget h root)) false in
  let! h := ft_loop max_entangled h None l in
  let! l := visitor fuel h root (oaxis (hget h root)) true in
  let! _ := forM (fun t => check_completness h t true) l in
  Ok h.
End Ft.
Arguments single {V} _ _. Arguments local_h {K} _ _ _. Arguments local_matvec {K} _ _. Arguments operator {K} _ _. Arguments vec_i {K} _ _.
Arguments found {K} _ _ _ _ _ _ _. Arguments ft_rows {K} _ _ _. Arguments ft_array {K} _ _ _ _ _. Arguments pick {K} _ _ _ _ _ _.
Arguments finish {K} _ _ _ _ _ _ _. Arguments ft_step {K} _ _ _ _ _ _ _ _ _ _ _ _ _ _ _ _. Arguments ft_loop {K} _ _ _ _ _ _ _ _ _ _ _ _ _ _ _ _.
Arguments ft_autocomplete {K} _ _ _ _ _ _ _ _ _ _ _ _ _ _ _ _.
