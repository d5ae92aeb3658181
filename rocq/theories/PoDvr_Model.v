(** Many-dimensional discrete variable representation, [PO_DVR] of /repo/minitn/bases/dvr.py,
    and [MCTDH._partial_transform] of /repo/minitn/algorithms/mctdh.py.

    Simplifications.  Scalars are those of an exact ring, vectors are lists.  A one-dimensional
    operator is its size and the function [h.dot] on vectors; [np.array] of rows of unequal
    length is taken to raise.  Axes are not negative. *)
From Coq Require Import List Arith Bool.
From Verif Require Import Py Alg ListX NdArray_Model.
Import ListNotations.
Local Open Scope nat_scope.
Local Open Scope py_scope.

(** /repo/minitn/bases/dvr.py:1248-1266 [subindex]; the list [prods] is kept reversed, so that
    [append] and [pop] act on its head *)
Definition prods_of (sizes : list nat) : list nat :=
  fold_left (fun prods i => (hd 1 prods * nth i sizes 0) :: prods) (rev (seq 1 (length sizes - 1))) [1].
Fixpoint sub_loop (rank : nat) (prods : list nat) (N : nat) : res (list nat) :=
  match rank, prods with
  | O, _ => Ok []
  | S rank, [] => Raise IndexError
  | S rank, base :: prods =>
      if base =? 0 then Raise ZeroDivisionError else
      let! sub := sub_loop rank prods (N mod base) in Ok (N / base :: sub)
  end.
Definition subindex (sizes : list nat) (N : nat) : res (list nat) := sub_loop (length sizes) (prods_of sizes) N.

Section PoDvr.
Context {K : StarRing}.

(** /repo/minitn/bases/dvr.py:923-931 [_calc_diag]; [grid_points_list] is [grids] *)
Fixpoint at_grid {A} (grids : list (list A)) (sub : list nat) : res (list A) :=
  match sub, grids with
  | [], _ => Ok []
  | n :: sub, g :: grids => match nth_error g n with None => Raise IndexError | Some x => let! xs := at_grid grids sub in Ok (x :: xs) end
  | _ :: _, [] => Raise IndexError
  end.
Definition calc_diag {A} (sizes : list nat) (grids : list (list A)) (func : list A -> K) : res (list K) :=
  mapM (fun i => let! sub := subindex sizes i in let! x := at_grid grids sub in Ok (func x)) (seq 0 (prod sizes)).

(** [np.array(list(map(h, a)))] for the rows of a matrix, giving rows of length [m] *)
Definition row (a : arr K) (q p : nat) : list K := firstn q (skipn (p * q) (data a)).
Definition apply_rows (h : list K -> res (list K)) (m : nat) (a : arr K) : res (arr K) :=
  match shape a with
  | [p; q] =>
      let! rows := mapM (fun r => let! w := h (row a q r) in if length w =? m then Ok w else Raise ValueError) (seq 0 p) in
      Ok (mkArr [p; m] (concat rows))
  | _ => Raise ValueError
  end.
(** The body shared by dvr.py:963-970 and mctdh.py:302-308 *)
Definition axis_apply (i : nat) (v : arr K) (q m : nat) (h : list K -> res (list K)) : res (arr K) :=
  let size_i := del i (shape v) ++ [m] in
  let! v_i := swapaxes v (ndim v - 1) i in
  let! v_i := reshape_infer v_i [] [q] in
  let! tmp := apply_rows h m v_i in
  let! tmp := reshape tmp size_i in
  swapaxes tmp (ndim tmp - 1) i.

(** [mat.dot] on a vector *)
Definition dot_vec (mat : arr K) (v : list K) : res (list K) :=
  match shape mat with
  | [p; q] => if length v =? q then Ok (map (fun i => sumn q (fun k => rmul (get mat [i; k]) (nth k v r0))) (seq 0 p)) else Raise ValueError
  | _ => Raise ValueError
  end.
(** /repo/minitn/algorithms/mctdh.py:288-308 [_partial_transform] *)
Definition partial_transform (i : nat) (tensor mat : arr K) : res (arr K) :=
  match shape mat with
  | [n; m] => axis_apply i tensor m n (dot_vec mat)
  | _ => Raise IndexError
  end.

(** [ans += tmp], with the axes of length one of [tmp] stretched *)
Fixpoint fits (sh target : list nat) : bool :=
  match sh, target with
  | [], [] => true
  | d :: sh, t :: target => ((d =? t) || (d =? 1)) && fits sh target
  | _, _ => false
  end.
Fixpoint stretch (sh idx : list nat) : list nat :=
  match sh, idx with d :: sh, x :: idx => (if d =? 1 then 0 else x) :: stretch sh idx | _, _ => [] end.
Definition iadd (ans tmp : arr K) : res (arr K) :=
  if fits (shape tmp) (shape ans) then Ok (build (shape ans) (fun idx => radd (get ans idx) (get tmp (stretch (shape tmp) idx)))) else Raise ValueError.

(** /repo/minitn/bases/dvr.py:952-976 [_Hamiltonian.__init__], [_matvec] and [_rmatvec] *)
Definition op1 : Type := (nat * (list K -> res (list K)))%type.
Fixpoint axes_loop (v : arr K) (i : nat) (hs : list op1) (ans : arr K) : res (arr K) :=
  match hs with
  | [] => Ok ans
  | h :: hs => let! tmp := axis_apply i v (fst h) (fst h) (snd h) in let! ans := iadd ans tmp in axes_loop v (S i) hs ans
  end.
Definition po_matvec (h_list : list op1) (v_rst : option (list K)) (vec : list K) : res (list K) :=
  let io_sizes := map fst h_list in
  let! v := reshape (mkArr [length vec] vec) io_sizes in
  let! ans := axes_loop v 0 h_list (zeros io_sizes) in
  match v_rst with
  | None => Ok (data ans)
  | Some d => if length d =? length vec then Ok (map (fun k => radd (nth k (data ans) r0) (rmul (nth k d r0) (nth k vec r0))) (seq 0 (length vec))) else Raise ValueError
  end.

(** /repo/minitn/bases/dvr.py:904-921 [set_v_func], as far as the stored fields [h_list] and
    [_diag_v_rst] go: the new potentials give [hs], the coupling is [v_rst] *)
Definition po_state : Type := (list op1 * option (list K))%type.
Definition set_v_func {A} (sizes : list nat) (grids : list (list A)) (st : po_state) (hs : list op1) (v_rst : option (list A -> K)) : res po_state :=
  match v_rst with
  | None => Ok (hs, snd st)
  | Some f => let! d := calc_diag sizes grids f in Ok (hs, Some d)
  end.
(** /repo/minitn/bases/dvr.py:1032-1042 [mu_mat] for the function giving [1 - args[dim]] *)
Definition mu_matvec {A} (sizes : list nat) (grids : list (list A)) (mu : list A -> K) (vec : list K) : res (list K) :=
  let! d := calc_diag sizes grids mu in
  if length d =? length vec then Ok (map (fun k => rmul (nth k d r0) (nth k vec r0)) (seq 0 (length vec))) else Raise ValueError.
End PoDvr.
