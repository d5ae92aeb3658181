(** Initial states of /repo/minitn/heom/network.py and [autocomplete] of
    /repo/minitn/models/network.py.

    Simplifications.  Names: [str(k)] for a number [k] is its decimal rendering; the graph of
    the tree template has the ints 0, 1, ... as keys and entries, which become strings only in
    the constructors of Tensor and Leaf, here they are strings from the start (no string of the
    code is the rendering of an int).  Printing is dropped.  dtypes are ignored. *)
From Coq Require Import String List Arith Bool DecimalString.
From Verif Require Import Py Alg ListX NdArray_Model Contract_Model Net_Model Tools_Model Tri_Model Heom_Model Normalize_Model.
Import ListNotations.
Local Open Scope nat_scope.
Local Open Scope list_scope.
Local Open Scope py_scope.

(** [str(n)], [int(s)] *)
Definition str (n : nat) : string := NilEmpty.string_of_uint (Nat.to_uint n).
Definition int_of (s : string) : res nat :=
  match NilEmpty.uint_of_string s with Some d => Ok (Nat.of_uint d) | None => Raise ValueError end.

Section Template.
Variable K : StarRing.

(** /repo/minitn/heom/network.py:26-29 [get_n_state] *)
Definition get_n_state (rho : arr K) : res nat :=
  match shape rho with
  | [d; d'] => if d =? d' then Ok d else Raise AssertionError
  | _ => Raise AssertionError
  end.

(** [np.zeros((n,))] with entry 0 set to 1 (network.py:42-43, 84-85, 125-126) *)
Definition first_unit (n : nat) : res (arr K) :=
  if n =? 0 then Raise IndexError else Ok (build [n] (fun x => delta (nth 0 x 0) 0)).

(** [np.eye(a, b)] *)
Definition eye2 (a b : nat) : arr K := build [a; b] (fun x => delta (nth 0 x 0) (nth 1 x 0)).

(** A new leaf linked to axis [i] of the tensor [r] by its axis 0. *)
Definition add_leaf (h : heap K) (r : id) (i : nat) (name : string) : heap K :=
  link (h ++ [new_leaf (Some name) None]) r i (length h) 0.

(** /repo/minitn/heom/network.py:52-53 *)
Fixpoint add_leaves (h : heap K) (r : id) (ks : list nat) : heap K :=
  match ks with
  | [] => h
  | k :: ks => add_leaves (add_leaf h r (k + 2) (str k)) r ks
  end.

(** /repo/minitn/heom/network.py:32-55 [simple_heom]; [np.prod] of an empty list is the float
    1.0, which [np.zeros] refuses as a length. *)
Definition simple_heom (h : heap K) (rho : arr K) (n_indices : list nat) : res (heap K * id) :=
  let! n_state := get_n_state rho in
  if length n_indices =? 0 then Raise TypeError else
  let! ext := first_unit (prod n_indices) in
  let! rho_n := reshape (outer rho ext) (n_state :: n_state :: n_indices) in
  let r := length h in
  let h := h ++ [new_tensor (Some "root"%string) (Some rho_n) None false] in
  let d := length n_indices in
  let h := add_leaf h r 0 (str d) in
  let h := add_leaf h r 1 (str (d + 1)) in
  Ok (add_leaves h r (seq 0 d), r).

(** /repo/minitn/heom/network.py:101-112: the loop; [prev] is [train[-1]]. *)
Definition train_array (n_state max_terms rank k d : nat) : res (arr K) :=
  if k =? 0 then reshape_infer (eye2 (n_state * n_state) (d * rank)) [4] [rank]
  else if k <? max_terms - 1 then reshape_infer (eye2 rank (d * rank)) [rank] [rank]
  else Ok (eye2 rank d).
Fixpoint train_loop (n_state max_terms rank : nat) (h : heap K) (prev : id) (k : nat) (todo : list nat)
  : res (heap K) :=
  match todo with
  | [] => Ok h
  | d :: todo =>
      let! a := train_array n_state max_terms rank k d in
      let s := length h in
      let h := h ++ [new_tensor (Some (str k)) (Some a) (Some 0) false] in
      let h := h ++ [new_leaf (Some (str k)) None] in
      let h := link h s 0 prev 2 in
      let h := link h s 1 (S s) 0 in
      train_loop n_state max_terms rank h s (S k) todo
  end.

(** /repo/minitn/heom/network.py:76-114 [tensor_train_template] *)
Definition tensor_train_template (h : heap K) (rho : arr K) (pb_index : list nat) (rank : nat)
  : res (heap K * id) :=
  let! n_state := get_n_state rho in
  let! n_vec := first_unit (n_state * n_state) in
  let r := length h in
  let h := h ++ [new_tensor (Some "root"%string) (Some (outer rho n_vec)) None false] in
  let max_terms := length pb_index in
  let h := add_leaf h r 0 (str max_terms) in
  let h := add_leaf h r 1 (str (max_terms + 1)) in
  let! h := train_loop n_state max_terms rank h r 0 pb_index in
  Ok (h, r).

(** The dict of bond dimensions, keyed by links; an assignment overwrites. *)
Definition edge_eqb (a b : edge) : bool :=
  let '(p, i, q, j) := a in let '(p', i', q', j') := b in
  (p =? p') && (i =? i') && (q =? q') && (j =? j').
Fixpoint bget (d : list (edge * nat)) (e : edge) : res nat :=
  match d with
  | [] => Raise KeyError
  | (e', n) :: d => if edge_eqb e e' then Ok n else bget d e
  end.

(** [linalg.norm], [np.sqrt], 1/x, [np.linalg.matrix_rank] *)
Variables (nrm : list K -> K) (sqrtf inv : K -> K) (rank_of : arr K -> nat).

(** /repo/minitn/models/network.py:20-42: one tensor; [local_norm] (tensor.py:388-391) also
    sets [aux]. *)
Definition auto_step (bonds : list (edge * nat)) (h : heap K) (t : id) : res (heap K) :=
  match oarr (hget h t) with
  | Some _ => Ok h
  | None =>
      let axis := oaxis (hget h t) in
      let! ns := mapM (fun x => bget bonds (t, fst (fst x), snd (fst x), snd x)) (children h t axis true) in
      let! np := match axis with
                 | None => Ok 1
                 | Some ax => let! p := dindex (oacc (hget h t)) ax in bget bonds (fst p, snd p, t, ax)
                 end in
      let! a := auto_array axis np ns in
      let h := modify h t (put_arr (Some a)) in
      let! nh := normalize nrm sqrtf inv h t true in
      let h := snd nh in
      match axis, oarr (hget h t) with
      | Some ax, Some b =>
          let h := modify h t (put_aux (Some (arr_conj b))) in
          let! g := partial_trace b (Some ax) (arr_conj b) (Some ax) in
          if rank_of (mkArr (shape g) (map sqrtf (data g))) =? nth ax (shape b) 0 then Ok h else Raise AssertionError
      | _, _ => Ok h
      end
  end.
Fixpoint auto_loop (bonds : list (edge * nat)) (h : heap K) (l : list id) : res (heap K) :=
  match l with
  | [] => Ok h
  | t :: l => let! h := auto_step bonds h t in auto_loop bonds h l
  end.

(** /repo/minitn/models/network.py:9-46 [autocomplete]; the visitor runs while arrays are set,
    which does not change the links it reads. *)
Definition autocomplete (fuel : nat) (h : heap K) (root : id) (bonds : list (edge * nat)) : res (heap K) :=
  let! l := visitor fuel h root (oaxis (hget h root)) false in
  let! h := auto_loop bonds h l in
  let! l := visitor fuel h root (oaxis (hget h root)) true in
  let! _ := forM (fun t => check_completness h t true) l in
  Ok h.

(** /repo/minitn/heom/network.py:162-167: the dict; later links first. *)
Fixpoint bond_dict (h : heap K) (l_range : list nat) (rank : nat) (es : list edge) : res (list (edge * nat)) :=
  match es with
  | [] => Ok []
  | (s, i, t, j) :: es =>
      let! n := (if oleaf (hget h t) then
                   match oname (hget h t) with
                   | None => Raise TypeError
                   | Some s => let! k := int_of s in
                       match nth_error l_range k with Some n => Ok n | None => Raise IndexError end
                   end
                 else Ok rank) in
      let! d := bond_dict h l_range rank es in
      Ok (d ++ [((s, i, t, j), n)])
  end.

(** /repo/minitn/heom/network.py:117-170 [tensor_tree_template] *)
Definition tensor_tree_template (fuel : nat) (h : heap K) (rho : arr K) (pb_index : list nat) (rank nbranch : nat)
  : res (heap K * id) :=
  let! n_state := get_n_state rho in
  let! n_vec := first_unit rank in
  let root_array := outer rho n_vec in
  let max_terms := length pb_index in
  if negb (forallb (fun i => rank <=? i) pb_index) then Raise AssertionError else
  let leaves := map str (seq 0 max_terms) in
  let importance := rev (seq 0 max_terms) in
  let! gr := huffman_tree String.eqb Nat.add 0 Nat.leb leaves importance (fun i => String.append "SPF" (str i)) nbranch fuel in
  let '(graph, spf_root) := gr in
  let graph := dset String.eqb graph "root"%string [str max_terms; str (max_terms + 1); spf_root] in
  let! hr := generate (dlookup String.eqb graph) fuel h "root" in
  let '(h, root) := hr in
  let h := modify h root (put_arr (Some root_array)) in
  let l_range := pb_index ++ [n_state; n_state] in
  let! es := linkage_visitor fuel h root (oaxis (hget h root)) true false in
  let! bonds := bond_dict h l_range rank es in
  let! h := autocomplete fuel h root bonds in
  Ok (h, root).
End Template.
Arguments get_n_state {K} _. Arguments first_unit {K} _. Arguments eye2 {K} _ _. Arguments add_leaf {K} _ _ _ _. Arguments add_leaves {K} _ _ _.
Arguments simple_heom {K} _ _ _. Arguments train_array {K} _ _ _ _ _. Arguments train_loop {K} _ _ _ _ _ _ _.
Arguments tensor_train_template {K} _ _ _ _. Arguments auto_step {K} _ _ _ _ _ _ _. Arguments auto_loop {K} _ _ _ _ _ _ _.
Arguments autocomplete {K} _ _ _ _ _ _ _ _. Arguments bond_dict {K} _ _ _ _. Arguments tensor_tree_template {K} _ _ _ _ _ _ _ _ _ _.
