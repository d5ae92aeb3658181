(** Vectors, mean fields and the effective Hamiltonian of /repo/minitn/algorithms/mctdh.py.

    Simplifications.  All scalars are complex numbers; the matrices of [h_terms] hold real
    numbers as complex ones where the code has real ones.  [linalg.inv] is a parameter.
    Logging is left out.  [np.reshape(v, -1)] is the list of entries. *)
From Coq Require Import List Arith ZArith Bool Reals.
From Verif Require Import Py Alg ListX NdArray_Model Contract_Model PoDvr_Model Cplx.
Import ListNotations.
Local Open Scope nat_scope.
Local Open Scope list_scope.
Local Open Scope py_scope.

Notation carr := (arr C_star).
(** [[(i, h)]] for one product of operators *)
Notation cterm := (list (nat * arr C_star)).

(** /repo/minitn/algorithms/mctdh.py:76-78: [shape_list], with the shape of the tensor A at the end *)
Definition all_shapes (shape_list : list (nat * nat)) : list (list nat) :=
  map (fun s => [fst s; snd s]) shape_list ++ [map snd shape_list].

(** /repo/minitn/algorithms/mctdh.py:310-326 [get_sub_vec] *)
Definition get_sub_vec (shapes : list (list nat)) (i : Z) (vec : list C_star) : res carr :=
  let i := Z.to_nat (i mod Z.of_nat (length shapes)) in
  let sizes := map prod shapes in
  let start := list_sum (firstn i sizes) in
  let stop := list_sum (firstn (S i) sizes) in
  let sub := firstn (stop - start) (skipn start vec) in
  match nth_error shapes i with
  | None => Raise IndexError
  | Some sh => reshape (mkArr [length sub] sub) sh
  end.

(** [c.real] and [c.imag] *)
Definition re_part (c : carr) : carr := mkArr (shape c) (map (fun z : C_star => RtoC (fst z)) (data c)).
Definition im_part (c : carr) : carr := mkArr (shape c) (map (fun z : C_star => RtoC (snd z)) (data c)).

(** /repo/minitn/algorithms/mctdh.py:120-123 [_eval] *)
Definition eval_op (op vec : carr) : res carr :=
  let vec_h := arr_conj (mat_T vec) in
  let! x := matmul op vec in
  matmul vec_h x.

(** /repo/minitn/algorithms/mctdh.py:129-133: the matrix of one operator *)
Definition mod_op (c h : carr) : res carr :=
  let! h_real := eval_op h (re_part c) in
  let! h_imag := eval_op h (im_part c) in
  arr_add h_real h_imag.

(** /repo/minitn/algorithms/mctdh.py:118-138 [update_mod_terms] *)
Definition mod_term_of (shapes : list (list nat)) (vec : list C_star) (term : cterm) : res cterm :=
  mapM (fun p => let! c := get_sub_vec shapes (Z.of_nat (fst p)) vec in
                 let! m := mod_op c (snd p) in
                 Ok (fst p, m)) term.
Definition update_mod_terms (shapes : list (list nat)) (h_terms : list cterm) (vec : list C_star) : res (list cterm) :=
  mapM (mod_term_of shapes vec) h_terms.

(** /repo/minitn/algorithms/mctdh.py:255-259 [_coeff_op] *)
Fixpoint coeff_op (tensor : carr) (mod_term : cterm) : res carr :=
  match mod_term with
  | [] => Ok tensor
  | (i, mat) :: mod_term =>
      let! tensor := partial_transform i tensor mat in
      coeff_op tensor mod_term
  end.

(** /repo/minitn/algorithms/mctdh.py:228-253 [_sp_op]; [self_vec] is [self.vec]. *)
Definition sp_op (inv : carr -> res carr) (err : C_star) (shapes : list (list nat)) (self_vec : list C_star)
  (i : nat) (mat : carr) (h_list : list carr) (mod_term : cterm) : res carr :=
  match h_list with
  | [] => Ok (zeros (K := C_star) (shape mat))
  | _ =>
      match shape mat with
      | [n; m] =>
          let! a := get_sub_vec shapes (-1) self_vec in
          let a_h := arr_conj a in
          let! density := mctdh_partial_product (Some i) a a_h in
          let! shifted := arr_add density (arr_scale err (eye m m)) in
          let! inv_density := inv shifted in
          let! sp := get_sub_vec shapes (Z.of_nat i) self_vec in
          let sp_h := arr_conj (mat_T sp) in
          let! p := matmul sp sp_h in
          let! projection := arr_add (eye n n) (arr_scale (ropp r1) p) in
          let! tmp := partial_transform i a mat in
          let! tmp := coeff_op tmp (map (fun h => (i, h)) h_list) in
          let! tmp := coeff_op tmp (filter (fun p => negb (fst p =? i)) mod_term) in
          let! tmp := mctdh_partial_product (Some i) tmp a_h in
          let! x := matmul tmp inv_density in
          matmul projection x
      | _ => Raise ValueError
      end
  end.

(** /repo/minitn/algorithms/mctdh.py:204-226 [term_hamiltonian], given the terms instead of their number *)
Definition term_part (inv : carr -> res carr) (err : C_star) (shapes : list (list nat)) (self_vec vec : list C_star)
  (h_term mod_term : cterm) (i : nat) : res (list C_star) :=
  let! v_i := get_sub_vec shapes (Z.of_nat i) vec in
  let! v_i := if i <? length shapes - 1
              then sp_op inv err shapes self_vec i v_i (map snd (filter (fun p => fst p =? i) h_term)) mod_term
              else coeff_op v_i mod_term in
  Ok (data v_i).
Definition term_hamiltonian (inv : carr -> res carr) (err : C_star) (shapes : list (list nat)) (self_vec vec : list C_star)
  (h_term mod_term : cterm) : res (list C_star) :=
  let! ans := mapM (term_part inv err shapes self_vec vec h_term mod_term) (seq 0 (length shapes)) in
  Ok (concat ans).

(** /repo/minitn/algorithms/mctdh.py:328-339 [energy_expection] *)
Fixpoint energy_loop (a_tensor : carr) (mod_terms : list cterm) (ans : C_star) : res C_star :=
  match mod_terms with
  | [] => Ok ans
  | term :: mod_terms =>
      let! h_a := coeff_op a_tensor term in
      let a_h := map rconj (data a_tensor) in
      let! x := if length a_h =? length (data h_a)
                then Ok (sum_list (map (fun p : C_star * C_star => rmul (fst p) (snd p)) (combine a_h (data h_a))) : C_star)
                else Raise ValueError in
      energy_loop a_tensor mod_terms (radd ans x)
  end.
Definition energy_expection (shapes : list (list nat)) (h_terms : list cterm) (vec : list C_star) : res C_star :=
  let! a_tensor := get_sub_vec shapes (-1) vec in
  let! mod_terms := update_mod_terms shapes h_terms vec in
  energy_loop a_tensor mod_terms r0.

(** /repo/minitn/algorithms/mctdh.py:196-200 [_matvec]: the terms are added up *)
Fixpoint add_terms (inv : carr -> res carr) (err : C_star) (shapes : list (list nat)) (self_vec vec : list C_star)
  (l : list (cterm * cterm)) (ans : carr) : res carr :=
  match l with
  | [] => Ok ans
  | (h_term, mod_term) :: l =>
      let! t := term_hamiltonian inv err shapes self_vec vec h_term mod_term in
      let! ans := arr_add ans (mkArr [length t] t) in
      add_terms inv err shapes self_vec vec l ans
  end.
(** [mod_terms] is the list written by [update_mod_terms] for [self_vec]
    (/repo/minitn/algorithms/mctdh.py:136-137, 166-167). *)
Definition h_matvec (inv : carr -> res carr) (err : C_star) (shapes : list (list nat)) (self_vec vec : list C_star)
  (h_terms : list cterm) : res carr :=
  let! mod_terms := update_mod_terms shapes h_terms self_vec in
  add_terms inv err shapes self_vec vec (combine h_terms mod_terms) (zeros [length vec]).
