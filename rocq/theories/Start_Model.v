(** Where a propagation starts: [DVR.solve] and the stored Hamiltonian of
    /repo/minitn/bases/dvr.py, [PO_DVR.init_state], and [gen_h_terms] and [init_state] of
    /repo/minitn/algorithms/mctdh.py.

    Simplifications.  Numbers are exact and complex, as in Mctdh_Model.v; [i[0] >= 0.0] looks at the
    real part.  [eigsh] is a parameter: given a matrix and a number of states it returns the energies
    and the states as columns.  One-dimensional operators are matrices ([fast=False]).  The
    attributes [energy] and [eigenstates] that [solve] stores are left out.  Axes in [extra] are not
    negative. *)
From Coq Require Import List Arith ZArith Bool Reals.
From Verif Require Import Py Alg ListX NdArray_Model Contract_Model Cplx Mctdh_Model.
From Verif Require Dvr_Model.
Import ListNotations.
Local Open Scope nat_scope.
Local Open Scope list_scope.
Local Open Scope py_scope.

(** The attributes of a one-dimensional DVR that matter here: [t_mat()], [grid_points], [v_func]
    (None before it is set, /repo/minitn/bases/dvr.py:98) and [_h_mat]. *)
Record dvr := mkDvr { kin : carr; points : list R; pot : option (list R -> list C_star); kept : option carr }.

(** /repo/minitn/bases/dvr.py:106-115 [set_v_func] *)
Definition set_pot (v : list R -> list C_star) (d : dvr) : dvr := mkDvr (kin d) (points d) (Some v) None.
(** /repo/minitn/bases/dvr.py:123-134 [v_mat]; None cannot be called. *)
Definition v_mat (d : dvr) : res carr :=
  match pot d with None => Raise TypeError | Some v => Ok (Dvr_Model.np_diag (v (points d))) end.
(** /repo/minitn/bases/dvr.py:146-156 [h_mat] *)
Definition h_mat (d : dvr) : res carr :=
  match kept d with
  | Some h => Ok h
  | None => let! v := v_mat d in arr_add (kin d) v
  end.

Section Start.
Variable eigsh : carr -> nat -> res (list C_star * carr).

(** /repo/minitn/bases/dvr.py:183-187: one state *)
Definition upright (v : list C_star) : res (list C_star) :=
  match v with
  | [] => Raise IndexError
  | x :: _ => if Rle_dec 0 (fst x) then Ok v else Ok (map ropp v)
  end.
(** /repo/minitn/bases/dvr.py:158-190 [solve]; [n] is the number of basis functions. *)
Definition rows (a : carr) : list (list C_star) :=
  map (fun i => map (fun j => get a [i; j]) (seq 0 (nth 1 (shape a) 0))) (seq 0 (nth 0 (shape a) 0)).
Definition solve (n_state : option nat) (d : dvr) : res (list C_star * carr * dvr) :=
  let k := match n_state with None => length (points d) - 1 | Some k => k end in
  let! h := h_mat d in
  let! ev := eigsh h k in
  let! es := mapM upright (rows (mat_T (snd ev))) in
  Ok (fst ev, mkArr [length es; nth 0 (shape (snd ev)) 0] (concat es), mkDvr (kin d) (points d) (pot d) (Some h)).

(** What may be done to a one-dimensional DVR. *)
Inductive dvr_call := SetPot (v : list R -> list C_star) | Solve (n_state : option nat).
Definition do_dvr (c : dvr_call) (d : dvr) : res dvr :=
  match c with
  | SetPot v => Ok (set_pot v d)
  | Solve n => let! r := solve n d in Ok (snd r)
  end.
Fixpoint do_dvrs (l : list dvr_call) (d : dvr) : res dvr :=
  match l with [] => Ok d | c :: l => let! d := do_dvr c d in do_dvrs l d end.

(** The loop over the dimensions of both [init_state]s: [solve] is called on each DVR. *)
Fixpoint solve_all (ks : list nat) (dvrs : list dvr) : res (list carr * list dvr) :=
  match ks with
  | [] => Ok ([], dvrs)
  | k :: ks =>
      match dvrs with
      | [] => Raise IndexError
      | d :: dvrs =>
          let! r := solve (Some k) d in
          let! rs := solve_all ks dvrs in
          Ok (snd (fst r) :: fst rs, snd r :: snd rs)
      end
  end.

(** /repo/minitn/bases/dvr.py:1006-1012 [PO_DVR.init_state]; [v_i[0]] is the first row. *)
Definition first_row (a : carr) : res (list C_star) :=
  match rows a with [] => Raise IndexError | r :: _ => Ok r end.
Definition outer (v w : list C_star) : list C_star := flat_map (fun x : C_star => map (rmul x) w) v.
Definition po_init_state (dvrs : list dvr) : res (list C_star * list dvr) :=
  let! rs := solve_all (repeat 1 (length dvrs)) dvrs in
  let! vs := mapM first_row (fst rs) in
  Ok (fold_left outer vs [r1], snd rs).

(** /repo/minitn/algorithms/mctdh.py:86-116 [gen_h_terms]; a term of [extra] is a list of axes and
    functions of all points of the axis. *)
Definition extra_factor (dvrs : list dvr) (p : nat * (list R -> list C_star)) : res (nat * carr) :=
  match nth_error dvrs (fst p) with
  | None => Raise IndexError
  | Some d => Ok (fst p, Dvr_Model.np_diag (snd p (points d)))
  end.
Definition gen_h_terms (extra : option (list (list (nat * (list R -> list C_star))))) (kinetic_only : bool) (dvrs : list dvr) : res (list cterm) :=
  let! h_terms := mapM (fun p : nat * dvr => let! h := if kinetic_only then Ok (kin (snd p)) else h_mat (snd p) in Ok [(fst p, h)])
                       (combine (seq 0 (length dvrs)) dvrs) in
  match extra with
  | None => Ok h_terms
  | Some l => let! more := mapM (mapM (extra_factor dvrs)) l in Ok (h_terms ++ more)
  end.

(** /repo/minitn/algorithms/mctdh.py:140-168 [init_state]; the results are the vector, which is also
    [self.vec], the mean fields and the DVRs.  Before [gen_h_terms], [h_terms] is None. *)
Definition init_state (shape_list : list (nat * nat)) (h_terms : option (list cterm)) (dvrs : list dvr) : res (list C_star * list cterm * list dvr) :=
  let! rs := solve_all (map snd shape_list) dvrs in
  let c_list := map (fun v => data (mat_T v)) (fst rs) in
  match repeat (r0 : C_star) (prod (map snd shape_list)) with
  | [] => Raise IndexError
  | _ :: vec_a =>
      let vec := concat (c_list ++ [(r1 : C_star) :: vec_a]) in
      match h_terms with
      | None => Raise TypeError
      | Some h_terms =>
          let! mod_terms := update_mod_terms (all_shapes shape_list) h_terms vec in
          Ok (vec, mod_terms, snd rs)
      end
  end.
End Start.
