(** The object [DVR] of /repo/minitn/bases/dvr.py with what it stores.

    Simplifications.  Numbers are exact.  The kinetic energy [t_mat()] and the grid points are given
    (those of [SineDVR] are in Dvr_Model.v, those of [CasDVR] in Cas_Model.v); attributes are set
    by the methods only; the potential acts on one number at a time, and vectors have numbers as entries.  [eigsh] is a parameter. *)
From Coq Require Import List Arith Bool ZArith Reals.
From Verif Require Import Py Alg Ord Cplx NdArray_Model Dvr_Model.
Import ListNotations.
Local Open Scope py_scope.

(** dvr.py:99-102: [v_func], [_h_mat], [energy], [eigenstates] *)
Record dvr := mkDvr { d_v : option (R -> R); d_h : option (arr R_star); d_energy : option rvec; d_states : option (list rvec) }.
(** dvr.py:98-103 [__init__] *)
Definition fresh : dvr := mkDvr None None None None.

Section Object.
Variable kinetic : res (arr R_star).
Variable grid : list R.
(** the size, set by the subclasses *)
Variable n : nat.
(** [eigsh(h, k=k, which='SA')]: numbers and an array with the vectors in its columns *)
Variable eigsh : arr R_star -> Z -> res (rvec * arr R_star).

(** dvr.py:106-115 [set_v_func] *)
Definition set_v_func (f : R -> R) (s : dvr) : dvr := mkDvr (Some f) None (d_energy s) (d_states s).
(** dvr.py:146-156 [h_mat], with 123-134 [v_mat]: None cannot be called *)
Definition get_h (s : dvr) : res (arr R_star) :=
  match d_h s with
  | Some h => Ok h
  | None =>
      let! t := kinetic in
      match d_v s with None => Raise TypeError | Some f => arr_add t (np_diag (K := R_star) (map f grid)) end
  end.
(** [np.transpose(v)] as a list of rows *)
Definition columns (v : arr R_star) : list rvec :=
  map (fun c => map (fun i => get v [i; c]) (seq 0 (nth 0 (shape v) O))) (seq 0 (nth 1 (shape v) O)).
(** dvr.py:183-186: the loop over the rows *)
Fixpoint flip (l : list rvec) : res (list rvec) :=
  match l with
  | [] => Ok []
  | i :: l =>
      match i with
      | [] => Raise IndexError
      | x :: _ => let vi := if Rle_dec 0 x then i else map Ropp i in let! es := flip l in Ok (vi :: es)
      end
  end.
(** dvr.py:158-188 [solve]: what has been assigned stays when a later line raises *)
Definition solve (n_state : option Z) (s : dvr) : res (rvec * list rvec) * dvr :=
  let k := match n_state with None => (Z.of_nat n - 1)%Z | Some k => k end in
  match get_h s with
  | Raise e => (Raise e, s)
  | Ok h =>
      let s := mkDvr (d_v s) (Some h) (d_energy s) (d_states s) in
      match eigsh h k with
      | Raise e => (Raise e, s)
      | Ok (energy, v) =>
          let s := mkDvr (d_v s) (d_h s) (Some energy) (d_states s) in
          match flip (columns v) with
          | Raise e => (Raise e, s)
          | Ok es => (Ok (energy, es), mkDvr (d_v s) (d_h s) (d_energy s) (Some es))
          end
      end
  end.
(** dvr.py:306-318 [energy_expection], /repo/minitn/lib/numerical.py:379-392 [expection]: None has no [dot] *)
Definition energy_expection (s : dvr) (vec : list C_star) : res C_star :=
  match d_h s with
  | None => Raise AttributeError
  | Some op => let! w := mat_vec (toC op) vec in Ok (sum_list (map (fun p => rmul (rconj (fst p)) (snd p)) (combine vec w)))
  end.

(** Calls, one after another; an exception ends a call and not the object. *)
Inductive call := c_set (f : R -> R) | c_h | c_solve (n_state : option Z) | c_expect (vec : list C_star).
Definition after (c : call) (s : dvr) : dvr := match c with c_set f => set_v_func f s | c_h | c_expect _ => s | c_solve k => snd (solve k s) end.
Definition history (cs : list call) : dvr := fold_left (fun s c => after c s) cs fresh.
End Object.
