(** Mean energies of the many-dimensional DVR, /repo/minitn/bases/dvr.py.

    Simplifications.  Those of PoDvr_Model.v. *)
From Coq Require Import List Arith Bool.
From Verif Require Import Py Alg ListX NdArray_Model PoDvr_Model.
Import ListNotations.
Local Open Scope py_scope.

Section Mean.
Context {K : StarRing}.
(** dvr.py:895-899: [h_list] and [_diag_v_rst]; both are None at first *)
Definition fields : Type := (option (list (@op1 K)) * option (list K))%type.
Definition at_first : fields := (None, None).
(** dvr.py:904-921 [set_v_func], on these fields *)
Definition set_again {A} (sizes : list nat) (grids : list (list A)) (st : fields) (hs : list (@op1 K)) (v_rst : option (list A -> K)) : res fields :=
  let! s := set_v_func sizes grids (hs, snd st) hs v_rst in Ok (Some (fst s), snd s).
(** dvr.py:901-902 [energy_expection], 933-978 [h_mat], /repo/minitn/lib/numerical.py:379-392 [expection]; None is not a list *)
Definition po_energy (st : fields) (vec : list K) : res K :=
  match fst st with
  | None => Raise TypeError
  | Some hs => let! w := po_matvec hs (snd st) vec in Ok (sum_list (map (fun p => rmul (rconj (fst p)) (snd p)) (combine vec w)))
  end.
End Mean.
