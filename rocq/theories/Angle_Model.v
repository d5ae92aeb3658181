(** The angle between two networks, /repo/minitn/tensor.py:689-697 [hilbert_angle].

    Simplifications.  Numbers are exact complex numbers.  [np.arccos] of a complex number is the
    parameter [carccos]; a division by zero gives nan, here [None]. *)
From Coq Require Import List Arith Bool Reals.
From Verif Require Import Py Alg Cplx NdArray_Model Net_Model.
Import ListNotations.
Local Open Scope list_scope.
Local Open Scope py_scope.

Section Pairs.
Context {K : StarRing}.
(** lines 693-694, [n1.aux = np.conj(n2.array)] over the pairs; numpy does not conjugate None *)
Fixpoint pair_aux (h : heap K) (l : list (id * id)) : res (heap K) :=
  match l with
  | [] => Ok h
  | (n1, n2) :: l =>
      match oarr (hget h n2) with
      | None => Raise TypeError
      | Some a => pair_aux (modify h n1 (put_aux (Some (arr_conj a)))) l
      end
  end.
End Pairs.

(** The number in an array without axes; what is no array is no number *)
Definition number (v : option (arr C_star)) : res C_star :=
  match v with Some a => Ok (get a []) | None => Raise TypeError end.
(** [z / np.pi * 180] *)
Definition degrees (z : C_star) : C_star := rmul (rmul z (RtoC (/ PI))) (RtoC 180).

Section Angle.
Variable carccos : C_star -> C_star.
(** lines 689-697; [zip] stops at the shorter of the two walks.  The product of the norms is
    formed after the inner product, so that [aux] may be overwritten. *)
Definition hilbert_angle (fuel : nat) (h : heap C_star) (r1 r2 : id) : res (option C_star * heap C_star) :=
  let! l1 := visitor fuel h r1 (oaxis (hget h r1)) false in
  let! l2 := visitor fuel h r2 (oaxis (hget h r2)) false in
  let! h := pair_aux h (combine l1 l2) in
  let! a := global_inner_product fuel h r1 in
  let! b := global_square fuel (snd a) r1 in
  let! c := global_square fuel (snd b) r2 in
  let! x := number (fst a) in
  let! y := number (fst b) in
  let! z := number (fst c) in
  let d := rmul (Csqrt y) (Csqrt z) in
  Ok (if Req_EM_T (Cnorm2 d) 0 then None else Some (degrees (carccos (rmul x (Cinv d)))), snd c).
End Angle.
