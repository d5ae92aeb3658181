(** The direct scheme of /repo/minitn/algorithms/ml.py: [_single_eom] 347-389 for every
    tensor, [_form_inv_density] 391-406, [eom] 438-468, and the step of [direct_step]
    474-486 with [ode_method] 'Newton'.  The copies in /repo/minitn/heom/propagate.py
    have the same text.

    Simplifications.  [self.time] is an argument (see Eom_Model.v), the inverse of
    [self.coefficient()] another.  The dictionary [self.inv_density] is a function from
    tensors.  [linalg.pinv2(density)], or [linalg.inv(density + regular_err * 1)], is the
    function [invert] of the density and the length of the axis.  [eom] is called without
    [check].  Numbers are exact. *)
From Coq Require Import String List Arith Bool.
From Verif Require Import Py Alg ListX NdArray_Model Contract_Model Net_Model Cache_Model.
Import ListNotations.
Local Open Scope nat_scope.
Local Open Scope list_scope.
Local Open Scope py_scope.

Section Direct.
Variable K : StarRing.
Variable T : Type.
Variable sys : system K T.
Variable fuel : nat.
Variable invert : option (arr K) -> nat -> res (arr K).

(** [a - b] for equal shapes. *)
Definition arr_sub (a b : arr K) : res (arr K) :=
  if list_eq_dec Nat.eq_dec (shape a) (shape b)
  then Ok (mkArr (shape a) (map (fun p => (fst p - snd p)%S) (combine (data a) (data b))))
  else Raise ValueError.

(** [self.inv_density] *)
Definition inverses := id -> option (arr K).

(** /repo/minitn/algorithms/ml.py:379-388: inverse density, then projection. *)
Definition project (a : arr K) (axis : nat) (inv : arr K) (tmp : arr K) : res (arr K) :=
  let! tmp1 := partial_product tmp axis (Some inv) 0 in
  let! c := partial_trace tmp1 (Some axis) (arr_conj a) (Some axis) in
  let! p := partial_product a axis (Some c) 1 in
  arr_sub tmp1 p.

(** /repo/minitn/algorithms/ml.py:347-389 [_single_eom] with [cache=False]. *)
Definition single_eom_any (inv : inverses) (t : id) (n : nat) (s : state K) : res (arr K * state K) :=
  match oarr (hget (sheap K s) t) with
  | None => Raise TypeError
  | Some a =>
      let! r := apply_envs K fuel n t false (seq 0 (order (sheap K s) t)) a s in
      let '(tmp, s) := r in
      match oaxis (hget (sheap K s) t) with
      | None => Ok (tmp, s)
      | Some axis =>
          match inv t with
          | None => Raise KeyError
          | Some m => let! d := project a axis m tmp in Ok (d, s)
          end
      end
  end.

Fixpoint over {A X} (f : X -> A -> res A) (l : list X) (s : A) : res A :=
  match l with [] => Ok s | x :: l => let! s := f x s in over f l s end.

(** /repo/minitn/algorithms/ml.py:396-405: the inverse for one tensor. *)
Definition density_of (t : id) (p : inverses * state K) : res (inverses * state K) :=
  let '(inv, s) := p in
  match oaxis (hget (sheap K s) t) with
  | None => Ok (inv, s)
  | Some axis =>
      let! r := partial_env_proper fuel false (sheap K s) t axis in
      let '(v, h) := r in
      match oarr (hget h t) with
      | None => Raise TypeError
      | Some a =>
          let! m := invert v (nth axis (shape a) 0) in
          Ok (fun x => if x =? t then Some m else inv x, with_heap K s h)
      end
  end.
(** /repo/minitn/algorithms/ml.py:391-406 [_form_inv_density] *)
Definition form_inv_density (s : state K) : res (inverses * state K) :=
  let! l := visitor fuel (sheap K s) (sroot K s) None true in
  over density_of l (fun _ => None, with_heap K s (set_all (reset_obj K) (sheap K s) l)).

(** /repo/minitn/algorithms/ml.py:459-461 *)
Definition accumulate (inv : inverses) (n : nat) (t : id) (s : state K) : res (state K) :=
  let! r := single_eom_any inv t n s in
  let '(x, s) := r in
  let! y := match oaux (hget (sheap K s) t) with None => Ok x | Some p => arr_add p x end in
  Ok (with_heap K s (modify (sheap K s) t (put_aux (Some y)))).
(** /repo/minitn/algorithms/ml.py:464-466 *)
Definition finish (icoef : K) (init_energy : option K) (t : id) (s : state K) : res (state K) :=
  match oaux (hget (sheap K s) t) with
  | None => Raise TypeError
  | Some x =>
      let x := arr_scale icoef x in
      let! y := match oaxis (hget (sheap K s) t), init_energy, oarr (hget (sheap K s) t) with
                | None, Some e, Some a => arr_sub x (arr_scale e a)
                | None, Some _, None => Raise TypeError
                | _, _, _ => Ok x
                end in
      Ok (with_heap K s (modify (sheap K s) t (put_aux (Some y))))
  end.

(** [self.root.visitor(leaf=leaf)] *)
Definition tensors (leaf : bool) (s : state K) : res (list id) :=
  visitor fuel (sheap K s) (sroot K s) (oaxis (hget (sheap K s) (sroot K s))) leaf.

(** /repo/minitn/algorithms/ml.py:457-461: the body of the loop over the terms. *)
Definition eom_body (inv : inverses) (n : nat) (_ : unit) (s : state K) : res (unit * state K) :=
  let! l := tensors false s in
  let! s := over (accumulate inv n) l s in
  Ok (tt, s).
(** /repo/minitn/algorithms/ml.py:438-468 [eom] *)
Definition eom (icoef : K) (init_energy : option K) (inv : inverses) (time : T) (s : state K) : res (state K) :=
  let! l := tensors true s in
  let! r := term_visitor K T sys fuel false false time (eom_body inv) tt
              (with_heap K s (set_all (put_aux None) (sheap K s) l)) in
  let s := snd r in
  let! l := tensors false s in
  over (finish icoef init_energy) l s.

(** /repo/minitn/algorithms/ml.py:482-485 *)
Definition advance (dt : K) (t : id) (s : state K) : res (state K) :=
  match oarr (hget (sheap K s) t), oaux (hget (sheap K s) t) with
  | Some y0, Some d =>
      let! y := arr_add y0 (arr_scale dt d) in
      Ok (with_heap K s (modify (sheap K s) t (fun o => put_aux None (put_arr (Some y) o))))
  | _, _ => Raise TypeError
  end.

(** The derivatives of one state, with the environments and densities of that state. *)
Definition derivatives (icoef : K) (init_energy : option K) (time : T) (s : state K) : res (state K) :=
  let! s := form_env K T sys fuel false time s in
  let! r := form_inv_density s in
  let '(inv, s) := r in
  eom icoef init_energy inv time s.
(** /repo/minitn/algorithms/ml.py:474-486 [direct_step] with 'Newton' *)
Definition newton_step (dt icoef : K) (init_energy : option K) (time : T) (s : state K) : res (state K) :=
  let! s := derivatives icoef init_energy time s in
  let! l := tensors false s in
  over (advance dt) l s.
End Direct.
