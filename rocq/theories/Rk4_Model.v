(** The method 'RK4' of [direct_step]: /repo/minitn/algorithms/ml.py:474-478 and 486-513.
    The copy in /repo/minitn/heom/propagate.py has the same text.

    Simplifications.  As in Direct_Model.v; [x / 2] and [x / 6.] are products with [half]
    and [sixth].  The dictionaries [k[0]] to [k[3]] are functions from tensors. *)
From Coq Require Import String List Arith Bool.
From Verif Require Import Py Alg ListX NdArray_Model Net_Model Cache_Model Direct_Model.
Import ListNotations.
Local Open Scope nat_scope.
Local Open Scope list_scope.
Local Open Scope py_scope.

Section Rk4.
Variable K : StarRing.
Variable T : Type.
Variable sys : system K T.
Variable fuel : nat.
Variable invert : option (arr K) -> nat -> res (arr K).
Variables half sixth dt : K.

(** [k] with the state. *)
Definition stored := nat -> id -> option (arr K).
Definition nothing : stored := fun _ _ => None.
Definition keep (k : stored) (j : nat) (t : id) (a : arr K) : stored :=
  fun j' t' => if (j' =? j) && (t' =? t) then Some a else k j' t'.
Definition put (s : state K) (t : id) (y : arr K) : state K := with_heap K s (modify (sheap K s) t (put_arr (Some y))).

(** /repo/minitn/algorithms/ml.py:490-495 *)
Definition stage1 (t : id) (p : stored * state K) : res (stored * state K) :=
  let '(k, s) := p in
  match oarr (hget (sheap K s) t), oaux (hget (sheap K s) t) with
  | Some y0, Some d =>
      let k1 := arr_scale dt d in
      let! y := arr_add y0 (arr_scale half k1) in
      Ok (keep (keep k 0 t y0) 1 t k1, put s t y)
  | _, _ => Raise TypeError
  end.
(** /repo/minitn/algorithms/ml.py:497-501 *)
Definition stage2 (t : id) (p : stored * state K) : res (stored * state K) :=
  let '(k, s) := p in
  match k 0 t with
  | None => Raise KeyError
  | Some y0 =>
      match oaux (hget (sheap K s) t) with
      | None => Raise TypeError
      | Some d =>
          let k2 := arr_scale dt d in
          let! y := arr_add y0 (arr_scale half k2) in
          Ok (keep k 2 t k2, put s t y)
      end
  end.
(** /repo/minitn/algorithms/ml.py:503-507 *)
Definition stage3 (t : id) (p : stored * state K) : res (stored * state K) :=
  let '(k, s) := p in
  match k 0 t with
  | None => Raise KeyError
  | Some y0 =>
      match oaux (hget (sheap K s) t) with
      | None => Raise TypeError
      | Some d =>
          let k3 := arr_scale dt d in
          let! y := arr_add y0 k3 in
          Ok (keep k 3 t k3, put s t y)
      end
  end.
(** /repo/minitn/algorithms/ml.py:509-513 *)
Definition stage4 (t : id) (p : stored * state K) : res (stored * state K) :=
  let '(k, s) := p in
  match k 0 t, k 1 t, k 2 t, k 3 t with
  | Some y0, Some k1, Some k2, Some k3 =>
      match oaux (hget (sheap K s) t) with
      | None => Raise TypeError
      | Some d =>
          let k4 := arr_scale dt d in
          let two := (r1 + r1)%S in
          let! a := arr_add k1 (arr_scale two k2) in
          let! a := arr_add a (arr_scale two k3) in
          let! a := arr_add a k4 in
          let! y := arr_add y0 (arr_scale sixth a) in
          Ok (k, with_heap K s (modify (sheap K s) t (fun o => put_aux None (put_arr (Some y) o))))
      end
  | _, _, _, _ => Raise KeyError
  end.

(** /repo/minitn/algorithms/ml.py:487-513 for any way [f] to put derivatives into [aux]. *)
Definition rk4_with (f : state K -> res (state K)) (s : state K) : res (state K) :=
  let! s := f s in
  let! l := tensors K fuel false s in
  let! p := over stage1 l (nothing, s) in
  let '(k, s) := p in
  let! s := f s in
  let! l := tensors K fuel false s in
  let! p := over stage2 l (k, s) in
  let '(k, s) := p in
  let! s := f s in
  let! l := tensors K fuel false s in
  let! p := over stage3 l (k, s) in
  let '(k, s) := p in
  let! s := f s in
  let! l := tensors K fuel false s in
  let! p := over stage4 l (k, s) in
  Ok (snd p).

(** /repo/minitn/algorithms/ml.py:474-478 and 486-513 [direct_step] with 'RK4': environments and
    inverse densities are formed once, [self.time] is not changed. *)
Definition rk4_step (icoef : K) (init_energy : option K) (time : T) (s : state K) : res (state K) :=
  let! s := form_env K T sys fuel false time s in
  let! r := form_inv_density K fuel invert s in
  let '(inv, s) := r in
  rk4_with (eom K T sys fuel icoef init_energy inv time) s.
End Rk4.
