(** The step of the direct scheme with a solver of scipy: /repo/minitn/algorithms/ml.py:474-478
    and 514-540.  The copy in /repo/minitn/heom/propagate.py has the same text.

    Simplifications.  As in Direct_Model.v and Propagate_Model.v; the solver is any
    computation that calls [diff] and looks at nothing else of the network, [ode_in_real]
    is off, and [self.coefficient()], which only depends on [imaginary] once [diff] has set
    [self.time], is the inverse of [icoef].  When an exception is raised the changes of the
    call that raised it are not described. *)
From Coq Require Import String List Arith Bool.
From Verif Require Import Py Alg ListX NdArray_Model Net_Model Cache_Model Direct_Model Normalize_Model Propagate_Model Ode_Spec.
Import ListNotations.
Local Open Scope nat_scope.
Local Open Scope list_scope.
Local Open Scope py_scope.

Section Ode.
Variable K : StarRing.
Variables T X : Type.
Variable sys : system K T.
Variable fuel : nat.
Variable invert : option (arr K) -> nat -> res (arr K).
Variable nrm : list K -> K.
Variables sqrtf inv : K -> K.
Variable imaginary : bool.
Variable icoef : K.
Variable init_energy : option K.
(** [0.0] *)
Variable zero : T.
(** The solver object: its constructor, [status == 'running'], [step], [y]; [t0 + ode_inter]. *)
Variable make : T -> list K -> T -> plan K T X.
Variable running : X -> bool.
Variable next_step : X -> plan K T X.
Variable current : X -> list K.
Variable later : T -> T.
Variables cmf_steps max_ode_steps : nat.

(** [self.time], [self.inv_density], and the network with [self.env_]. *)
Definition world : Type := option T * inverses K * state K.
(** /repo/minitn/algorithms/ml.py:292-294 and 561-563 *)
Definition time_at (c : option T) : T := match c with None => zero | Some t => t end.

(** /repo/minitn/algorithms/ml.py:517-526 [diff] *)
Definition direct_diff (t : T) (y : list K) (w : world) : res (list K * world) :=
  let '(_, iv, s) := w in
  let! origin := vectorize fuel (sheap K s) (sroot K s) false in
  let! h := tensorize fuel (sheap K s) (sroot K s) y false in
  let c := if imaginary then None else Some t in
  let! s := eom K T sys fuel icoef init_energy iv (time_at c) (with_heap K s h) in
  let! ans := vectorize fuel (sheap K s) (sroot K s) true in
  let! h := tensorize fuel (sheap K s) (sroot K s) origin false in
  Ok (ans, (c, iv, with_heap K s h)).

(** /repo/minitn/algorithms/ml.py:528-531 [reformer] *)
Definition reformer (w : world) : res world :=
  let '(c, _, s) := w in
  let! s := form_env K T sys fuel false (time_at c) s in
  let! r := form_inv_density K fuel invert s in
  let '(iv, s) := r in
  Ok (c, iv, s).

(** /repo/minitn/algorithms/ml.py:533-536 [updater] *)
Definition normalize_one (t : id) (s : state K) : res (state K) :=
  let! r := normalize nrm sqrtf inv (sheap K s) t false in
  Ok (with_heap K s (snd r)).
Definition updater (y : list K) (w : world) : res world :=
  let '(c, iv, s) := w in
  let! h := tensorize fuel (sheap K s) (sroot K s) y false in
  let! l := tensors K fuel false (with_heap K s h) in
  let! s := over normalize_one l (with_heap K s h) in
  Ok (c, iv, s).

(** The solver asks [diff]. *)
Fixpoint consult (p : plan K T X) (w : world) : res (X * world) :=
  match p with
  | Done x => Ok (x, w)
  | Ask t y go => let! r := direct_diff t y w in let '(a, w) := r in consult (go a) w
  end.

(** The world of [_solve_ode]: [ode_solver], once it is made, and the above. *)
Definition scene : Type := option X * world.
Definition acting (f : scene -> res scene) : act scene := fun w => match f w with Ok w' => (w', None) | Raise e => (w, Some e) end.
(** /repo/minitn/algorithms/ml.py:561-564 and 575 *)
Definition make_solver (y0 : list K) (w : scene) : res scene :=
  let '(_, (c, iv, s)) := w in
  let t0 := time_at c in
  let! r := consult (make t0 y0 (later t0)) (c, iv, s) in
  let '(x, w) := r in Ok (Some x, w).
(** [ode_solver.step()]; the case without a solver does not happen *)
Definition solver_step (w : scene) : res scene :=
  match w with
  | (Some x, w) => let! r := consult (next_step x) w in let '(x, w) := r in Ok (Some x, w)
  | (None, _) => Raise TypeError
  end.
(** [updater(ode_solver.y)] *)
Definition solver_update (w : scene) : res scene :=
  match w with
  | (Some x, w) => let! w := updater (current x) w in Ok (Some x, w)
  | (None, _) => Raise TypeError
  end.
Definition solver_reform (w : scene) : res scene := let '(x, w) := w in let! w := reformer w in Ok (x, w).
Definition solver_running (w : scene) : bool := match fst w with Some x => running x | None => false end.

(** /repo/minitn/algorithms/ml.py:474-477 and 514-540 [direct_step] with the name of a solver *)
Definition ode_step (rounds : nat) (w : world) : res (list event * (scene * outcome)) :=
  let! w := reformer w in
  let '(c, iv, s) := w in
  let! y0 := vectorize fuel (sheap K s) (sroot K s) false in
  Ok (solve_ode scene solver_running (acting (make_solver y0)) (acting solver_step) (acting solver_update) (Some (acting solver_reform))
        cmf_steps max_ode_steps rounds (None, (c, iv, s))).
End Ode.
