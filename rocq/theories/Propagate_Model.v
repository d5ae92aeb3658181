(** The loops of /repo/minitn/algorithms/ml.py that drive a propagation:
    [log_inner_product] 542-556, [_solve_ode] 558-590, the end of [_split_prop]
    617-626, [snd_order_step] 647-652 and [propagator] 742-787.  The copies in
    /repo/minitn/heom/propagate.py have the same text.

    An action changes the world (tensors, solver object, settings) and may raise an
    exception; the world keeps its changes when it does.  The scipy solver, the
    update of the arrays and the steps of the sweeps are parameters.

    Simplifications.  Logging is left out, except that the argument [n // cmf_steps]
    of the debug message is evaluated.  [propagator] is a generator: the model says
    what a consumer sees that calls [next] a given number of times.  [str.upper] is
    modelled for ASCII strings. *)
From Coq Require Import String Ascii List Arith Bool.
From Verif Require Import Py Alg.
Import ListNotations.
Local Open Scope nat_scope.
Local Open Scope list_scope.

Section Actions.
Variable W : Type.
Definition act : Type := W -> W * option exn.
Definition skip : act := fun w => (w, None).
Definition next (a b : act) : act := fun w => match a w with (w, None) => b w | r => r end.
(** One statement after another. *)
Fixpoint block (l : list act) : act := match l with [] => skip | a :: l => next a (block l) end.

(** /repo/minitn/algorithms/ml.py:542-556 [log_inner_product], used as
    [with self.log_inner_product(): body] without debug output. *)
Definition guarded (body : act) : act := fun w => (fst (body w), None).

(** ** [_solve_ode] *)
Section Ode.
(** [ode_solver.status == 'running']; [OdeSolver(...)]; [ode_solver.step()];
    [updater(ode_solver.y)]; [reformer]. *)
Variable running : W -> bool.
Variables start step update : act.
Variable reform : option act.
Variables cmf_steps max_ode_steps : nat.

Inductive event := Reforming (n : nat) | Stepping (n : nat).
Inductive outcome := Finished | Raised (e : exn) | Unfinished.

(** /repo/minitn/algorithms/ml.py:577-590: the loop [for n in count(1)], at most [fuel]
    rounds of it. *)
Fixpoint ode_loop (fuel n : nat) (w : W) : list event * (W * outcome) :=
  match fuel with
  | 0 => ([], (w, Unfinished))
  | S fuel =>
      if cmf_steps =? 0 then ([], (w, Raised ZeroDivisionError)) else
      if negb (running w) then ([], (w, Finished)) else
      let rest w :=
        match next step update w with
        | (w, Some e) => ([Stepping n], (w, Raised e))
        | (w, None) => let '(l, r) := ode_loop fuel (S n) w in (Stepping n :: l, r)
        end in
      if n mod cmf_steps =? 0 then
        if max_ode_steps <=? n then ([], (w, Raised RuntimeWarning)) else
        match reform with
        | None => rest w
        | Some f =>
            match f w with
            | (w, Some e) => ([Reforming n], (w, Raised e))
            | (w, None) => let '(l, r) := rest w in (Reforming n :: l, r)
            end
        end
      else rest w
  end.

(** /repo/minitn/algorithms/ml.py:558-590 [_solve_ode] *)
Definition solve_ode (fuel : nat) (w : W) : list event * (W * outcome) :=
  match start w with
  | (w, Some e) => ([], (w, Raised e))
  | (w, None) => ode_loop fuel 1 w
  end.
Definition solve_ode_act (fuel : nat) : act := fun w =>
  match snd (solve_ode fuel w) with
  | (w, Finished) => (w, None)
  | (w, Raised e) => (w, Some e)
  | (w, Unfinished) => (w, Some RecursionError)
  end.
End Ode.

(** ** [propagator] *)
Variable K : StarRing.
Variable half : K.

(** [str.upper] of an ASCII letter. *)
Definition upper (c : ascii) : ascii :=
  let n := nat_of_ascii c in if (97 <=? n) && (n <=? 122) then ascii_of_nat (n - 32) else c.
(** [identifier.startswith] of the first letter of the upper-case string. *)
Definition starts (s : string) (c : ascii) : bool :=
  match s with EmptyString => false | String d _ => Ascii.eqb (upper d) c end.

Inductive kind := Direct | Unite | Split | Recursive.
(** /repo/minitn/algorithms/ml.py:751-764: which step, and whether it is wrapped in
    [snd_order_step]. *)
Definition choose (split : bool) (ps_method : string) (snd_order : bool) : res (kind * bool) :=
  if split then
    if starts ps_method "U" then Ok (Unite, snd_order)
    else if starts ps_method "S" then Ok (Split, snd_order)
    else if starts ps_method "R" then Ok (Recursive, false)
    else Raise ValueError
  else Ok (Direct, false).

(** [unite_step], [split_step] (with [backward]), [r_split_step], [direct_step]. *)
Variable do_step : kind -> K -> bool -> bool -> act.
(** /repo/minitn/algorithms/ml.py:647-652 [snd_order_step] *)
Definition chosen_step (c : kind * bool) (ode_inter : K) (imaginary : bool) : act :=
  if snd c then next (do_step (fst c) (half * ode_inter)%S imaginary false)
                     (do_step (fst c) (half * ode_inter)%S imaginary true)
  else do_step (fst c) ode_inter imaginary false.

(** [self.root]; [self.time = ...]; [self.overall_norm *= self.root.normalize(forced=True)];
    [self.init_energy = expection(normalized=True)]. *)
Variable Id : Type.
Variable root_of : W -> Id.
Variable set_time : option K -> W -> W.
Variables renorm set_energy : act.

Fixpoint of_nat (n : nat) : K := match n with 0 => r0 | S n => (of_nat n + r1)%S end.

Inductive status := Suspended | Stopped | Failed (e : exn).

(** /repo/minitn/algorithms/ml.py:770-787: the consumer calls [next] [calls] times; each pair
    is given with the world at the time of the [yield]. *)
Section Loop.
Variables (steps : option nat) (ode_inter : K) (imaginary : bool) (first : K) (c : kind * bool) (root : Id).
Definition body : act :=
  next (chosen_step c ode_inter imaginary) (if imaginary then renorm else skip).
Fixpoint gen_loop (calls n : nat) (w : W) : list (K * Id * W) * (W * status) :=
  match calls with
  | 0 => ([], (w, Suspended))
  | S calls =>
      if match steps with None => false | Some m => m <=? n end then ([], (w, Stopped)) else
      let time := (first + of_nat n * ode_inter)%S in
      let w := set_time (if imaginary then None else Some time) w in
      match calls with
      | 0 => ([(time, root, w)], (w, Suspended))
      | S _ =>
          match body w with
          | (w', None) => let '(l, r) := gen_loop calls (S n) w' in ((time, root, w) :: l, r)
          | (w', Some RuntimeWarning) => ([(time, root, w)], (w', Stopped))
          | (w', Some e) => ([(time, root, w)], (w', Failed e))
          end
      end
  end.
End Loop.

(** /repo/minitn/algorithms/ml.py:742-787 [propagator] *)
Definition propagator (calls : nat) (steps : option nat) (ode_inter : K) (split imaginary : bool) (first : K)
  (move_energy : bool) (ps_method : string) (snd_order : bool) (w : W) : list (K * Id * W) * (W * status) :=
  match calls with
  | 0 => ([], (w, Suspended))
  | S _ =>
      match choose split ps_method snd_order with
      | Raise e => ([], (w, Failed e))
      | Ok c =>
          match (if move_energy then set_energy w else (w, None)) with
          | (w', Some e) => ([], (w', Failed e))
          | (w', None) => gen_loop steps ode_inter imaginary first c (root_of w) calls 0 w'
          end
      end
  end.
End Actions.
