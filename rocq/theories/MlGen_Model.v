(** [propagator] of /repo/minitn/algorithms/ml.py 742-787 in real time, with the splitting steps
    of Step_Model.v on the state of Cache_Model.v.

    Simplifications.  [self.time] at each operation is given by [clock] of Step_Model.v; the theorems
    hold for every clock, so that setting it is not modelled here.  [direct_step], the
    normalisation in imaginary time and [move_energy] are not used by the theorems.  A step that
    raises leaves the state as it was when the step started; the generator is finished then. *)
From Coq Require Import String List.
From Verif Require Import Py Alg NdArray_Model Net_Model Cache_Model Step_Model.
From Verif Require Propagate_Model.
Import ListNotations.

Section Gen.
Variable K : StarRing.
Variable D : Type.
Variable sys : system K D.
Variable fuel : nat.
Variables csvd1 csvd2 : arr K -> res (arr K * arr K * arr K).
Variable calls : nat -> list (call K D).
Variable clock : nat -> D.
Variable Q : StarRing.
Variable half : Q.

(** A step as an action of Propagate_Model.v. *)
Definition as_act (f : counted K -> srun Q (counted K) (record K D)) : Propagate_Model.act (counted K) := fun x =>
  match snd (snd (f x)) with Ok x' => (x', None) | Raise e => (x, Some e) end.

(** /repo/minitn/algorithms/ml.py:751-764: [split_step] 654-676, [unite_step] 678-710, [r_split_step] 712-740. *)
Definition ml_do (snd_order : bool) (kd : Propagate_Model.kind) (tau : Q) (imaginary backward : bool) : Propagate_Model.act (counted K) :=
  let form := ml_form K D sys fuel clock in
  let prop := ml_prop K D sys fuel calls in
  let mv bond_cache := ml_move K D sys fuel csvd1 csvd2 calls bond_cache in
  match kd with
  | Propagate_Model.Split => as_act (one_site ropp fuel cheap croot form prop (mv true) tau backward)
  | Propagate_Model.Unite => as_act (two_site ropp fuel cheap croot form prop (mv true) tau backward)
  | Propagate_Model.Recursive => as_act (recursive_step ropp (fun x => (half * x)%S) fuel cheap croot form prop (mv false) snd_order tau)
  | Propagate_Model.Direct => Propagate_Model.skip (counted K)
  end.
(** /repo/minitn/algorithms/ml.py:742-787 [propagator(steps, ode_inter, split=True, start=first)], when [next] is called [n] times. *)
Definition ml_propagator (n : nat) (steps : option nat) (dt first : Q) (ps_method : string) (snd_order : bool) (x : counted K)
  : list (Q * id * counted K) * (counted K * Propagate_Model.status) :=
  Propagate_Model.propagator (counted K) Q half (ml_do snd_order) id croot (fun _ x => x) (Propagate_Model.skip (counted K))
    (Propagate_Model.skip (counted K)) n steps dt true false first false ps_method snd_order x.
End Gen.
Arguments as_act {K D Q} _ _.
