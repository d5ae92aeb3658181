(** What a splitting step has to propagate, in which order. *)
From Coq Require Import List Arith Bool Permutation.
From Verif Require Import Py Alg Net_Spec Net_Model Sweep_Model Sweep_Spec.
Import ListNotations.

Section StepSpec.
Variable T : Type.
Variable opp : T -> T.
Variable half_of : T -> T.

(** One-site step over [R]: each event works on the root, which comes back to where it was; each
    tensor is propagated once for [tau] and each bond once for [- tau]; forwards bonds are crossed
    towards the top of the tree, backwards away from it. *)
Definition one_site_order (R : tree) (tau : T) (backward : bool) (l : list (event T)) : Prop :=
  follows (top R) l (top R) /\
  Permutation (node_props l) (map (fun n => (n, tau)) (nids R)) /\
  Permutation (bond_props l) (map (fun e => (if backward then e else rev_edge e, opp tau)) (inner_edges R)) /\
  pair_props l = [].
(** Both, over half the time: the same seen from either end. *)
Definition second_order_order (R : tree) (tau : T) (l : list (event T)) : Prop :=
  symmetric l /\ follows (top R) l (top R) /\
  Permutation (node_props l) (map (fun n => (n, half_of tau)) (nids R ++ nids R)) /\
  Permutation (bond_props l) (map (fun e => (e, opp (half_of tau))) (map rev_edge (inner_edges R) ++ inner_edges R)) /\
  pair_props l = [].
(** Two-site step: each pair once for [tau], each tensor for [- tau] once less than it has
    neighbours. *)
Definition two_site_order (R : tree) (tau : T) (l : list (event T)) : Prop :=
  follows (top R) l (top R) /\
  Permutation (pair_props l) (map (fun e => (rev_edge e, tau)) (inner_edges R)) /\
  Permutation (node_props l) (flat_map (fun n => repeat (n, opp tau) (degree R n - 1)) (nids R)) /\
  bond_props l = [].
(** [ev] is [l] if the run ended, and a part of it, not all, if it was cut short. *)
Definition as_far (l ev : list (event T)) (ended : bool) : Prop :=
  if ended then ev = l else exists e rest, l = ev ++ e :: rest.
End StepSpec.
Arguments one_site_order {T} _ _ _ _ _. Arguments second_order_order {T} _ _ _ _ _. Arguments two_site_order {T} _ _ _ _. Arguments as_far {T} _ _ _.
Definition ended {A} (r : res A) : bool := match r with Ok _ => true | Raise _ => false end.
(** Recursive step: over all events each tensor gets [tau] and each bond [- tau], whatever the order of
    splitting. *)
Definition recursive_totals {Q : StarRing} (R : tree) (tau : Q) (l : list (event Q)) : Prop :=
  follows (top R) l (top R) /\
  (forall n, In n (nids R) -> node_time n l = tau) /\
  (forall e, In e (inner_edges R) -> bond_time e l = ropp tau) /\
  pair_props l = [] /\
  (forall n t, In (n, t) (node_props l) -> In n (nids R)).
