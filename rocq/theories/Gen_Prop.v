(** Property C13. *)
From Coq Require Import String List Arith Bool Lia Permutation.
From Verif Require Import Py Alg ListX NdArray_Model Net_Model Net_Spec Gen_Spec Trav_Proof Gen_Proof.
Import ListNotations.
Local Open Scope nat_scope.
Open Scope list_scope.

(** For a graph that unfolds to a tree with distinct names: the new objects realise
    the tree (names, leaves, axes of the children, default attributes), nothing else
    is created and no old object changes. *)
Theorem C13_realises_graph :
  forall (K : StarRing) graph fuel (h : heap K) root l,
    unfolds graph (SNd root l) -> NoDup (snames (SNd root l)) -> skeys (SNd root l) <= fuel ->
    exists h' t, generate graph fuel h root = Ok (h', length h) /\ top t = length h /\
      realises h' None (SNd root l) t /\ length h' = length h + length (snames (SNd root l)) /\
      (forall n, n < length h -> hget h' n = hget h n) /\
      (forall x, In x (ids t) -> length h <= x < length h').
Proof. exact generate_ok. Qed.
Print Assumptions C13_realises_graph.

(** The objects are in bijection with the names, in pre-order. *)
Theorem C13_names_bijection :
  forall (K : StarRing) (h h' : heap K) T t,
    realises h' None T t -> NoDup (snames T) -> length h' = length h + length (snames T) ->
    (forall x, In x (ids t) -> length h <= x < length h') ->
    Permutation (ids t) (seq (length h) (length (snames T))) /\
    map (fun n => oname (hget h' n)) (ids t) = map Some (snames T).
Proof.
  intros K h h' T t R ND L B. split; [eapply generate_bijection; eauto|eapply realises_names; eauto].
Qed.
Print Assumptions C13_names_bijection.

Theorem C13_leaves_are_the_other_names :
  forall (K : StarRing) graph (h : heap K) T t up,
    unfolds graph T -> realises h up T t ->
    forall n s, In n (ids t) -> oname (hget h n) = Some s -> (oleaf (hget h n) = true <-> graph s = None).
Proof. exact realises_leaf_iff. Qed.
Print Assumptions C13_leaves_are_the_other_names.

Theorem C13_complete :
  forall (K : StarRing) (h : heap K) T t,
    realises h None T t -> forall x, In x (ids t) -> check_completness h x false = Ok tt.
Proof. intros K h T t R. apply (realises_complete K h T t None R). discriminate. Qed.
Print Assumptions C13_complete.

(** The links form the tree, so the visitor runs in the pre-order of the names. *)
Theorem C13_visitor_order :
  forall (K : StarRing) (h : heap K) T t fuel,
    realises h None T t -> height t <= fuel ->
    hangs h None t /\ visitor fuel h (top t) None true = Ok (ids t) /\
    map (fun n => oname (hget h n)) (ids t) = map Some (snames T).
Proof.
  intros K h T t fuel R Hf. pose proof (realises_hangs K h T t None R) as H. split; [exact H|].
  split; [exact (visitor_hangs K h t None fuel true H Hf)|eapply realises_names; eauto].
Qed.
Print Assumptions C13_visitor_order.

(** A root that the graph does not list is refused. *)
Theorem C13_unknown_root :
  forall (K : StarRing) graph (h : heap K) fuel root, graph root = None -> generate graph (S fuel) h root = Raise KeyError.
Proof. intros K graph h fuel root E. unfold generate. cbn [gen_loop]. rewrite E. reflexivity. Qed.
Print Assumptions C13_unknown_root.

Local Open Scope string_scope.
Definition ex_graph (s : string) : option (list string) :=
  if s =? "r" then Some ["a"; "x"; "b"] else if s =? "a" then Some ["y"; "z"]
  else if s =? "b" then Some ["w"] else None.
Definition ex_names : stree := SNd "r" [SNd "a" [SLf "y"; SLf "z"]; SLf "x"; SNd "b" [SLf "w"]].
Example C13_example :
  unfolds ex_graph ex_names /\ NoDup (snames ex_names) /\
  match generate ex_graph 3 (@nil (obj Z_star)) "r" with
  | Ok (h, r) => r = 0 /\ length h = 7 /\
      oacc (hget h 0) = [(0, (1, 0)); (1, (2, 0)); (2, (3, 0))]%nat /\
      oname (hget h 1) = Some "a" /\ oacc (hget h 1) = [(0, (0, 0)); (1, (5, 0)); (2, (6, 0))]%nat /\
      visitor 3 h 0 None true = Ok [0; 1; 5; 6; 2; 3; 4]%nat
  | Raise _ => False
  end.
Proof.
  split. { repeat (constructor; try reflexivity). }
  split. { cbn. repeat constructor; cbn; intuition discriminate. }
  vm_compute. repeat split.
Qed.
(** A name listed twice as a child is built twice, and the copy built later starts
    counting its axes where the other one stopped: the network is incomplete. *)
Definition ex_twice (s : string) : option (list string) :=
  if s =? "r" then Some ["c"; "c"] else if s =? "c" then Some ["x"] else None.
Example C13_example_name_twice :
  match generate ex_twice 9 (@nil (obj Z_star)) "r" with
  | Ok (h, _) => map (@oname Z_star) h = [Some "r"; Some "c"; Some "c"; Some "x"; Some "x"] /\
      map fst (oacc (hget h 2)) = [0; 1]%nat /\ map fst (oacc (hget h 1)) = [0; 2]%nat /\
      check_completness h 2 false = Ok tt /\ check_completness h 1 false = Raise RuntimeError
  | Raise _ => False
  end.
Proof. vm_compute. repeat split. Qed.
