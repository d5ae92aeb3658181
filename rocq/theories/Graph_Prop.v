(** Properties C09, C10, C11, C12. *)
From Coq Require Import String List Arith Bool Lia Permutation.
From Verif Require Import Py Alg ListX NdArray_Model Net_Model Net_Spec Tools_Spec Trav_Proof Acyc_Proof Link_Spec Link_Proof.
Import ListNotations.
Local Open Scope nat_scope.
Open Scope list_scope.

(** A small network for the examples: 0 is the root, 1 an inner node below it,
    2, 3 the leaves of 1, 4 a leaf of 0. *)
Definition ex_bare : heap Z_star :=
  [new_tensor (Some "0"%string) None None false; new_tensor (Some "1"%string) None (Some 0) false;
   new_leaf (Some "2"%string) None; new_leaf (Some "3"%string) None; new_leaf (Some "4"%string) None].
Definition ex_net : heap Z_star :=
  link (link (link (link ex_bare 0 0 1 0) 0 1 4 0) 1 1 2 0) 1 2 3 0.
Definition ex_tree : tree := Nd 0 [(0, Nd 1 [(1, Lf 2, 0); (2, Lf 3, 0)], 0); (1, Lf 4, 0)].

Lemma ex_hangs : hangs ex_net None ex_tree.
Proof.
  apply hangs_root; [reflexivity|reflexivity| |].
  - cbn. repeat constructor; cbn; intuition discriminate.
  - repeat constructor; cbn.
    + apply (hangs_node _ _ 1 0 (0, 0) [] [(1, Lf 2, 0); (2, Lf 3, 0)]);
        [reflexivity|reflexivity| |].
      * cbn. repeat constructor; cbn; intuition discriminate.
      * repeat constructor.
Qed.

Lemma ex_dicts : dicts_ok ex_net.
Proof.
  intros n. destruct n as [|[|[|[|[|n]]]]]; cbn; try (repeat constructor).
  destruct n; constructor.
Qed.

Lemma ex_symmetric : symmetric ex_net.
Proof.
  intros a i b j H. unfold points in *.
  destruct a as [|[|[|[|[|a]]]]]; cbn in H;
    try (destruct a; destruct H);
    repeat (destruct H as [H|H]; [inversion H; subst; cbn; auto|]); destruct H.
Qed.

(** ** C09: links *)
Theorem C09_link_free_slots :
  forall (K : StarRing) (h : heap K) a i b j,
    dicts_ok h -> symmetric h -> a < length h -> b < length h -> (a, i) <> (b, j) ->
    free h a i -> free h b j ->
    dicts_ok (link h a i b j) /\ symmetric (link h a i b j) /\ same_but_links h (link h a i b j) /\
    forall x k y l, points (link h a i b j) x k y l <->
      points h x k y l \/ (x, k, y, l) = (a, i, b, j) \/ (x, k, y, l) = (b, j, a, i).
Proof. exact link_free_symmetric. Qed.
Print Assumptions C09_link_free_slots.

Theorem C09_unlink_removes_pair :
  forall (K : StarRing) (h : heap K) a i b j,
    dicts_ok h -> (a, i) <> (b, j) -> points h a i b j -> points h b j a i ->
    exists h', unlink h a i b j = Ok h' /\ dicts_ok h' /\ same_but_links h h' /\
      forall x k y l, points h' x k y l <-> (x, k) <> (a, i) /\ (x, k) <> (b, j) /\ points h x k y l.
Proof. exact unlink_ok. Qed.
Print Assumptions C09_unlink_removes_pair.

Theorem C09_unlink_absent_raises :
  forall (K : StarRing) (h : heap K) a i b j,
    dicts_ok h -> ~ (points h a i b j /\ points h b j a i) ->
    unlink h a i b j = Raise KeyError \/ unlink h a i b j = Raise RuntimeError.
Proof. exact unlink_absent. Qed.
Print Assumptions C09_unlink_absent_raises.

Theorem C09_refused_unlink_changes_nothing :
  forall (K : StarRing) (h : heap K) a i b j e,
    dicts_ok h -> (a, i) <> (b, j) ->
    snd (unlink_run h a i b j) = Raise e -> fst (unlink_run h a i b j) = h.
Proof. exact unlink_refused. Qed.
Print Assumptions C09_refused_unlink_changes_nothing.

Theorem C09_history_symmetric :
  forall (K : StarRing) (h h' : heap K),
    history h h' -> dicts_ok h -> symmetric h -> dicts_ok h' /\ symmetric h'.
Proof. exact history_symmetric. Qed.
Print Assumptions C09_history_symmetric.

Theorem C09_link_occupied_dangles :
  forall (K : StarRing) (h : heap K) a i b j c k,
    dicts_ok h -> a < length h -> b < length h -> (a, i) <> (b, j) ->
    points h a i c k -> points h c k a i -> (c, k) <> (a, i) -> (c, k) <> (b, j) ->
    let h' := link h a i b j in
    points h' a i b j /\ points h' c k a i /\ ~ points h' a i c k /\ ~ symmetric h'.
Proof. exact link_occupied. Qed.
Print Assumptions C09_link_occupied_dangles.

(** Removing a link that is not there: the message of [unlink_to] is never reached. *)
Theorem C09_unlink_to_missing :
  forall (K : StarRing) (h : heap K) n i fast,
    free h n i -> dicts_ok h ->
    unlink_to h n i fast = Raise (if fast then KeyError else UnboundLocalError).
Proof. exact unlink_to_fast_missing. Qed.
Print Assumptions C09_unlink_to_missing.

Example C09_example_link :
  dicts_ok ex_net /\ symmetric ex_net /\ free ex_net 0 2 /\ free ex_net 2 1 /\
  oacc (hget (link ex_net 0 2 2 1) 0) = [(0, (1, 0)); (1, (4, 0)); (2, (2, 1))].
Proof.
  split; [exact ex_dicts|]. split; [exact ex_symmetric|].
  repeat split; try (intros b j H; unfold points in H; cbn in H; intuition discriminate).
Qed.
Example C09_example_unlink :
  points ex_net 0 0 1 0 /\ points ex_net 1 0 0 0 /\
  (exists h', unlink ex_net 0 0 1 0 = Ok h' /\ oacc (hget h' 0) = [(1, (4, 0))]) /\
  unlink ex_net 0 0 1 1 = Raise RuntimeError /\ unlink ex_net 0 2 1 1 = Raise KeyError.
Proof. repeat split; try (cbn; auto; fail). eexists. split; reflexivity. Qed.
Example C09_example_occupied :
  points ex_net 0 0 1 0 /\ oacc (hget (link ex_net 0 0 4 0) 1) = oacc (hget ex_net 1) /\
  oacc (hget (link ex_net 0 0 4 0) 0) = [(0, (4, 0)); (1, (4, 0))].
Proof. repeat split. cbn; auto. Qed.
Example C09_example_history : history ex_net (link ex_net 0 2 2 1).
Proof.
  apply hist_link; [constructor|cbn; lia|cbn; lia|discriminate| |];
  intros b j H; unfold points in H; cbn in H; intuition discriminate.
Qed.

(** ** C10: check_completness *)
Theorem C10_accepts_exactly_complete :
  forall (K : StarRing) (h : heap K) n strict,
    dicts_ok h -> (check_completness h n strict = Ok tt <-> complete_at h n strict).
Proof. exact check_completness_ok. Qed.
Print Assumptions C10_accepts_exactly_complete.

Example C10_example :
  check_completness ex_net 1 false = Ok tt /\
  check_completness (link ex_net 1 4 4 1) 1 false = Raise RuntimeError /\
  check_completness (link ex_net 0 0 4 0) 1 false = Raise RuntimeError /\
  check_completness ex_net 1 true = Raise RuntimeError.
Proof. repeat split. Qed.

(** ** C11: visitor *)
Theorem C11_visits_subtree_once :
  forall (K : StarRing) (h : heap K) t up fuel leaf,
    hangs h up t -> height t <= fuel ->
    visitor fuel h (top t) (option_map fst up) leaf = Ok (if leaf then ids t else nids t).
Proof. exact visitor_hangs. Qed.
Print Assumptions C11_visits_subtree_once.

Theorem C11_no_object_twice :
  forall (K : StarRing) (h : heap K) t,
    hangs h None t -> no_self_slot h -> NoDup (ids t).
Proof. intros K h t H N. exact (hangs_nodup K h t N H). Qed.
Print Assumptions C11_no_object_twice.

Theorem C11_parents_first :
  forall t a i b j, In (a, i, b, j) (edges t) -> before a b (ids t).
Proof. exact edges_before. Qed.
Print Assumptions C11_parents_first.

Theorem C11_whole_network :
  forall (K : StarRing) (h : heap K) t m fuel,
    hangs h None t -> In m (nids t) -> length (ids t) <= fuel ->
    exists l, visitor fuel h m None true = Ok l /\ Permutation l (ids t).
Proof. exact visitor_whole. Qed.
Print Assumptions C11_whole_network.

(** The objects of the tree are those that can be reached along links. *)
Theorem C11_tree_is_reachable_set :
  forall (K : StarRing) (h : heap K) t x,
    hangs h None t -> (reach (linked h) (top t) x <-> In x (ids t)).
Proof. exact reach_ids. Qed.
Print Assumptions C11_tree_is_reachable_set.

Example C11_example :
  hangs ex_net None ex_tree /\ no_self_slot ex_net /\ NoDup (ids ex_tree) /\
  visitor 3 ex_net 0 None true = Ok [0; 1; 2; 3; 4] /\
  visitor 3 ex_net 0 None false = Ok [0; 1] /\
  visitor 3 ex_net 1 None true = Ok [1; 0; 4; 2; 3].
Proof.
  split; [exact ex_hangs|]. split; [|split; [|repeat split]].
  - intros n i H. do 6 (destruct n as [|n]; [cbn in H; intuition (try discriminate; congruence)|]).
    destruct n; exact H.
  - cbn. repeat constructor; cbn; intuition discriminate.
Qed.

(** ** C12: edge visitors *)
Theorem C12_linkage_visitor :
  forall (K : StarRing) (h : heap K) t up fuel leaf,
    hangs h up t -> height t <= fuel ->
    linkage_visitor fuel h (top t) (option_map fst up) leaf false
    = Ok (if leaf then edges t else inner_edges t).
Proof. exact linkage_hangs. Qed.
Print Assumptions C12_linkage_visitor.

Theorem C12_edges_once :
  forall t, NoDup (ids t) ->
    NoDup (edges t) /\ length (edges t) = length (ids t) - 1 /\
    map (fun e => snd (fst e)) (edges t) = tl (ids t).
Proof.
  intros t H. split; [now apply edges_nodup|]. split; [apply edges_length|apply edges_lower].
Qed.
Print Assumptions C12_edges_once.

Theorem C12_decorated_is_euler_tour :
  forall (K : StarRing) (h : heap K) t up fuel leaf,
    hangs h up t -> height t <= fuel ->
    exists l, decorated_visitor fuel h (top t) (option_map fst up) leaf = Ok l /\
      nested l /\ walk (top t) (map snd l) (top t) /\
      map snd (filter (fun x => negb (fst x)) l) = (if leaf then edges t else inner_edges t) /\
      Permutation (map snd (filter fst l)) (map rev_edge (if leaf then edges t else inner_edges t)).
Proof.
  intros K h t up fuel leaf H Hf. exists (tour leaf t). split; [now apply decorated_hangs|].
  split; [apply tour_nested|]. split; [apply tour_walk|].
  split; [apply tour_down|apply tour_up].
Qed.
Print Assumptions C12_decorated_is_euler_tour.

Theorem C12_directed_only_at_start :
  forall (K : StarRing) (h : heap K) n ks fuel up,
    hangs h up (Nd n ks) -> height (Nd n ks) <= fuel -> NoDup (ids (Nd n ks)) ->
    exists l, linkage_visitor fuel h n (option_map fst up) true true = Ok l /\
      (forall e, In e (edges (Nd n ks)) -> In e l) /\
      forall a i b j, In (a, i, b, j) (edges (Nd n ks)) -> (In (b, j, a, i) l <-> a = n).
Proof. exact directed_reverses. Qed.
Print Assumptions C12_directed_only_at_start.

Example C12_example :
  linkage_visitor 3 ex_net 0 None true false
  = Ok [(0, 0, 1, 0); (1, 1, 2, 0); (1, 2, 3, 0); (0, 1, 4, 0)] /\
  decorated_visitor 3 ex_net 0 None false
  = Ok [(false, (0, 0, 1, 0)); (true, (1, 0, 0, 0))] /\
  linkage_visitor 3 ex_net 0 None true true
  = Ok [(0, 0, 1, 0); (1, 1, 2, 0); (1, 2, 3, 0); (1, 0, 0, 0); (0, 1, 4, 0); (4, 0, 0, 1)].
Proof. repeat split. Qed.
