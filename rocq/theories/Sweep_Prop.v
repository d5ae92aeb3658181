(** Properties C18-C22. *)
From Coq Require Import List Arith ZArith Reals Bool Lia Lra Permutation.
From Verif Require Import Py Alg ListX NdArray_Model Net_Model Net_Spec Acyc_Proof Sweep_Model Sweep_Spec
  Sweep_Proof Unite_Proof Rsplit_Proof Ord.
Import ListNotations.
Local Open Scope nat_scope.
Local Open Scope list_scope.

(** A network with three inner tensors: 0 has the children 1 and 2, and each has
    one leaf. *)
Definition sw_node (axis : option nat) acc : obj Z_star := mkObj None false None None axis false acc [].
Definition sw_leaf acc : obj Z_star := mkObj None true None None None false acc [].
Definition sw_heap : heap Z_star :=
  [sw_node None [(0, (1, 0)); (1, (2, 0)); (2, (3, 0))];
   sw_node (Some 0) [(0, (0, 0)); (1, (4, 0))];
   sw_node (Some 0) [(0, (0, 1)); (1, (5, 0))];
   sw_leaf [(0, (0, 2))]; sw_leaf [(0, (1, 1))]; sw_leaf [(0, (2, 1))]].
Definition sw_t : tree := Nd 0 [(0, Nd 1 [(1, Lf 4, 0)], 0); (1, Nd 2 [(1, Lf 5, 0)], 0); (2, Lf 3, 0)].

Lemma sw_hangs : hangs sw_heap None sw_t.
Proof.
  apply hangs_root; [reflexivity|reflexivity|cbn; repeat constructor; cbn; intuition discriminate|].
  repeat constructor; cbn [k_t k_i k_j fst snd].
  - apply (hangs_node _ _ 1 0 (0, 0) [] [(1, Lf 4, 0)]); try reflexivity; cbn; repeat constructor; cbn; intuition discriminate.
  - apply (hangs_node _ _ 2 0 (0, 1) [] [(1, Lf 5, 0)]); try reflexivity; cbn; repeat constructor; cbn; intuition discriminate.
Qed.
Lemma sw_no_self : no_self_slot sw_heap.
Proof.
  intros n i H. unfold sw_heap, hget in H.
  do 6 (destruct n as [|n]; [cbn in H; repeat (destruct H as [H|H]; [inversion H|]); destruct H|]).
  destruct n; destruct H.
Qed.
Lemma sw_oriented : oriented sw_heap None sw_t.
Proof. repeat constructor. Qed.
Ltac sw_hyps := split; [apply sw_hangs|split; [apply sw_no_self|split; [apply sw_oriented|]]].

(** * C18 *)
Theorem C18_forward_sweep :
  forall (K : StarRing) (T : Type) (opp : T -> T) (h : heap K) t fuel tau,
    hangs h None t -> no_self_slot h -> oriented h None t -> height t <= fuel -> inner t = true ->
    exists l, split_step opp fuel tau false (h, top t) = (l, Ok (h, top t)) /\
      follows (top t) l (top t) /\
      Permutation (node_props l) (map (fun n => (n, tau)) (nids t)) /\
      Permutation (bond_props l) (map (fun e => (rev_edge e, opp tau)) (inner_edges t)) /\
      pair_props l = [].
Proof. intros K T opp h t fuel tau H N O Hf Hi. apply split_step_ok; auto. eapply hangs_nodup; eauto. Qed.
Print Assumptions C18_forward_sweep.

Theorem C18_backward_sweep :
  forall (K : StarRing) (T : Type) (opp : T -> T) (h : heap K) t fuel tau,
    hangs h None t -> no_self_slot h -> oriented h None t -> height t <= fuel -> inner t = true ->
    exists l, split_step opp fuel tau true (h, top t) = (l, Ok (h, top t)) /\
      follows (top t) l (top t) /\
      Permutation (node_props l) (map (fun n => (n, tau)) (nids t)) /\
      Permutation (bond_props l) (map (fun e => (e, opp tau)) (inner_edges t)) /\
      pair_props l = [].
Proof. intros K T opp h t fuel tau H N O Hf Hi. apply split_step_ok; auto. eapply hangs_nodup; eauto. Qed.
Print Assumptions C18_backward_sweep.

Example C18_example :
  hangs sw_heap None sw_t /\ no_self_slot sw_heap /\ oriented sw_heap None sw_t /\
  split_step Z.opp 3 4%Z false (sw_heap, 0) =
    ([Shift (0, 0, 1, 0); Node 1 4%Z; Bond (1, 0, 0, 0) (-4)%Z;
      Shift (0, 1, 2, 0); Node 2 4%Z; Bond (2, 0, 0, 1) (-4)%Z; Node 0 4%Z], Ok (sw_heap, 0)) /\
  split_step Z.opp 3 4%Z true (sw_heap, 0) =
    ([Node 0 4%Z; Bond (0, 1, 2, 0) (-4)%Z; Node 2 4%Z; Shift (2, 0, 0, 1);
      Bond (0, 0, 1, 0) (-4)%Z; Node 1 4%Z; Shift (1, 0, 0, 0)], Ok (sw_heap, 0)).
Proof. sw_hyps. repeat split; reflexivity. Qed.

(** * C19 *)
Theorem C19_second_order_symmetric :
  forall (K : StarRing) (T : Type) (opp half_of : T -> T) (h : heap K) t fuel tau,
    hangs h None t -> no_self_slot h -> oriented h None t -> height t <= fuel -> inner t = true ->
    exists l, snd_order_step half_of (split_step opp fuel) tau (h, top t) = (l, Ok (h, top t)) /\
      symmetric l /\ follows (top t) l (top t) /\
      Permutation (node_props l) (map (fun n => (n, half_of tau)) (nids t ++ nids t)) /\
      Permutation (bond_props l)
        (map (fun e => (e, opp (half_of tau))) (map rev_edge (inner_edges t) ++ inner_edges t)) /\
      pair_props l = [].
Proof. intros K T opp half_of h t fuel tau H N O Hf Hi. apply split_snd; auto. eapply hangs_nodup; eauto. Qed.
Print Assumptions C19_second_order_symmetric.

Example C19_example :
  hangs sw_heap None sw_t /\ no_self_slot sw_heap /\ oriented sw_heap None sw_t /\
  props (fst (snd_order_step Z.div2 (split_step Z.opp 3) 4%Z (sw_heap, 0))) =
    [Node 1 2%Z; Bond (1, 0, 0, 0) (-2)%Z; Node 2 2%Z; Bond (2, 0, 0, 1) (-2)%Z; Node 0 2%Z;
     Node 0 2%Z; Bond (0, 1, 2, 0) (-2)%Z; Node 2 2%Z; Bond (0, 0, 1, 0) (-2)%Z; Node 1 2%Z].
Proof. sw_hyps. repeat split; reflexivity. Qed.

(** * C20 *)
Theorem C20_forward_two_site :
  forall (K : StarRing) (T : Type) (opp : T -> T) (h : heap K) t fuel tau,
    hangs h None t -> no_self_slot h -> oriented h None t -> height t <= fuel -> inner t = true ->
    exists l, unite_step opp fuel tau false (h, top t) = (l, Ok (h, top t)) /\
      follows (top t) l (top t) /\
      Permutation (pair_props l) (map (fun e => (rev_edge e, tau)) (inner_edges t)) /\
      Permutation (node_props l) (flat_map (fun n => repeat (n, opp tau) (degree t n - 1)) (nids t)) /\
      bond_props l = [].
Proof. intros K T opp h t fuel tau H N O Hf Hi. apply unite_step_ok; auto. eapply hangs_nodup; eauto. Qed.
Print Assumptions C20_forward_two_site.

Theorem C20_single_tensor_not_propagated :
  forall (K : StarRing) (T : Type) (opp : T -> T) (h : heap K) t fuel tau backward,
    hangs h None t -> no_self_slot h -> oriented h None t -> height t <= fuel ->
    nids t = [top t] -> inner t = true ->
    unite_step opp fuel tau backward (h, top t) = ([], Ok (h, top t)).
Proof.
  intros K T opp h t fuel tau b H N O Hf Hn Hi. apply unite_step_single; auto. eapply hangs_nodup; eauto.
Qed.
Print Assumptions C20_single_tensor_not_propagated.

Example C20_example :
  hangs sw_heap None sw_t /\ no_self_slot sw_heap /\ oriented sw_heap None sw_t /\
  degree sw_t 0 = 2 /\ degree sw_t 1 = 1 /\
  unite_step Z.opp 3 4%Z false (sw_heap, 0) =
    ([Pair (1, 0, 0, 0) 4%Z; Node 0 (-4)%Z; Pair (2, 0, 0, 1) 4%Z], Ok (sw_heap, 0)) /\
  unite_step (K := Z_star) Z.opp 3 4%Z false ([sw_node None [(0, (1, 0))]; sw_leaf [(0, (0, 0))]], 0) =
    ([], Ok ([sw_node None [(0, (1, 0))]; sw_leaf [(0, (0, 0))]], 0)).
Proof. sw_hyps. repeat split; reflexivity. Qed.

(** * C21 *)
Theorem C21_backward_two_site_raises :
  forall (K : StarRing) (T : Type) (opp : T -> T) (h : heap K) t fuel tau,
    hangs h None t -> no_self_slot h -> oriented h None t -> height t <= fuel -> inner_edges t <> [] ->
    unite_step opp fuel tau true (h, top t) = ([], Raise RuntimeError).
Proof. intros K T opp h t fuel tau H N O Hf Hi. apply unite_backward_raises; auto. eapply hangs_nodup; eauto. Qed.
Print Assumptions C21_backward_two_site_raises.

(** The second-order two-site step does the forward half and then raises. *)
Theorem C21_second_order_two_site_raises :
  forall (K : StarRing) (T : Type) (opp half_of : T -> T) (h : heap K) t fuel tau,
    hangs h None t -> no_self_slot h -> oriented h None t -> height t <= fuel -> inner_edges t <> [] ->
    exists l, snd_order_step half_of (unite_step opp fuel) tau (h, top t) = (l, Raise RuntimeError) /\ l <> [].
Proof. intros K T opp half_of h t fuel tau H N O Hf Hi. apply unite_snd_raises; auto. eapply hangs_nodup; eauto. Qed.
Print Assumptions C21_second_order_two_site_raises.

Example C21_example :
  hangs sw_heap None sw_t /\ no_self_slot sw_heap /\ oriented sw_heap None sw_t /\ inner_edges sw_t <> [] /\
  unite_step Z.opp 3 4%Z true (sw_heap, 0) = ([], Raise RuntimeError).
Proof. sw_hyps. split; [discriminate|reflexivity]. Qed.

(** * C22 *)
Theorem C22_first_order_is_the_sweep :
  forall (K : StarRing) (T : Type) (opp half_of : T -> T) (h : heap K) t fuel tau,
    hangs h None t -> no_self_slot h -> oriented h None t -> height t <= fuel -> inner t = true ->
    r_split_step opp half_of false fuel tau (h, top t) = split_step opp fuel tau false (h, top t).
Proof.
  intros K T opp half_of h t fuel tau H N O Hf Hi. assert (ND : NoDup (ids t)) by (eapply hangs_nodup; eauto).
  rewrite split_step_run by auto. unfold r_split_step. cbn [snd].
  rewrite (rtr_run K T opp half_of false t None) by auto. now rewrite rtr_first.
Qed.
Print Assumptions C22_first_order_is_the_sweep.

(** Times in a ring with halves: the totals, in first and second order. *)
Theorem C22_totals :
  forall (K R : StarRing) (half_of : R -> R) (h : heap K) t fuel tau snd_order,
    (forall x, radd (half_of x) (half_of x) = x) ->
    hangs h None t -> no_self_slot h -> oriented h None t -> height t <= fuel -> inner t = true ->
    exists l, r_split_step ropp half_of snd_order fuel tau (h, top t) = (l, Ok (h, top t)) /\
      follows (top t) l (top t) /\
      (forall n, In n (nids t) -> node_time n l = tau) /\
      (forall e, In e (inner_edges t) -> bond_time e l = ropp tau) /\
      (forall e, In e l -> match e with
                           | Node n _ => In n (nids t)
                           | Bond (a, _, b, _) _ | Pair (a, _, b, _) _ | Shift (a, _, b, _) =>
                               In a (nids t) /\ In b (nids t)
                           end).
Proof.
  intros K R half_of h t fuel tau so HH H N O Hf Hi. assert (ND : NoDup (ids t)) by (eapply hangs_nodup; eauto).
  exists (rtr R ropp half_of so t tau). split; [|split; [|split; [|split]]].
  - unfold r_split_step. cbn [snd]. now apply (rtr_run K R ropp half_of so t None).
  - apply rtr_follows.
  - now apply rtr_totals.
  - now apply rtr_totals.
  - apply rtr_inside.
Qed.
Print Assumptions C22_totals.

Theorem C22_second_order_symmetric_iff_chain :
  forall (K : StarRing) (T : Type) (opp half_of : T -> T) (h : heap K) t fuel tau,
    hangs h None t -> no_self_slot h -> oriented h None t -> height t <= fuel -> inner t = true ->
    exists l, r_split_step opp half_of true fuel tau (h, top t) = (l, Ok (h, top t)) /\
      (symmetric l <-> chain t).
Proof.
  intros K T opp half_of h t fuel tau H N O Hf Hi. assert (ND : NoDup (ids t)) by (eapply hangs_nodup; eauto).
  exists (rtr T opp half_of true t tau). split.
  - unfold r_split_step. cbn [snd]. now apply (rtr_run K T opp half_of true t None).
  - now apply rtr_symmetric.
Qed.
Print Assumptions C22_second_order_symmetric_iff_chain.

Example C22_example :
  hangs sw_heap None sw_t /\ no_self_slot sw_heap /\ oriented sw_heap None sw_t /\
  ~ chain sw_t /\ (forall x : R_star, @radd R_star (x / 2)%R (x / 2)%R = x) /\
  props (fst (r_split_step Z.opp Z.div2 true 3 4%Z (sw_heap, 0))) =
    [Node 1 2%Z; Bond (1, 0, 0, 0) (-2)%Z; Node 2 2%Z; Bond (2, 0, 0, 1) (-2)%Z; Node 0 4%Z;
     Bond (0, 0, 1, 0) (-2)%Z; Node 1 2%Z; Bond (0, 1, 2, 0) (-2)%Z; Node 2 2%Z].
Proof.
  sw_hyps. split; [|split].
  - cbn. lia.
  - intros x. cbn. lra.
  - reflexivity.
Qed.
