(** Properties C23, C24. *)
From Coq Require Import String List Arith ZArith Bool Lia.
From Verif Require Import Py Alg ListX NdArray_Model Contract_Model Net_Model Net_Spec Env_Spec Move_Spec
  Trav_Proof Sweep_Spec Sweep_Proof Link_Spec State_Spec State_Proof Env_Prop Move_Prop Cache_Model Cache_Spec Cache_Proof CacheExact_Proof CacheMove_Proof.
Import ListNotations.
Local Open Scope nat_scope.
Local Open Scope list_scope.

(** ** C23: stored environments are never stale *)

(** A program made of [_form_env], propagations of the root and moves of the root,
    the first being [_form_env].  Each call of [diff] by the solver returns what it
    returns when nothing is stored. *)
Theorem C23_stored_environments_do_not_matter :
  forall (K : StarRing) T (sys : system K T) fuel csvd1 csvd2 (s0 : state K) R A time cs log out,
    f_list K T sys = None \/ f_list K T sys = Some [] ->
    some_svd csvd1 -> some_svd csvd2 ->
    network (sheap K s0) R A -> top R = sroot K s0 -> S (length (ids R)) <= fuel ->
    exec K T sys fuel csvd1 csvd2 (Form K T time :: cs) s0 = (log, out) -> inner_moves log ->
    forall s cache t y, In (Called K T s cache t y) log ->
      result (diff K T sys fuel (sroot K s) cache t y s) = result (diff K T sys fuel (sroot K s) false t y (forget s)).
Proof.
  intros K T sys fuel csvd1 csvd2 s0 R A time cs log out Ef S1 S2 N Et Hf E IM s cache t y Hin.
  destruct (program_good K T sys fuel csvd1 csvd2 S1 S2 s0 R A time cs log out N Et Hf E IM s cache t y Hin) as (R' & Rd).
  eapply diff_exact; eauto.
Qed.
Print Assumptions C23_stored_environments_do_not_matter.

(** When a call of [diff] starts, every entry of [env_] for a term of [h_list] and an
    axis that leads away from the root is the environment computed anew. *)
Theorem C23_entries_are_fresh :
  forall (K : StarRing) T (sys : system K T) fuel csvd1 csvd2 (s0 : state K) R A time cs log out,
    some_svd csvd1 -> some_svd csvd2 ->
    network (sheap K s0) R A -> top R = sroot K s0 -> S (length (ids R)) <= fuel ->
    exec K T sys fuel csvd1 csvd2 (Form K T time :: cs) s0 = (log, out) -> inner_moves log ->
    forall s cache t y, In (Called K T s cache t y) log ->
      exists R', hangs (sheap K s) None R' /\ top R' = sroot K s /\
        (forall i, i < order (sheap K s) (sroot K s) -> exists x j, In (sroot K s, i, x, j) (edges R')) /\
        forall n term b i x j v, nth_error (h_list K T sys) n = Some term -> In (b, i, x, j) (edges R') ->
          senv K s n b i = Some v -> fresh_env fuel (sheap K s) b term i = Ok v.
Proof.
  intros K T sys fuel csvd1 csvd2 s0 R A time cs log out S1 S2 N Et Hf E IM s cache t y Hin.
  destruct (program_good K T sys fuel csvd1 csvd2 S1 S2 s0 R A time cs log out N Et Hf E IM s cache t y Hin) as (R' & Rd).
  exists R'. pose proof (rd_hangs K T sys fuel R' s Rd) as H. split; auto.
  destruct (rd_top K T sys fuel R' s Rd) as (ks & ER & Ek). split; [rewrite ER; auto|]. split.
  - intros i Hi. rewrite (kids_order K R' _ ks _ ER H) in Hi.
    assert (Ii : In i (map k_i ks)) by (rewrite Ek; apply in_seq; lia). apply in_map_iff in Ii. destruct Ii as (k & <- & Hk).
    exists (top (k_t k)), (k_j k). rewrite ER. cbn [edges]. apply in_flat_map. exists k. split; auto. left. auto.
  - intros n term b i x j v Ht He Ev. eapply edge_fresh; eauto.
Qed.
Print Assumptions C23_entries_are_fresh.

(** [diff] leaves names, links, parent axes and the arrays of all tensors as they were
    (those of the leaves belong to the terms). *)
Theorem C23_diff_keeps_arrays :
  forall (K : StarRing) T (sys : system K T) fuel t cache time y s ans s',
    diff K T sys fuel t cache time y s = Ok (ans, s') ->
    length (sheap K s') = length (sheap K s) /\ sroot K s' = sroot K s /\
    forall x, let o := hget (sheap K s) x in let o' := hget (sheap K s') x in
      oname o' = oname o /\ oleaf o' = oleaf o /\ oaxis o' = oaxis o /\ onorm o' = onorm o /\ oacc o' = oacc o /\
      (oleaf o = false -> oarr o' = oarr o).
Proof.
  intros K T sys fuel t cache time y s ans s' E. pose proof (diff_near K T sys fuel _ _ _ _ _ _ _ E) as (_ & R & _).
  apply diff_core in E. destruct E as (L & H). split; auto.
Qed.
Print Assumptions C23_diff_keeps_arrays.

(** A network over the integers: tensors 0 and 1 of shape (2, 2), linked by axis 0,
    with leaves 2 and 3.  The array of the root 0 is diag(1, 0). *)
Definition zm (a b c d : Z) : arr Z_star := mkArr [2; 2] ([a; b; c; d] : list Z_star).
Definition tw_a (n : nat) : arr Z_star := match n with 0 => zm 1 0 0 0 | _ => zm 1 0 0 1 end.
Definition tw_h : heap Z_star :=
  [mkObj (Some "0"%string) false (Some (tw_a 0)) None None true [(0, (1, 0)); (1, (2, 0))] [];
   mkObj (Some "1"%string) false (Some (tw_a 1)) None (Some 0) true [(0, (0, 0)); (1, (3, 0))] [];
   mkObj (Some "2"%string) true None None None false [(0, (0, 1))] [];
   mkObj (Some "3"%string) true None None None false [(0, (1, 1))] []].
Definition tw_t : tree := Nd 0 [(0, Nd 1 [(1, Lf 3, 0)], 0); (1, Lf 2, 0)].
Lemma tw_network : network tw_h tw_t tw_a.
Proof.
  split; [|split; [|split; [|split; [|split; [|split]]]]].
  - intros n. destruct n as [|[|[|[|n]]]]; [cbn; repeat constructor..|]. unfold tw_h, hget. destruct n; cbn; constructor.
  - intros n i e j H. unfold points in *. destruct n as [|[|[|[|n]]]]; cbn in H; [..|destruct n; destruct H];
    repeat (destruct H as [H|H]; [injection H as <- <- <-; cbn; auto|]); destruct H.
  - intros n i H. destruct n as [|[|[|[|n]]]]; cbn in H; try (destruct n; exact H);
    repeat (destruct H as [H|H]; [inversion H|]); exact H.
  - apply hangs_root; [reflexivity|reflexivity|cbn; repeat constructor; cbn; intuition discriminate|].
    repeat constructor. apply (hangs_node _ _ 1 0 (0, 0) [] [(1, Lf 3, 0)]); [reflexivity|reflexivity| |repeat constructor].
    cbn. repeat constructor; cbn; intuition discriminate.
  - repeat constructor.
  - constructor; [reflexivity|repeat constructor|exact I|reflexivity|]. constructor; [|repeat constructor].
    constructor; [reflexivity|repeat constructor|cbn; lia|reflexivity|repeat constructor].
  - intros n Hn. cbn in Hn. destruct Hn as [<-|[<-|[]]]; (split; [reflexivity|eexists; split; reflexivity]).
Qed.
Lemma plain_some {K : StarRing} : some_svd (@plain_svd K).
Proof. intros m p q W E Hp Hq. destruct (plain_exact K m p q W E Hp Hq) as (u & s & v & r & X). exists u, s, v, r. tauto. Qed.
Definition tw_s : state Z_star := mkState Z_star tw_h 0 (no_env Z_star).
Definition y1 : list Z_star := ([1; 2; 3; 4]%Z : list Z_star).
Definition y2 : list Z_star := ([2; 0; 1; 1]%Z : list Z_star).
(** One [split_step]: root 0, to tensor 1, back. *)
Definition one_step (y y' : list Z_star) : list (command Z_star nat) :=
  [Form _ _ 0; Move _ _ 0 None false;
   Prop_ _ _ true [Diff _ _ 0 y; Update _ _ y; Diff _ _ 0 y'; Update _ _ y'];
   Move _ _ 0 (Some (true, [Diff _ _ 1 y; Update _ _ y'])) false;
   Prop_ _ _ true [Diff _ _ 1 y; Update _ _ y; Diff _ _ 2 y']].
(** What [diff] returns at the recorded calls, with and without stored entries, and
    how many entries there are for tensors 0 and 1. *)
Definition answers {K T} (sys : system K T) fuel (l : list (record K T)) : list (option (list K) * option (list K) * nat) :=
  flat_map (fun x => match x with
    | Called _ _ s c t y =>
        let f r := match r with Ok z => Some z | Raise _ => None end in
        [(f (result (diff K T sys fuel (sroot K s) c t y s)), f (result (diff K T sys fuel (sroot K s) false t y (forget s))),
          length (filter (fun k => negb (is_none (senv K s (fst k) (fst (snd k)) (snd (snd k)))))
                         (list_prod (seq 0 3) (list_prod [0; 1] (seq 0 2)))))]
    | Moved _ _ _ _ => []
    end) l.
Definition sz : arr Z_star := zm 1 0 0 (-1).
Definition tw_sys : system Z_star nat := mkSystem Z_star nat [[(2, sz)]; [(2, zm 0 1 1 0); (3, sz)]] None.
Definition st_sys : system Z_star nat := mkSystem Z_star nat [] (Some [[(2, fun _ => sz)]]).
(** The moves in a record: links of the root, axis, and that tensors 0 and 1 are no leaves. *)
Definition moves_of (l : list (record Z_star nat)) :=
  map (fun x => match x with
    | Called _ _ _ _ _ _ => None
    | Moved _ _ s i => Some (oacc (hget (sheap _ s) (sroot _ s)), i, map (fun x => oleaf (hget (sheap _ s) x)) [0; 1])
    end) l.
Definition tw_move (b : option bool) :=
  match b with
  | None => None
  | Some true => Some ([(0, (1, 0)); (1, (2, 0))], 0, [false; false])
  | Some false => Some ([(0, (0, 0)); (1, (3, 0))], 0, [false; false])
  end.
Lemma tw_inner l : moves_of l = map tw_move [Some true; None; None; Some false; None; None; None] -> inner_moves l.
Proof.
  intros E s i Hin.
  assert (X : In (Some (oacc (hget (sheap _ s) (sroot _ s)), i, map (fun x => oleaf (hget (sheap _ s) x)) [0; 1])) (moves_of l))
    by (apply in_map_iff; exists (Moved Z_star nat s i); auto).
  rewrite E in X. cbn [map In tw_move] in X. destruct X as [X|[X|[X|[X|[X|[X|[X|[]]]]]]]]; try discriminate X.
  - injection X as E1 E2 E3 E4. exists 1, 0. rewrite <- E1, <- E2. auto.
  - injection X as E1 E2 E3 E4. exists 0, 0. rewrite <- E1, <- E2. auto.
Qed.
Example C23_example :
  network (sheap _ tw_s) tw_t tw_a /\ top tw_t = sroot _ tw_s /\ S (length (ids tw_t)) <= 6 /\ some_svd (@plain_svd Z_star) /\
  match exec Z_star nat tw_sys 6 plain_svd plain_svd (one_step y1 y2) tw_s with
  | (l, Ok s) => inner_moves l /\ answers tw_sys 6 l =
      [(Some [4; -2; -2; -6], Some [4; -2; -2; -6], 0%nat); (Some [3; -1; 1; -1], Some [3; -1; 1; -1], 4%nat);
       (Some [3; -1; -1; -7], Some [3; -1; -1; -7], 0%nat); (Some [3; -1; -1; -7], Some [3; -1; -1; -7], 0%nat);
       (Some [2; 2; 0; -2], Some [2; 2; 0; -2], 4%nat)]%Z
  | _ => False
  end.
Proof.
  split; [apply tw_network|]. split; [reflexivity|]. split; [cbn; lia|]. split; [apply plain_some|].
  assert (X : match exec Z_star nat tw_sys 6 plain_svd plain_svd (one_step y1 y2) tw_s with
    | (l, Ok s) => (moves_of l, answers tw_sys 6 l) | (l, Raise _) => ([], []) end =
    (map tw_move [Some true; None; None; Some false; None; None; None],
      [(Some [4; -2; -2; -6], Some [4; -2; -2; -6], 0%nat); (Some [3; -1; 1; -1], Some [3; -1; 1; -1], 4%nat);
       (Some [3; -1; -1; -7], Some [3; -1; -1; -7], 0%nat); (Some [3; -1; -1; -7], Some [3; -1; -1; -7], 0%nat);
       (Some [2; 2; 0; -2], Some [2; 2; 0; -2], 4%nat)]%Z)) by (vm_compute; reflexivity).
  destruct (exec Z_star nat tw_sys 6 plain_svd plain_svd (one_step y1 y2) tw_s) as (l, [s|e]) eqn:E; [|discriminate X].
  injection X as X1 X2. split; auto. apply tw_inner; auto.
Qed.

(** ** C24: stored environments of time-dependent terms *)

(** [remove_env] keeps every entry whose number is not one of [h_list]. *)
Theorem C24_entries_of_f_list_are_kept :
  forall (K : StarRing) T (sys : system K T) ts (s : state K) n t i,
    length (h_list K T sys) <= n -> senv K (remove_env K T sys ts s) n t i = senv K s n t i.
Proof.
  intros K T sys ts s n t i Hn. unfold remove_env. cbn [with_env senv].
  assert (H : forall m, In m (seq 0 (length (h_list K T sys))) -> m <> n) by (intros m Hm; apply in_seq in Hm; lia).
  revert H. generalize (seq 0 (length (h_list K T sys))) as l. intros l. generalize (senv K s) as e. revert l.
  induction l as [|m l IH]; intros e H; cbn [fold_left]; auto. rewrite IH by (intros; apply H; right; auto).
  assert (Hm : m <> n) by (apply H; left; auto). clear IH H. revert e. induction ts as [|b ts IH]; intros e; cbn [fold_left]; auto.
  rewrite IH. clear IH. revert e. generalize (linkages (sheap K s) b) as x. induction x as [|y x IH]; intros e; cbn [fold_left]; auto.
  rewrite IH. unfold env_del, same_key. apply Nat.eqb_neq in Hm. rewrite Hm. auto.
Qed.
Print Assumptions C24_entries_of_f_list_are_kept.

(** There are a network, one time-dependent term and an exact factorisation such that
    one [split_step] reads an outdated environment: the same statements as in
    [C23_stored_environments_do_not_matter] give another result than without stored
    entries.  The term does not even vary in time. *)
Theorem C24_time_dependent_terms_stale :
  exists (K : StarRing) (sys : system K nat) fuel csvd (s0 : state K) R A time cs log s1 s cache t y z z',
    exact_svd csvd /\ network (sheap K s0) R A /\ top R = sroot K s0 /\ S (length (ids R)) <= fuel /\
    exec K nat sys fuel csvd csvd (Form K nat time :: cs) s0 = (log, Ok s1) /\ inner_moves log /\
    In (Called K nat s cache t y) log /\
    result (diff K nat sys fuel (sroot K s) cache t y s) = Ok z /\
    result (diff K nat sys fuel (sroot K s) false t y (forget s)) = Ok z' /\ z <> z'.
Proof.
  exists Z_star, st_sys, 6, plain_svd, tw_s, tw_t, tw_a, 0, (tl (one_step y1 y2)).
  assert (X : match exec Z_star nat st_sys 6 plain_svd plain_svd (one_step y1 y2) tw_s with
    | (l, Ok s) => (moves_of l, firstn 1 (answers st_sys 6 l)) | (l, Raise _) => ([], []) end =
    (map tw_move [Some true; None; None; Some false; None; None; None],
      [(Some [1; 2; 0; 0], Some [1; 2; -3; -4], 4%nat)]%Z)) by (vm_compute; reflexivity).
  change (Form Z_star nat 0 :: tl (one_step y1 y2)) with (one_step y1 y2).
  destruct (exec Z_star nat st_sys 6 plain_svd plain_svd (one_step y1 y2) tw_s) as (l, [s1|e]) eqn:E; [|discriminate X].
  injection X as X1 X2. assert (IM : inner_moves l) by (apply tw_inner; auto).
  destruct l as [|r0 [|r1 l]]; [discriminate X1|discriminate X1|]. destruct r0 as [? ? ? ?|s0 i0]; [discriminate X1|].
  destruct r1 as [s c t y|]; [|discriminate X1]. clear X1.
  cbn [answers flat_map app firstn] in X2. apply (f_equal (fun l => match l with x :: _ => fst x | [] => (None, None) end)) in X2. cbn [fst] in X2.
  apply pair_equal_spec in X2. destruct X2 as (Y1 & Y2).
  destruct (result (diff Z_star nat st_sys 6 (sroot Z_star s) c t y s)) as [z|] eqn:Ez; [|discriminate Y1].
  destruct (result (diff Z_star nat st_sys 6 (sroot Z_star s) false t y (forget s))) as [z'|] eqn:Ez'; [|discriminate Y2].
  exists (Moved Z_star nat s0 i0 :: Called Z_star nat s c t y :: l), s1, s, c, t, y, z, z'.
  split; [apply plain_exact|]. split; [apply tw_network|]. split; [reflexivity|]. split; [cbn; lia|]. split; [exact eq_refl|].
  split; auto. split; [right; left; auto|]. split; auto. split; auto. injection Y1 as ->. injection Y2 as ->. discriminate.
Qed.
Print Assumptions C24_time_dependent_terms_stale.

(** All the calls of that step. *)
Example C24_example :
  length (h_list _ _ st_sys) = 0 /\
  match exec Z_star nat st_sys 6 plain_svd plain_svd (one_step y1 y2) tw_s with
  | (l, Ok s) => map fst (answers st_sys 6 l) =
      [(Some [1; 2; 0; 0], Some [1; 2; -3; -4]); (Some [2; 0; 0; 0], Some [2; 0; -1; -1]);
       (Some [1; -2; 3; -4], Some [1; -2; 3; -4]); (Some [1; -2; 3; -4], Some [1; -2; 3; -4]);
       (Some [2; 0; 1; -1], Some [2; 0; 1; -1])]%Z
  | _ => False
  end.
Proof. vm_compute. split; reflexivity. Qed.
