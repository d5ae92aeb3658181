(** Links after [split] and [unite]. *)
From Coq Require Import String List Arith Bool Lia Permutation Sorting.Sorted.
From Verif Require Import Py Alg ListX NdArray_Model NdArray_Proof Contract_Model Contract_Spec Contract_Proof
  Net_Model Net_Spec Trav_Proof Link_Spec Link_Proof Move_Spec Split_Proof.
Import ListNotations.
Local Open Scope nat_scope.
Local Open Scope list_scope.
Local Open Scope py_scope.

Definition slots (es : list edge) : list half :=
  flat_map (fun e => let '(a, i, b, j) := e in [(a, i); (b, j)]) es.

Lemma in_slots es s : In s (slots es) <-> exists a i b j, In (a, i, b, j) es /\ (s = (a, i) \/ s = (b, j)).
Proof.
  unfold slots. rewrite in_flat_map. split.
  - intros ([[[a i] b] j] & H & [<-|[<-|[]]]); exists a, i, b, j; auto.
  - intros (a & i & b & j & H & E). exists (a, i, b, j). split; auto. cbn. destruct E; auto.
Qed.

Section Relink.
Variable K : StarRing.
Implicit Types h : heap K.

Lemma unlinkM_ok es : forall h, dicts_ok h -> symmetric h -> NoDup (slots es) ->
  (forall a i b j, In (a, i, b, j) es -> points h a i b j) ->
  exists h', unlinkM h es = Ok h' /\ dicts_ok h' /\ symmetric h' /\ same_but_links h h' /\
    forall x k y l, points h' x k y l <-> points h x k y l /\ ~ In (x, k) (slots es).
Proof.
  induction es as [|[[[a i] b] j] es IH]; intros h D Sy N P.
  - exists h. cbn. split; auto. split; auto. split; auto. split; [apply same_refl|]. tauto.
  - cbn [slots flat_map app] in N. fold (slots es) in N.
    inversion N as [|? ? N1 N2]; subst. inversion N2 as [|? ? N3 N4]; subst.
    assert (Hne : (a, i) <> (b, j)) by (intros E; apply N1; left; auto).
    assert (P1 : points h a i b j) by (apply P; left; auto).
    destruct (unlink_ok K h a i b j D Hne P1 (Sy _ _ _ _ P1)) as (h1 & E1 & _ & _ & _).
    destruct (unlink_symmetric K h a i b j h1 D Sy E1) as (D1 & S1 & M1 & _).
    destruct (unlink_ok K h a i b j D Hne P1 (Sy _ _ _ _ P1)) as (h1' & E1' & _ & _ & Q1).
    rewrite E1 in E1'. inversion E1'; subst h1'. clear E1'.
    destruct (IH h1 D1 S1 N4) as (h2 & E2 & D2 & S2 & M2 & Q2).
    { intros x k y l H. apply Q1. split; [|split; [|apply P; right; auto]].
      - intros E. inversion E; subst. apply N1. right. apply in_slots. exists a, i, y, l. auto.
      - intros E. inversion E; subst. apply N3. apply in_slots. exists b, j, y, l. auto. }
    exists h2. cbn [unlinkM]. rewrite E1. cbn [bind]. split; auto. split; auto. split; auto.
    split; [eapply same_trans; eauto|].
    intros x k y l. rewrite Q2, Q1. cbn [slots flat_map app]. fold (slots es). cbn [In]. intuition congruence.
Qed.

Lemma linkM_ok es : forall h, dicts_ok h -> symmetric h -> NoDup (slots es) ->
  (forall a i, In (a, i) (slots es) -> a < length h /\ free h a i) ->
  dicts_ok (linkM h es) /\ symmetric (linkM h es) /\ same_but_links h (linkM h es) /\
    forall x k y l, points (linkM h es) x k y l <->
      points h x k y l \/ In (x, k, y, l) es \/ In (y, l, x, k) es.
Proof.
  induction es as [|[[[a i] b] j] es IH]; intros h D Sy N P.
  - cbn. split; auto. split; auto. split; [apply same_refl|]. tauto.
  - cbn [slots flat_map app] in N, P. fold (slots es) in N, P.
    inversion N as [|? ? N1 N2]; subst. inversion N2 as [|? ? N3 N4]; subst.
    assert (Hne : (a, i) <> (b, j)) by (intros E; apply N1; left; auto).
    destruct (P a i) as (La & Fa); [left; auto|]. destruct (P b j) as (Lb & Fb); [right; left; auto|].
    destruct (link_free_symmetric K h a i b j D Sy La Lb Hne Fa Fb) as (D1 & S1 & M1 & Q1).
    cbn [linkM]. destruct (IH (link h a i b j) D1 S1 N4) as (D2 & S2 & M2 & Q2).
    { intros x k H. destruct (P x k) as (Lx & Fx); [right; right; auto|].
      split; [destruct M1 as (E & _); rewrite E; auto|].
      intros y l Hp. apply Q1 in Hp. destruct Hp as [Hp|[E|E]]; [eapply Fx; eauto| |]; inversion E; subst.
      - apply N1. right. auto.
      - apply N3. auto. }
    split; auto. split; auto. split; [eapply same_trans; eauto|].
    intros x k y l. rewrite Q2, Q1. cbn [In].
    split.
    + intros [[H|[E|E]]|[H|H]]; auto; inversion E; subst; auto.
    + intros [H|[[E|H]|[E|H]]]; auto; inversion E; subst; auto.
Qed.

(** ** Numbered links *)
Lemma numbered_combine {V} (d : list (nat * V)) s : map fst d = seq s (length d) -> d = combine (seq s (length d)) (map snd d).
Proof.
  revert s; induction d as [|[k v] d IH]; intros s E; auto. cbn in E |- *. injection E as E0 E1. subst k. f_equal. apply IH. auto.
Qed.
Lemma in_combine_seq {V} (l : list V) s k v : In (k, v) (combine (seq s (length l)) l) <-> s <= k /\ nth_error l (k - s) = Some v.
Proof.
  revert s; induction l as [|x l IH]; intros s; cbn [length seq combine In].
  - split; [intros []|]. intros (_ & H). destruct (k - s); discriminate.
  - rewrite IH. split.
    + intros [E|(H & E)]; [inversion E; subst; rewrite Nat.sub_diag; auto|]. split; [lia|].
      replace (k - s) with (S (k - S s)) by lia. auto.
    + intros (H & E). destruct (Nat.eq_dec k s) as [->|N].
      * rewrite Nat.sub_diag in E. cbn in E. left. congruence.
      * right. split; [lia|]. replace (k - s) with (S (k - S s)) in E by lia. auto.
Qed.
Lemma numbered_points h n k y l : numbered h n -> (points h n k y l <-> nth_error (targets h n) k = Some (y, l)).
Proof.
  intros N. unfold points. rewrite (numbered_combine _ 0 N) at 1.
  pose proof (in_combine_seq (targets h n) 0 k (y, l)) as Q. unfold targets in Q at 1 2. rewrite map_length in Q.
  rewrite Q, Nat.sub_0_r. intuition lia.
Qed.
Lemma targets_length h n : length (targets h n) = length (oacc (hget h n)).
Proof. apply map_length. Qed.

Lemma children_all h n : oleaf (hget h n) = false ->
  children h n None true = map (fun p => (fst p, fst (snd p), snd (snd p))) (oacc (hget h n)).
Proof.
  intros L. unfold children. rewrite L. cbn [is_none andb]. rewrite filter_all_id; [reflexivity|]. intros x _. reflexivity.
Qed.

Lemma slots_nodup es : NoDup es ->
  (forall a i b j b' j', In (a, i, b, j) es -> In (a, i, b', j') es -> (b, j) = (b', j')) ->
  (forall a i a' i' b j, In (a, i, b, j) es -> In (a', i', b, j) es -> (a, i) = (a', i')) ->
  (forall a i b j a' i' b' j', In (a, i, b, j) es -> In (a', i', b', j') es -> (a, i) <> (b', j')) ->
  NoDup (slots es).
Proof.
  induction es as [|[[[a i] b] j] es IH]; intros N H1 H2 H3; [constructor|].
  inversion N as [|? ? N1 N2]; subst. cbn [slots flat_map app]. fold (slots es).
  constructor; [|constructor].
  - cbn [In]. intros [E|H].
    + apply (H3 a i b j a i b j); cbn; auto.
    + apply in_slots in H. destruct H as (a' & i' & b' & j' & H & [E|E]).
      * inversion E; subst. apply N1. replace (b, j) with (b', j') in *; auto.
        -- assert (Q : (b, j) = (b', j')) by (apply (H1 a' i'); [left; auto|right; auto]). inversion Q; subst. auto.
        -- symmetry. apply (H1 a' i'); [left; auto|right; auto].
      * apply (H3 a i b j a' i' b' j'); [left; auto|right; auto|auto].
  - intros H. apply in_slots in H. destruct H as (a' & i' & b' & j' & H & [E|E]).
    + apply (H3 a' i' b' j' a i b j); [right; auto|left; auto|auto].
    + inversion E; subst. assert (Q : (a, i) = (a', i')) by (apply (H2 a i a' i' b' j'); [left; auto|right; auto]).
      inversion Q; subst. auto.
  - apply IH; auto; intros.
    + eapply H1; right; eauto.
    + eapply H2; right; eauto.
    + eapply H3; right; eauto.
Qed.

Lemma nodup_points h n : dicts_ok h -> NoDup (oacc (hget h n)).
Proof. intros D. apply (NoDup_map_inv fst). apply dok_nodup. apply dicts_dok. auto. Qed.
Lemma points_key h n i b j b' j' : dicts_ok h -> points h n i b j -> points h n i b' j' -> (b, j) = (b', j').
Proof. intros D. apply In_unique. apply dicts_dok. auto. Qed.
Lemma points_back h a i a' i' b j : dicts_ok h -> symmetric h -> points h a i b j -> points h a' i' b j -> (a, i) = (a', i').
Proof. intros D Sy P P'. apply Sy in P, P'. eapply points_key; eauto. Qed.

(** The part of [unite] that rearranges links. *)
Definition unite_tail h (t1 : id) (axis : nat) (t2 : id) (index2 : nat) (r : id) : res (heap K) :=
  let! h := unlink h t1 axis t2 index2 in
  let l1 := map (fun x => let '(i, t, j) := x in (t1, i, t, j)) (children h t1 None true) in
  let l2 := map (fun x => let '(i, t, j) := x in (t2, i, t, j)) (children h t2 None true) in
  let l := firstn axis l1 ++ l2 ++ skipn axis l1 in
  let! h := unlinkM h l in
  Ok (linkM h (map (fun p => let '(k, (_, _, t, j)) := p in (r, k, t, j)) (combine (seq 0 (length l)) l))).

Definition tail_of (e : edge) : half := let '(_, _, t, j) := e in (t, j).

Lemma children_edges h n : oleaf (hget h n) = false ->
  map (fun x => let '(i, t, j) := x in (n, i, t, j)) (children h n None true)
  = map (fun p => (n, fst p, fst (snd p), snd (snd p))) (oacc (hget h n)).
Proof. intros L. rewrite children_all by auto. rewrite map_map. apply map_ext. intros [i [t j]]. reflexivity. Qed.
Lemma in_edges_of h n a i b j : In (a, i, b, j) (map (fun p => (n, fst p, fst (snd p), snd (snd p))) (oacc (hget h n)))
  <-> a = n /\ points h n i b j.
Proof.
  rewrite in_map_iff. split.
  - intros ([i' [b' j']] & E & H). cbn in E. inversion E; subst. auto.
  - intros (-> & H). exists (i, (b, j)). auto.
Qed.
Lemma tails_of h n : map tail_of (map (fun p => (n, fst p, fst (snd p), snd (snd p))) (oacc (hget h n))) = targets h n.
Proof. rewrite map_map. apply map_ext. intros [i [b j]]. reflexivity. Qed.

Lemma drop_del {V} (d : list (nat * V)) s i : map fst d = seq s (length d) -> i < length d -> drop d (s + i) = del i d.
Proof.
  revert s i; induction d as [|[k v] d IH]; intros s i E Hi; cbn in Hi; [lia|].
  cbn in E. injection E as E0 E1. subst k. destruct i as [|i].
  - rewrite Nat.add_0_r. cbn. now rewrite Nat.eqb_refl.
  - cbn [drop]. replace (s + S i =? s) with false by (symmetry; apply Nat.eqb_neq; lia).
    rewrite del_S. f_equal. replace (s + S i) with (S s + i) by lia. apply IH; auto. lia.
Qed.

(** After [unlink] the remaining links of an end. *)
Lemma unlink_acc h a i b j h' : dicts_ok h -> symmetric h -> unlink h a i b j = Ok h' -> a <> b -> 
  oacc (hget h' a) = drop (oacc (hget h a)) i /\ oacc (hget h' b) = drop (oacc (hget h b)) j.
Proof.
  intros D Sy E Hne. destruct (unlink_symmetric K h a i b j h' D Sy E) as (D' & _ & _ & P).
  destruct (unlink_inv K h a i b j h' D E) as (P1 & P2 & _).
  split; (apply dok_ext; [apply dicts_dok; auto|apply drop_ok, dicts_dok; auto|]); intros k [y l];
    change (In (k, (y, l)) (oacc (hget h' a))) with (points h' a k y l) || 
    change (In (k, (y, l)) (oacc (hget h' b))) with (points h' b k y l);
    rewrite P, drop_In by (apply dicts_dok; auto).
  - unfold points. split.
    + intros (H & H1 & H2). split; auto. intros ->. assert (Q : (y, l) = (b, j)) by (apply (points_key h a i); auto).
      inversion Q; subst. auto.
    + intros (H & H1). split; auto. split; intros Q; inversion Q; subst; auto.
  - unfold points. split.
    + intros (H & H1 & H2). split; auto. intros ->. assert (Q : (y, l) = (a, i)) by (apply (points_key h b j); auto).
      inversion Q; subst. auto.
    + intros (H & H1). split; auto. split; intros Q; inversion Q; subst; auto.
Qed.

Lemma flat_map_app_perm {A B} (f : A -> list B) l l' : Permutation l l' -> Permutation (flat_map f l) (flat_map f l').
Proof.
  induction 1; cbn; auto.
  - apply Permutation_app_head. auto.
  - rewrite !app_assoc. apply Permutation_app_tail, Permutation_app_comm.
  - eapply Permutation_trans; eauto.
Qed.

Lemma perm_mid {A} i (l1 l2 : list A) : Permutation (firstn i l1 ++ l2 ++ skipn i l1) (l1 ++ l2).
Proof.
  rewrite <- (firstn_skipn i l1) at 3. rewrite <- app_assoc. apply Permutation_app_head, Permutation_app_comm.
Qed.

Lemma nth_error_combine_map {A} (l : list A) k x : nth_error l k = Some x -> In (k, x) (combine (seq 0 (length l)) l).
Proof. intros H. apply in_combine_seq. rewrite Nat.sub_0_r. split; [lia|auto]. Qed.

Lemma in_numbered (l : list edge) (r a : id) i b j :
  In (a, i, b, j) (map (fun p : nat * edge => let '(k, (_, _, t, j)) := p in (r, k, t, j)) (combine (seq 0 (length l)) l))
  <-> a = r /\ nth_error (map tail_of l) i = Some (b, j).
Proof.
  rewrite in_map_iff. split.
  - intros ([k [[[a' i'] t] j']] & E & H). inversion E; subst. apply in_combine_seq in H. destruct H as (_ & H).
    rewrite Nat.sub_0_r in H. split; auto. now rewrite (map_nth_error tail_of _ _ H).
  - intros (-> & H). destruct (nth_error l i) as [[[[a' i'] t] j']|] eqn:E.
    + rewrite (map_nth_error tail_of _ _ E) in H. cbn in H. inversion H; subst.
      exists (i, (a', i', b, j)). split; auto. apply nth_error_combine_map. auto.
    + rewrite nth_error_map, E in H. discriminate.
Qed.

Definition joined h (t1 : id) (axis : nat) (t2 : id) (j : nat) : list half :=
  firstn axis (del axis (targets h t1)) ++ del j (targets h t2) ++ skipn axis (del axis (targets h t1)).

Lemma unite_tail_ok h t1 axis t2 j r :
  dicts_ok h -> symmetric h -> points h t1 axis t2 j -> t1 <> t2 ->
  (forall i c l, points h t1 i c l -> c = t1 \/ c = t2 -> i = axis) ->
  (forall i c l, points h t2 i c l -> c = t1 \/ c = t2 -> i = j) ->
  numbered h t1 -> numbered h t2 -> oleaf (hget h t1) = false -> oleaf (hget h t2) = false ->
  r < length h -> (r = t1 \/ r = t2 \/ oacc (hget h r) = []) ->
  exists h', unite_tail h t1 axis t2 j r = Ok h' /\ dicts_ok h' /\ symmetric h' /\ same_but_links h h' /\
    forall x k y l, points h' x k y l <->
      (points h x k y l /\ x <> t1 /\ x <> t2 /\ y <> t1 /\ y <> t2) \/
      (x = r /\ nth_error (joined h t1 axis t2 j) k = Some (y, l)) \/
      (y = r /\ nth_error (joined h t1 axis t2 j) l = Some (x, k)).
Proof.
  intros D Sy P Hne O1 O2 N1 N2 L1 L2 Hr Cr. unfold unite_tail.
  pose proof (Sy _ _ _ _ P) as P'.
  assert (Hne' : (t1, axis) <> (t2, j)) by (intros E; inversion E; auto).
  destruct (unlink_ok K h t1 axis t2 j D Hne' P P') as (h1 & E1 & _ & _ & Q1).
  destruct (unlink_symmetric K h t1 axis t2 j h1 D Sy E1) as (D1 & S1 & M1 & _).
  destruct (unlink_acc h t1 axis t2 j h1 D Sy E1 Hne) as (A1 & A2).
  rewrite E1. cbn [bind].
  assert (L1' : oleaf (hget h1 t1) = false) by (destruct (proj2 M1 t1) as (_ & -> & _); auto).
  assert (L2' : oleaf (hget h1 t2) = false) by (destruct (proj2 M1 t2) as (_ & -> & _); auto).
  rewrite !children_edges by auto.
  set (l1 := map (fun p => (t1, fst p, fst (snd p), snd (snd p))) (oacc (hget h1 t1))).
  set (l2 := map (fun p => (t2, fst p, fst (snd p), snd (snd p))) (oacc (hget h1 t2))).
  set (l := firstn axis l1 ++ l2 ++ skipn axis l1).
  pose proof (perm_mid axis l1 l2) as Pl. fold l in Pl.
  assert (Il : forall a i b k, In (a, i, b, k) l <-> (a = t1 \/ a = t2) /\ points h1 a i b k).
  { intros a i b k. assert (E : In (a, i, b, k) l <-> In (a, i, b, k) (l1 ++ l2)).
    { split; apply Permutation_in; [auto|symmetry; auto]. }
    rewrite E, in_app_iff. unfold l1, l2. rewrite !in_edges_of. intuition (subst; auto). }
  assert (Off : forall a i b k, (a = t1 \/ a = t2) -> points h1 a i b k -> b <> t1 /\ b <> t2).
  { intros a i b k Ha Hp. apply Q1 in Hp. destruct Hp as (X1 & X2 & Hp). 
    split; intros ->; (destruct Ha as [->| ->]; [apply X1|apply X2]; f_equal; [eapply O1|eapply O2]; eauto). }
  assert (Nl : NoDup (slots l)).
  { apply slots_nodup.
    - apply (Permutation_NoDup (Permutation_sym Pl)).
      assert (G : forall n d, NoDup d -> NoDup (map (fun p : nat * half => (n, fst p, fst (snd p), snd (snd p)) : edge) d)).
      { intros n d Nd. apply FinFun.Injective_map_NoDup; auto. intros [a [b c]] [a' [b' c']] E. cbn in E. congruence. }
      assert (X : forall l l' : list edge, NoDup l -> NoDup l' -> (forall x, In x l -> ~ In x l') -> NoDup (l ++ l')).
      { clear. induction l as [|x l IH]; intros l' A B C; auto. cbn. inversion A; subst. constructor.
        - rewrite in_app_iff. intros [?|H]; [tauto|]. eapply C; [left; reflexivity|auto].
        - apply IH; auto. intros y Hy. apply C. right. auto. }
      apply X; [apply G, nodup_points; auto|apply G, nodup_points; auto|].
      intros [[[a i] b] k] H H'. apply in_edges_of in H, H'. destruct H as (-> & _), H' as (E & _). auto.
    - intros a i b k b' k' H H'. apply Il in H, H'. eapply points_key; [apply D1|apply H|apply H'].
    - intros a i a' i' b k H H'. apply Il in H, H'. eapply points_back; [apply D1|auto|apply H|apply H'].
    - intros a i b k a' i' b' k' H H' E. apply Il in H, H'. destruct (Off _ _ _ _ (proj1 H') (proj2 H')) as (X & Y).
      inversion E; subst. destruct H as ([->| ->] & _); auto. }
  destruct (unlinkM_ok l h1 D1 S1 Nl) as (h2 & E2 & D2 & S2 & M2 & Q2).
  { intros a i b k H. apply Il in H. tauto. }
  rewrite E2. cbn [bind].
  assert (Tl : map tail_of l = joined h t1 axis t2 j).
  { unfold l, joined. rewrite !map_app, <- firstn_map, <- skipn_map. unfold l1, l2. rewrite !tails_of.
    unfold targets. rewrite A1, A2.
    assert (Hi : axis < length (oacc (hget h t1))).
    { apply (numbered_points h t1 axis t2 j N1) in P. rewrite <- targets_length. apply nth_error_Some. congruence. }
    assert (Hj : j < length (oacc (hget h t2))).
    { apply (numbered_points h t2 j t1 axis N2) in P'. rewrite <- targets_length. apply nth_error_Some. congruence. }
    pose proof (drop_del (oacc (hget h t1)) 0 axis N1 Hi) as B1. pose proof (drop_del (oacc (hget h t2)) 0 j N2 Hj) as B2.
    cbn [Nat.add] in B1, B2. rewrite B1, B2, !map_del. reflexivity. }
  set (es := map _ (combine _ l)).
  assert (Ie : forall a i b k, In (a, i, b, k) es <-> a = r /\ nth_error (joined h t1 axis t2 j) i = Some (b, k)).
  { intros a i b k. unfold es. rewrite in_numbered, Tl. reflexivity. }
  assert (Tin : forall i b k, nth_error (joined h t1 axis t2 j) i = Some (b, k) -> exists a i', (a = t1 \/ a = t2) /\ points h1 a i' b k).
  { intros i b k H. rewrite <- Tl in H. rewrite nth_error_map in H. destruct (nth_error l i) as [[[[a i'] b'] k']|] eqn:E; [|discriminate].
    cbn in H. inversion H; subst. apply nth_error_In in E. apply Il in E. exists a, i'. auto. }
  assert (Fr : forall k y k', ~ points h2 r k y k').
  { intros k y k' H. apply Q2 in H. destruct H as (H & X). destruct Cr as [->|[->|Cr]].
    - apply X. apply in_slots. exists t1, k, y, k'. split; auto. apply Il. auto.
    - apply X. apply in_slots. exists t2, k, y, k'. split; auto. apply Il. auto.
    - apply Q1 in H. destruct H as (_ & _ & H). unfold points in H. rewrite Cr in H. destruct H. }
  assert (Rt : forall i b k, nth_error (joined h t1 axis t2 j) i = Some (b, k) -> b <> r).
  { intros i b k H E. destruct (Tin i b k H) as (a & i' & Ha & Hp). destruct (Off _ _ _ _ Ha Hp) as (X1 & X2).
    destruct Cr as [->|[->|Cr]]; [auto|auto|]. subst b. apply S1 in Hp. apply Q1 in Hp. destruct Hp as (_ & _ & Hp).
    unfold points in Hp. rewrite Cr in Hp. destruct Hp. }
  assert (Jn : NoDup (joined h t1 axis t2 j)).
  { rewrite <- Tl. clear -Nl. induction l as [|[[[a i] b] k] l IH]; [constructor|]. cbn [map tail_of].
    cbn [slots flat_map app] in Nl. fold (slots l) in Nl. inversion Nl as [|? ? X1 X2]; subst. inversion X2 as [|? ? X3 X4]; subst.
    constructor; auto. intros H. apply in_map_iff in H. destruct H as ([[[a' i'] b'] k'] & E & H). cbn in E. inversion E; subst.
    apply X3. apply in_slots. exists a', i', b, k. auto. }
  destruct (linkM_ok es h2 D2 S2) as (D3 & S3 & M3 & Q3).
  { apply slots_nodup.
    - unfold es. clear. generalize 0 as s. induction l as [|[[[a i] b] k] l IH]; intros s; [constructor|]. cbn [length seq combine map].
      constructor; [|apply IH]. intros H. apply in_map_iff in H. destruct H as ([k' [[[a' i'] b'] j']] & E & H).
      inversion E; subst. apply in_combine_seq in H. lia.
    - intros a i b k b' k' H H'. apply Ie in H, H'. destruct H as (_ & H), H' as (_ & H'). congruence.
    - intros a i a' i' b k H H'. apply Ie in H, H'. destruct H as (-> & H), H' as (-> & H'). f_equal.
      pose proof (proj1 (NoDup_nth_error _) Jn i i') as G. apply G; [apply nth_error_Some; congruence|congruence].
    - intros a i b k a' i' b' k' H H' E. apply Ie in H, H'. destruct H as (-> & H), H' as (-> & H').
      inversion E; subst. eapply Rt; eauto. }
  { intros a i H. apply in_slots in H. destruct H as (a' & i' & b & k & H & [E|E]); inversion E; subst; apply Ie in H; destruct H as (-> & H).
    - split; [destruct M2 as (-> & _); destruct M1 as (-> & _); auto|]. intros b' k' Hp. eapply Fr; eauto.
    - destruct (Tin _ _ _ H) as (a & i2 & Ha & Hp). split.
      + apply S1 in Hp. pose proof (points_lt K h1 _ _ _ _ Hp). destruct M2 as (-> & _). auto.
      + intros y k' Hq. apply Q2 in Hq. destruct Hq as (_ & X). apply X. apply in_slots. exists a, i2, b, k. split; auto.
        apply Il. auto. }
  exists (linkM h2 es). split; auto. split; auto. split; auto.
  split; [eapply same_trans; [exact M1|eapply same_trans; eauto]|].
  intros x k y m. rewrite Q3, !Ie, Q2, Q1. split.
  - intros [((X1 & X2 & H) & X)|[H|H]]; auto. left. split; auto.
    assert (H1 : points h1 x k y m) by (apply Q1; auto).
    assert (Nx : x <> t1 /\ x <> t2).
    { split; intros ->; apply X; apply in_slots; eexists _, k, y, m; (split; [apply Il; split; [|exact H1]; auto|auto]). }
    assert (Ny : y <> t1 /\ y <> t2).
    { split; intros ->; apply X; apply in_slots; eexists _, m, x, k; (split; [apply Il; split; [|apply S1; exact H1]; auto|auto]). }
    tauto.
  - intros [(H & X1 & X2 & X3 & X4)|[H|H]]; auto. left. 
    assert (H1 : points h1 x k y m) by (apply Q1; split; [congruence|split; [congruence|auto]]).
    apply Q1 in H1 as H2. destruct H2 as (Y1 & Y2 & _). split; auto.
    intros Hs. apply in_slots in Hs. destruct Hs as (a & i & b & k' & Ha & [E|E]); inversion E; subst; apply Il in Ha.
    + destruct Ha as ([->| ->] & _); auto.
    + destruct Ha as (Ha & Hp). apply S1 in H1. assert (Q : (y, m) = (a, i)) by exact (points_back h1 _ _ _ _ _ _ D1 S1 H1 Hp).
      inversion Q; subst. destruct Ha as [->| ->]; auto.
Qed.

(** The part of [split] that rearranges links. *)
Definition split_info (kids : list (nat * id * nat)) (r : id) (index1 : nat) (c : id) (index2 : nat) (axes1 axes2 : list nat)
  : list edge :=
  (r, index1, c, index2) ::
  map (fun x => let '(i, t, j) := x in
         if memb i axes1 then (r, oindex_of i (ins index1 None (map Some axes1)), t, j)
         else (c, oindex_of i (ins index2 None (map Some axes2)), t, j)) kids.
Definition split_tail h (n : id) (kids : list (nat * id * nat)) (r : id) (index1 : nat) (c : id) (index2 : nat)
  (axes1 axes2 : list nat) : res (heap K) :=
  let! h := unlinkM h (map (fun x => let '(i, t, j) := x in (n, i, t, j)) kids) in
  Ok (linkM h (split_info kids r index1 c index2 axes1 axes2)).

(** Position of axis [i] after a bond was inserted at [idx]. *)
Definition shifted (idx p : nat) : nat := if p <? idx then p else S p.

Lemma oindex_app_some i l l' : ~ In (Some i) l -> oindex_of i (l ++ l') = length l + oindex_of i l'.
Proof.
  induction l as [|[k|] l IH]; intros H; cbn [app length oindex_of Nat.add]; auto.
  - destruct (Nat.eqb_spec k i) as [->|]; [exfalso; apply H; left; auto|]. rewrite IH; auto. intros X; apply H; right; auto.
  - rewrite IH; auto. intros X; apply H; right; auto.
Qed.
Lemma oindex_app_in i l l' : In (Some i) l -> oindex_of i (l ++ l') = oindex_of i l.
Proof.
  induction l as [|[k|] l IH]; intros H; cbn [app oindex_of]; [destruct H| |].
  - destruct (Nat.eqb_spec k i) as [->|Hn]; auto. rewrite IH; auto. destruct H as [H|H]; auto. inversion H; subst. tauto.
  - rewrite IH; auto. destruct H as [H|H]; auto. discriminate.
Qed.
Lemma oindex_map i l : oindex_of i (map Some l) = index_of i l.
Proof. induction l as [|k l IH]; auto. cbn. destruct (k =? i); auto. Qed.
Lemma index_of_app_in i l l' : In i l -> index_of i (l ++ l') = index_of i l.
Proof.
  induction l as [|k l IH]; intros H; cbn [app index_of]; [destruct H|].
  destruct (Nat.eqb_spec k i) as [->|Hn]; auto. rewrite IH; auto. destruct H; [congruence|auto].
Qed.
Lemma index_of_app_notin i l l' : ~ In i l -> index_of i (l ++ l') = length l + index_of i l'.
Proof.
  induction l as [|k l IH]; intros H; cbn [app length index_of Nat.add]; auto.
  destruct (Nat.eqb_spec k i) as [->|]; [exfalso; apply H; left; auto|]. rewrite IH; auto. intros X; apply H; right; auto.
Qed.

Lemma oindex_shifted i axes idx : idx <= length axes -> In i axes ->
  oindex_of i (ins idx None (map Some axes)) = shifted idx (index_of i axes).
Proof.
  intros Hl Hi. unfold ins. rewrite firstn_map, skipn_map. unfold shifted.
  pose proof (f_equal (index_of i) (firstn_skipn idx axes)) as Ei.
  rewrite <- (firstn_skipn idx axes) in Hi.
  destruct (in_dec Nat.eq_dec i (firstn idx axes)) as [H|H].
  - rewrite oindex_app_in by (apply in_map; auto). rewrite oindex_map.
    rewrite index_of_app_in in Ei by auto. rewrite <- Ei.
    pose proof (index_of_lt _ _ H) as L. rewrite firstn_length in L.
    destruct (Nat.ltb_spec (index_of i (firstn idx axes)) idx); lia.
  - rewrite oindex_app_some by (rewrite in_map_iff; intros (k & E & X); inversion E; subst; auto).
    cbn [oindex_of]. rewrite oindex_map, map_length.
    rewrite index_of_app_notin in Ei by auto. rewrite firstn_length, Nat.min_l in Ei |- * by lia. rewrite <- Ei.
    destruct (Nat.ltb_spec (idx + index_of i (skipn idx axes)) idx); lia.
Qed.
Lemma shifted_ne idx p : shifted idx p <> idx.
Proof. unfold shifted. destruct (Nat.ltb_spec p idx); lia. Qed.
Lemma shifted_inj idx p q : shifted idx p = shifted idx q -> p = q.
Proof. unfold shifted. destruct (Nat.ltb_spec p idx), (Nat.ltb_spec q idx); lia. Qed.
Lemma index_of_inj l i k : In i l -> In k l -> index_of i l = index_of k l -> i = k.
Proof. intros H H' E. rewrite <- (nth_index_of l i H), <- (nth_index_of l k H'). congruence. Qed.

Lemma membP k l : memb k l = true <-> In k l.
Proof. apply existsb_In. Qed.

Lemma split_tail_ok h n r index1 c index2 axes1 axes2 :
  dicts_ok h -> symmetric h -> oleaf (hget h n) = false ->
  (forall i t l, points h n i t l -> t <> n) ->
  (forall i t l, points h n i t l -> In i axes1 \/ In i axes2) ->
  index1 <= length axes1 -> index2 <= length axes2 ->
  r <> c -> r < length h -> c < length h ->
  (r = n \/ oacc (hget h r) = []) -> (c = n \/ oacc (hget h c) = []) ->
  exists h', split_tail h n (children h n None true) r index1 c index2 axes1 axes2 = Ok h' /\
    dicts_ok h' /\ symmetric h' /\ same_but_links h h' /\
    forall x k y l, points h' x k y l <->
      (points h x k y l /\ x <> n /\ y <> n) \/
      In (x, k, y, l) (split_info (children h n None true) r index1 c index2 axes1 axes2) \/
      In (y, l, x, k) (split_info (children h n None true) r index1 c index2 axes1 axes2).
Proof.
  intros D Sy L O In12 B1 B2 Hrc Hr Hc Cr Cc. unfold split_tail. rewrite children_edges by auto.
  set (es := map (fun p => (n, fst p, fst (snd p), snd (snd p))) (oacc (hget h n))).
  assert (Ie : forall a i b j, In (a, i, b, j) es <-> a = n /\ points h n i b j) by apply in_edges_of.
  assert (Ne : NoDup (slots es)).
  { apply slots_nodup.
    - apply FinFun.Injective_map_NoDup; [|apply nodup_points; auto]. intros [a [b d]] [a' [b' d']] E. cbn in E. congruence.
    - intros a i b j b' j' H H'. apply Ie in H, H'. eapply points_key; [apply D|apply H|apply H'].
    - intros a i a' i' b j H H'. apply Ie in H, H'. destruct H as (-> & H), H' as (-> & H'). eapply points_back; eauto.
    - intros a i b j a' i' b' j' H H' E. apply Ie in H, H'. destruct H as (-> & H), H' as (-> & H').
      injection E as Eb Ej. apply (O _ _ _ H'). auto. }
  destruct (unlinkM_ok es h D Sy Ne) as (h1 & E1 & D1 & S1 & M1 & Q1).
  { intros a i b j H. apply Ie in H. destruct H as (-> & H). auto. }
  rewrite E1. cbn [bind]. set (info := split_info _ _ _ _ _ _ _).
  assert (Ii : forall a k b l, In (a, k, b, l) info <->
     (a, k, b, l) = (r, index1, c, index2) \/
     exists i, points h n i b l /\ 
       ((In i axes1 /\ (a, k) = (r, shifted index1 (index_of i axes1))) \/
        (~ In i axes1 /\ In i axes2 /\ (a, k) = (c, shifted index2 (index_of i axes2))))).
  { intros a k b l. unfold info, split_info. cbn [In]. rewrite in_map_iff. rewrite children_all by auto. split.
    - intros [E|([[i t] j] & E & H)]; [left; auto|right]. apply in_map_iff in H. destruct H as ([i' [t' j']] & E' & H).
      cbn in E'. inversion E'; subst. clear E'. exists i.
      destruct (memb i axes1) eqn:Em.
      + apply membP in Em. rewrite oindex_shifted in E by auto. inversion E; subst. split; auto.
      + assert (Nm : ~ In i axes1) by (intros X; apply membP in X; congruence).
        assert (Im : In i axes2) by (destruct (In12 i t j H); tauto).
        rewrite oindex_shifted in E by auto. inversion E; subst. split; auto.
    - intros [E|(i & H & E)]; [left; auto|right]. exists (i, b, l). split.
      + destruct E as [(Hi & E)|(Nm & Hi & E)].
        * apply membP in Hi as Em. rewrite Em, oindex_shifted by auto. inversion E; subst. auto.
        * replace (memb i axes1) with false by (symmetry; apply not_true_iff_false; rewrite membP; auto).
          rewrite oindex_shifted by auto. inversion E; subst. auto.
      + apply in_map_iff. exists (i, (b, l)). split; auto. }
  assert (Tr : forall i b l, points h n i b l -> b <> r /\ b <> c).
  { intros i b l H. split; intros ->.
    - destruct Cr as [->|Cr]; [eapply O; eauto|]. apply Sy in H. unfold points in H. rewrite Cr in H. destruct H.
    - destruct Cc as [->|Cc]; [eapply O; eauto|]. apply Sy in H. unfold points in H. rewrite Cc in H. destruct H. }
  assert (Fn : forall a k y l, a = n \/ oacc (hget h a) = [] -> ~ points h1 a k y l).
  { intros a k y l Ha H. apply Q1 in H. destruct H as (H & X). destruct Ha as [->|Ha].
    - apply X. apply in_slots. exists n, k, y, l. split; auto. apply Ie. auto.
    - unfold points in H. rewrite Ha in H. destruct H. }
  destruct (linkM_ok info h1 D1 S1) as (D2 & S2 & M2 & Q2).
  { apply slots_nodup.
    - unfold info, split_info. constructor.
      + intros H. apply in_map_iff in H. destruct H as ([[i t] j] & E & H). rewrite children_all in H by auto.
        apply in_map_iff in H. destruct H as ([i' [t' j']] & E' & H). cbn in E'. inversion E'; subst.
        destruct (Tr i t j H) as (_ & X). destruct (memb i axes1); inversion E; auto.
      + rewrite children_all by auto. rewrite map_map.
        assert (G : forall d, (forall x, In x d -> In x (oacc (hget h n))) -> NoDup d ->
          NoDup (map (fun x => let '(i, t, j) := (fst x, fst (snd x), snd (snd x)) in
            if memb i axes1 then (r, oindex_of i (ins index1 None (map Some axes1)), t, j)
            else (c, oindex_of i (ins index2 None (map Some axes2)), t, j)) d)).
        { induction d as [|[i [t j]] d IH]; intros Hd Nd; [constructor|]. inversion Nd as [|? ? X1 X2]; subst.
          cbn [map]. constructor; [|apply IH; auto; intros; apply Hd; right; auto].
          intros H. apply in_map_iff in H. destruct H as ([i' [t' j']] & E & H). apply X1.
          assert (P1 : points h n i t j) by (apply Hd; left; auto).
          assert (P2 : points h n i' t' j') by (apply Hd; right; auto).
          assert (Et : (t, j) = (t', j')).
          { cbn [fst snd] in E. destruct (memb i axes1), (memb i' axes1); inversion E; auto. }
          inversion Et; subst. assert (Q : (n, i) = (n, i')) by exact (points_back h _ _ _ _ _ _ D Sy P1 P2). inversion Q; subst. auto. }
        apply (G (oacc (hget h n))); auto. apply nodup_points; auto.
    - intros a k b l b' l' H H'. apply Ii in H, H'.
      destruct H as [H|(i & H & E)], H' as [H'|(i' & H' & E')].
      + congruence.
      + injection H as -> -> -> ->. destruct E' as [(_ & E')|(_ & _ & E')]; [|congruence].
        apply (f_equal snd) in E'. symmetry in E'. apply shifted_ne in E'. destruct E'.
      + injection H' as -> -> -> ->. destruct E as [(_ & E)|(_ & _ & E)]; [|congruence].
        apply (f_equal snd) in E. symmetry in E. apply shifted_ne in E. destruct E.
      + assert (i = i').
        { destruct E as [(X & E)|(X & X0 & E)], E' as [(X' & E')|(X' & X0' & E')]; inversion E; inversion E'; subst; try congruence.
          - apply (index_of_inj axes1); auto. apply (shifted_inj index1). congruence.
          - apply (index_of_inj axes2); auto. apply (shifted_inj index2). congruence. }
        subst i'. exact (points_key h n i _ _ _ _ D H H').
    - intros a k a' k' b l H H'. apply Ii in H, H'.
      destruct H as [H|(i & H & E)], H' as [H'|(i' & H' & E')].
      + congruence.
      + inversion H; subst. destruct (Tr _ _ _ H') as (_ & X). congruence.
      + inversion H'; subst. destruct (Tr _ _ _ H) as (_ & X). congruence.
      + assert (Q : (n, i) = (n, i')) by exact (points_back h _ _ _ _ _ _ D Sy H H'). inversion Q; subst.
        destruct E as [(X & E)|(X & X0 & E)], E' as [(X' & E')|(X' & X0' & E')]; try tauto; congruence.
    - intros a k b l a' k' b' l' H H' E0. apply Ii in H, H'.
      assert (Ha : a = r \/ a = c).
      { destruct H as [H|(i & H & [(X & E)|(X & X0 & E)])]; inversion H || inversion E; subst; auto. }
      destruct H' as [H'|(i' & H' & E')].
      + inversion H'; subst. inversion E0; subst. destruct H as [H|(i & H & [(X & E)|(X & X0 & E)])].
        * inversion H; subst. auto.
        * inversion E; subst. auto.
        * apply (f_equal snd) in E. symmetry in E. apply shifted_ne in E. destruct E.
      + destruct (Tr _ _ _ H') as (X & Y). inversion E0; subst. destruct Ha; subst; auto. }
  { intros a k H. apply in_slots in H. destruct H as (a' & k' & b & l & H & X). apply Ii in H.
    assert (Fs : forall i, points h n i b l -> b < length h1 /\ free h1 b l).
    { intros i Hp. split.
      - apply Sy in Hp. destruct M1 as (-> & _). eapply points_lt; eauto.
      - intros y m Hq. apply Q1 in Hq. destruct Hq as (_ & Y). apply Y. apply in_slots. exists n, i, b, l. split; auto.
        apply Ie. auto. }
    assert (Rc : forall z, z = r \/ z = c -> z < length h1 /\ forall m, free h1 z m).
    { intros z Hz. split; [destruct M1 as (-> & _); destruct Hz; subst; auto|]. intros m y l' Hp.
      eapply Fn; [|exact Hp]. destruct Hz; subst; auto. }
    destruct X as [X|X]; inversion X; subst.
    - assert (Ha : a' = r \/ a' = c).
      { destruct H as [H|(i & H & [(Z & E)|(Z & Z0 & E)])]; inversion H || inversion E; subst; auto. }
      destruct (Rc a' Ha). auto.
    - destruct H as [H|(i & H & _)]; [|eauto]. inversion H; subst. destruct (Rc c); auto. }
  exists (linkM h1 info). split; auto. split; auto. split; auto. split; [eapply same_trans; eauto|].
  intros x k y l. rewrite Q2, Q1. split.
  - intros [(H & X)|[H|H]]; auto. left. split; auto. split; intros ->; apply X; apply in_slots.
    + exists n, k, y, l. split; auto. apply Ie. auto.
    + exists n, l, x, k. split; auto. apply Ie. split; auto.
  - intros [(H & Nx & Ny)|[H|H]]; auto. left. split; auto. intros Hs. apply in_slots in Hs.
    destruct Hs as (a & i & b & j & Hs & [E|E]); inversion E; subst; apply Ie in Hs; destruct Hs as (-> & Hs); auto.
    apply Sy in H. assert (Q : (y, l) = (n, i)) by exact (points_back h _ _ _ _ _ _ D Sy H Hs). inversion Q; subst. auto.
Qed.
End Relink.
