(** Moving the root of a network keeps the state. *)
From Coq Require Import String List Arith Bool Lia Permutation Sorting.Sorted.
From Verif Require Import Py Alg ListX NdArray_Model NdArray_Proof Contract_Model Contract_Spec Contract_Proof
  Net_Model Net_Spec Sweep_Spec Sweep_Proof Trav_Proof Acyc_Proof Env_Proof EnvThm_Proof Link_Spec Link_Proof Move_Spec Split_Proof Relink_Proof Move_Proof
  MoveRoot_Proof Pair_Proof State_Spec.
Import ListNotations.
Local Open Scope nat_scope.
Local Open Scope list_scope.
Local Open Scope py_scope.

Lemma NoDup_app_disjoint {X} (l l' : list X) : NoDup (l ++ l') -> forall x, In x l -> In x l' -> False.
Proof.
  induction l as [|y l IH]; intros D x H H'; [destruct H|]. cbn in D. inversion D as [|? ? N D']; subst. destruct H as [->|H].
  - apply N. apply in_app_iff. auto.
  - eauto.
Qed.
Lemma NoDup_app_r {X} (l l' : list X) : NoDup (l ++ l') -> NoDup l'.
Proof. induction l as [|y l IH]; auto. cbn. intros D. inversion D; auto. Qed.
Lemma sorted_ext l l' : Sorted lt l -> Sorted lt l' -> (forall x, In x l <-> In x l') -> l = l'.
Proof.
  intros H H' E. assert (X : map (fun k => (k, tt)) l = map (fun k => (k, tt)) l').
  { apply dok_ext; unfold dok; rewrite ?map_map; cbn [fst]; rewrite ?map_id; auto.
    intros k []. rewrite !in_map_iff. split; intros (x & Ex & Hx); exists x; split; auto; apply E; auto. }
  apply (f_equal (map fst)) in X. rewrite !map_map in X. cbn in X. now rewrite !map_id in X.
Qed.

Lemma seq_mid l1 j l2 N : l1 ++ j :: l2 = seq 0 N -> length l1 = j.
Proof.
  intros E. assert (H : length l1 < N) by (rewrite <- (seq_length N 0), <- E, app_length; cbn; lia).
  assert (X : nth (length l1) (l1 ++ j :: l2) 0 = j) by (rewrite app_nth2, Nat.sub_diag by lia; reflexivity).
  rewrite E, seq_nth in X by auto. lia.
Qed.

Lemma kids_pos l1 j l2 N : Sorted lt (l1 ++ j :: l2) -> l1 ++ l2 = del j (seq 0 N) -> j < N -> l1 ++ j :: l2 = seq 0 N /\ length l1 = j.
Proof.
  intros H E Hj. assert (X : l1 ++ j :: l2 = seq 0 N).
  { apply sorted_ext; auto; [apply seq_sorted|]. intros x.
    assert (Y : In x (l1 ++ j :: l2) <-> x = j \/ In x (l1 ++ l2)).
    { rewrite !in_app_iff. cbn. split; intros [?|?]; try tauto; intuition. }
    rewrite Y, E. rewrite <- (rest_single N j Hj). rewrite in_rest. rewrite in_seq. cbn. 
    destruct (Nat.eq_dec x j); intuition; subst; lia. }
  split; auto. eapply seq_mid; eauto.
Qed.

Section State.
Variable K : StarRing.
Implicit Types h : heap K.
Implicit Types A : id -> arr K.

Lemma hangs_on h h' : forall t up, (forall n, In n (ids t) -> oleaf (hget h' n) = oleaf (hget h n) /\ oacc (hget h' n) = oacc (hget h n)) ->
  hangs h up t -> hangs h' up t.
Proof.
  induction t as [n|n ks IH] using tree_ind'; intros up S H; destruct (S n) as (S1 & S2); try (left; auto).
  - inversion H; subst. constructor; congruence.
  - cbn [ids] in S. rewrite Forall_forall in IH. assert (F : forall k, In k ks -> forall n0, In n0 (ids (k_t k)) -> oleaf (hget h' n0) = oleaf (hget h n0) /\ oacc (hget h' n0) = oacc (hget h n0)).
    { intros k Hk n0 Hn. apply S. right. apply in_flat_map. eauto. }
    inversion H as [|? ? L AA D F0|? j p ks1 ks2 L AA D F0]; subst.
    + apply hangs_root; rewrite ?S1, ?S2; auto. rewrite Forall_forall in F0 |- *. intros k Hk. apply IH; auto. apply F. auto.
    + apply hangs_node; rewrite ?S1, ?S2; auto. rewrite Forall_forall in F0 |- *. intros k Hk. apply IH; auto. apply F. auto.
Qed.

Lemma fits_agree A A' : forall t ax d, (forall n, In n (nids t) -> A' n = A n) -> fits A ax d t -> fits A' ax d t.
Proof.
  induction t as [n|n ks IH] using tree_ind'; intros ax d E H.
  - inversion H; subst. constructor; auto.
  - inversion H as [|? ? ? ? W P X I F]; subst. cbn [nids] in E. assert (En : A' n = A n) by (apply E; left; auto).
    constructor; rewrite ?En; auto.
    assert (E' : forall k, In k ks -> forall m, In m (nids (k_t k)) -> A' m = A m).
    { intros k Hk m Hm. apply E. right. apply in_flat_map. eauto. }
    clear - IH F E'. revert E'. induction F as [|k m ks ms Hk F IHF]; intros E'; constructor.
    + inversion IH; subst. match goal with H : forall ax d, _ |- _ => apply H; auto end. apply E'. left. auto.
    + inversion IH; subst. apply IHF; auto. intros k' Hk'. apply E'. right. auto.
Qed.

Lemma Forall2_mid {X Y} (R : X -> Y -> Prop) l1 x l2 m : Forall2 R (l1 ++ x :: l2) m ->
  exists m1 y m2, m = m1 ++ y :: m2 /\ length m1 = length l1 /\ R x y /\ Forall2 R (l1 ++ l2) (m1 ++ m2).
Proof.
  revert m; induction l1 as [|a l1 IH]; intros m H; cbn in H; inversion H as [|? y' ? m' Hr Hf]; subst.
  - exists [], y', m'. auto.
  - apply IH in Hf. destruct Hf as (m1 & y & m2 & -> & L & Hx & F). exists (y' :: m1), y, m2. cbn.
    split; [auto|]. split; [auto|]. split; auto.
Qed.

Lemma Forall2_ins_mid {X Y} (R : X -> Y -> Prop) l1 x l2 m y : Forall2 R (l1 ++ l2) m -> R x y ->
  Forall2 R (l1 ++ x :: l2) (ins (length l1) y m).
Proof.
  revert m; induction l1 as [|a l1 IH]; intros m H Hr; cbn in H.
  - constructor; auto.
  - inversion H; subst. cbn [length app]. rewrite ins_S. constructor; auto.
Qed.

(** What a tree with arrays says about the root and one of its inner children. *)
Lemma shaped_joint h A n k1 k2 i e cks j : shaped h (Nd n (k1 ++ (i, Nd e cks, j) :: k2)) A ->
  exists nn ne c1 c2, cks = c1 ++ c2 /\ joint h n i e j (A n) (A e) nn ne/\
    length k1 = i /\ length c1 = j /\ i < ndim (A n) /\ j < ndim (A e) /\
    hangs h None (Nd e (c1 ++ (j, Nd n (k1 ++ k2), i) :: c2)) /\
    map k_i (c1 ++ (j, Nd n (k1 ++ k2), i) :: c2) = seq 0 (ndim (A e)) /\
    map k_i (k1 ++ k2) = del i (seq 0 (ndim (A n))) /\
    Forall2 (fun k m => fits A (Some (k_j k)) m (k_t k)) (k1 ++ k2) (del i (shape (A n))) /\
    Forall2 (fun k m => fits A (Some (k_j k)) m (k_t k)) (c1 ++ c2) (del j (shape (A e))).
Proof.
  intros (D & Sy & NS & H & F & At).
  inversion F as [|? ? ? ? Wn Pn _ In' Fn]; subst. cbn [others] in In', Fn.
  destruct (Forall2_mid _ _ _ _ _ Fn) as (m1 & d & m2 & Em & Lm & Fe & Fn').
  rewrite map_app in In'. cbn [map] in In'. change (k_i (i, Nd e cks, j)) with i in In'.
  assert (Li : length k1 = i) by (apply seq_mid in In'; rewrite map_length in In'; auto).
  assert (Hi : i < ndim (A n)).
  { rewrite <- (seq_length (ndim (A n)) 0), <- In', app_length, map_length. cbn. lia. }
  assert (Ei : nth i (shape (A n)) 0 = d).
  { rewrite Em. rewrite app_nth2 by lia. rewrite Lm, Li, Nat.sub_diag. reflexivity. }
  assert (Edel : del i (shape (A n)) = m1 ++ m2) by (rewrite Em; rewrite <- Li, <- Lm; apply del_at).
  change (k_t (i, Nd e cks, j)) with (Nd e cks) in Fe. change (k_j (i, Nd e cks, j)) with j in Fe.
  inversion Fe as [|? ? ? ? We Pe Xe Ie Fe']; subst d. subst. destruct Xe as (Hj & Ej). cbn [others] in Ie, Fe'.
  destruct (hangs_reroot1 K h n k1 k2 (length k1) j e cks H) as (c1 & c2 & -> & H').
  pose proof H as H0. inversion H0 as [|? ? L AA Dn Fk|]; subst.
  pose proof H' as H0'. inversion H0' as [|? ? L' AA' De Fk'|]; subst.
  assert (Se : Sorted lt (map k_i c1 ++ j :: map k_i c2)).
  { pose proof (D e) as X. rewrite AA', map_map in X. cbn [fst] in X. rewrite map_app in X. exact X. }
  rewrite map_app in Ie. destruct (kids_pos _ _ _ _ Se Ie Hj) as (Ke & Lj). rewrite map_length in Lj.
  assert (Pts : points h n (length k1) e j).
  { unfold points. rewrite AA, map_app. apply in_app_iff. right. left. reflexivity. }
  pose proof (hangs_nodup K h _ NS H) as Nd0. cbn [ids] in Nd0.
  destruct (At n) as (An & nn & Nn); [left; auto|].
  destruct (At e) as (Ae & ne & Ne).
  { cbn [nids]. right. rewrite flat_map_app. apply in_app_iff. right. cbn [flat_map]. apply in_app_iff. left. left. auto. }
  assert (Tops : forall k, In k (k1 ++ (length k1, Nd e (c1 ++ c2), j) :: k2) -> In (top (k_t k)) (flat_map (fun k => ids (k_t k)) (k1 ++ (length k1, Nd e (c1 ++ c2), j) :: k2))).
  { intros k Hk. apply in_flat_map. exists k. split; auto. destruct (k_t k); left; auto. }
  assert (Sfn : forall k l, ~ points h n k n l).
  { intros k l HP. unfold points in HP. rewrite AA in HP. apply in_map_iff in HP. destruct HP as (kk & E & Hk).
    injection E as _ E _. pose proof (proj1 (proj1 (NoDup_cons_iff _ _) Nd0)) as X. apply X. rewrite <- E at 1. apply Tops. auto. }
  assert (Hne : n <> e).
  { intros ->. eapply Sfn. exact Pts. }
  assert (Only : forall k l, points h n k e l -> k = length k1).
  { intros k l HP. unfold points in HP. rewrite AA in HP. apply in_map_iff in HP. destruct HP as (kk & E & Hk).
    apply in_app_iff in Hk. destruct Hk as [Hk|[<-|Hk]]; [exfalso| injection E as <- _; reflexivity|exfalso].
    - injection E as _ E _. pose proof (proj2 (proj1 (NoDup_cons_iff _ _) Nd0)) as X. rewrite flat_map_app in X.
      eapply (NoDup_app_disjoint _ _ X e).
      + apply in_flat_map. exists kk. split; auto. rewrite <- E. destruct (k_t kk); left; auto.
      + cbn [flat_map]. apply in_app_iff. left. left. auto.
    - injection E as _ E _. pose proof (proj2 (proj1 (NoDup_cons_iff _ _) Nd0)) as X. rewrite flat_map_app in X. apply NoDup_app_r in X. cbn [flat_map] in X.
      eapply (NoDup_app_disjoint _ _ X e).
      + left. auto.
      + apply in_flat_map. exists kk. split; auto. rewrite <- E. destruct (k_t kk); left; auto. }
  pose proof (hangs_nodup K h _ NS H') as Nd1. cbn [ids] in Nd1.
  assert (Sfe : forall k l, ~ points h e k e l).
  { intros k l HP. unfold points in HP. rewrite AA' in HP. apply in_map_iff in HP. destruct HP as (kk & E & Hk).
    injection E as _ E _. pose proof (proj1 (proj1 (NoDup_cons_iff _ _) Nd1)) as X. apply X. apply in_flat_map. exists kk. split; auto.
    rewrite <- E. destruct (k_t kk); left; auto. }
  exists nn, ne, c1, c2. split; auto. split.
  { split; auto. split; auto. split; [|split; [|split; [auto|split; [auto|split; [auto|split; [auto|split; [auto|]]]]]]].
    - split; [eapply points_lt; exact Pts|]. split; auto.
      assert (Nu : map fst (oacc (hget h n)) = seq 0 (ndim (A n))).
      { rewrite AA, map_map. cbn [fst]. rewrite map_app. exact In'. }
      assert (Le : ndim (A n) = length (oacc (hget h n))) by (rewrite <- (map_length fst), Nu, seq_length; auto).
      split; [unfold numbered; rewrite Nu; f_equal; auto|]. auto 10.
    - split; [eapply points_lt; apply Sy; exact Pts|]. split; auto.
      assert (Nu : map fst (oacc (hget h e)) = seq 0 (ndim (A e))).
      { rewrite AA', map_map. cbn [fst]. rewrite map_app. exact Ke. }
      assert (Le : ndim (A e) = length (oacc (hget h e))) by (rewrite <- (map_length fst), Nu, seq_length; auto).
      split; [unfold numbered; rewrite Nu; f_equal; auto|]. auto 10.
    - congruence. }
  split; auto. split; auto. split; auto. split; auto. split; auto.
  split; [rewrite map_app; exact Ke|]. split; [|split; [rewrite Edel; auto|auto]].
  rewrite map_app, <- In'. rewrite <- (map_length k_i k1). symmetry. apply del_at.
Qed.

Lemma network_shaped h t A : network h t A -> shaped h t A.
Proof.
  intros (D & Sy & NS & H & Or & F & At). do 5 (split; auto). intros m Hm. destruct (At m Hm) as (Y & s & Z & _). eauto.
Qed.

Lemma network_joint h A n k1 k2 i e cks j : network h (Nd n (k1 ++ (i, Nd e cks, j) :: k2)) A ->
  exists nn ne c1 c2, cks = c1 ++ c2 /\ joint h n i e j (A n) (A e) nn ne /\ count_ascii plus nn = 0 /\ count_ascii plus ne = 0 /\
    length k1 = i /\ length c1 = j /\ i < ndim (A n) /\ j < ndim (A e) /\
    hangs h None (Nd e (c1 ++ (j, Nd n (k1 ++ k2), i) :: c2)) /\
    map k_i (c1 ++ (j, Nd n (k1 ++ k2), i) :: c2) = seq 0 (ndim (A e)) /\
    map k_i (k1 ++ k2) = del i (seq 0 (ndim (A n))) /\
    Forall2 (fun k m => fits A (Some (k_j k)) m (k_t k)) (k1 ++ k2) (del i (shape (A n))) /\
    Forall2 (fun k m => fits A (Some (k_j k)) m (k_t k)) (c1 ++ c2) (del j (shape (A e))).
Proof.
  intros N. destruct (shaped_joint h A n k1 k2 i e cks j (network_shaped _ _ _ N)) as (nn & ne & c1 & c2 & E & J & X).
  destruct N as (_ & _ & _ & _ & _ & _ & At). pose proof J as (_ & _ & Sn & Se & _).
  exists nn, ne, c1, c2. split; auto. split; auto. split; [|split; auto].
  - destruct (At n) as (_ & s & Y & Z); [left; auto|]. destruct Sn as (_ & _ & _ & _ & _ & _ & _ & Y'). congruence.
  - destruct (At e) as (_ & s & Y & Z).
    { cbn [nids]. right. rewrite flat_map_app. apply in_app_iff. right. cbn [flat_map]. apply in_app_iff. left. left. auto. }
    destruct Se as (_ & _ & _ & _ & _ & _ & _ & Y'). congruence.
Qed.

Definition upd2 A (n e : id) (an ae : arr K) : id -> arr K := fun x => if x =? n then an else if x =? e then ae else A x.

Lemma nids_root n ks m : In m (nids (Nd n ks)) <-> m = n \/ In m (flat_map (fun k => nids (k_t k)) ks).
Proof. cbn [nids In]. intuition. Qed.

Lemma oriented_kids h n ks ax : oriented h ax (Nd n ks) -> oaxis (hget h n) = ax /\ Forall (fun k => oriented h (Some (k_j k)) (k_t k)) ks.
Proof. intros H. inversion H; subst. auto. Qed.
Lemma in_kid_nids k ks m : In k ks -> In m (nids (k_t k)) -> In m (flat_map (fun k => nids (k_t k)) ks).
Proof. intros. apply in_flat_map. eauto. Qed.

Lemma after_move_shape h h' A n k1 k2 i e cks j an' ae' r :
  network h (Nd n (k1 ++ (i, Nd e cks, j) :: k2)) A ->
  dicts_ok h' -> symmetric h' -> (forall t, oacc (hget h' t) = oacc (hget h t)) ->
  (forall t, t <> length h -> oname (hget h' t) = oname (hget h t) /\ oleaf (hget h' t) = oleaf (hget h t)) ->
  (forall t, t <> n -> t <> e -> t <> length h -> oaxis (hget h' t) = oaxis (hget h t) /\ (oleaf (hget h t) = false -> oarr (hget h' t) = oarr (hget h t))) ->
  oarr (hget h' n) = Some an' -> oarr (hget h' e) = Some ae' -> oaxis (hget h' n) = Some i -> oaxis (hget h' e) = None ->
  wf an' -> shape an' = ins i r (del i (shape (A n))) -> wf ae' -> shape ae' = ins j r (del j (shape (A e))) -> 0 < r ->
  exists c1 c2, let t' := Nd e (c1 ++ (j, Nd n (k1 ++ k2), i) :: c2) in let A' := upd2 A n e an' ae' in
    cks = c1 ++ c2 /\ network h' t' A' /\
    Permutation (ids (Nd n (k1 ++ (i, Nd e cks, j) :: k2))) (ids t') /\
    (same_pair (A n) i (A e) j an' ae' r -> forall s, amp A' s None t' 0 = amp A s None (Nd n (k1 ++ (i, Nd e cks, j) :: k2)) 0).
Proof.
  intros N D' S' Lk Nm Ax An' Ae' Xn Xe W1 S1 W2 S2 R0. pose proof N as (D & Sy & NS & H & Or & F & At).
  destruct (network_joint h A n k1 k2 i e cks j N) as (nn & ne & c1 & c2 & -> & J & Pn & Pe & Li & Lj & Hi & Hj & H' & Ke & Kn & Fn & Fe).
  exists c1, c2. cbn zeta. split; auto. set (t' := Nd e (c1 ++ (j, Nd n (k1 ++ k2), i) :: c2)). set (A' := upd2 A n e an' ae').
  pose proof J as (_ & _ & Sn & Se & Hne & P & Only & Sfn & Sfe & Hd).
  assert (Perm : Permutation (ids (Nd n (k1 ++ (i, Nd e (c1 ++ c2), j) :: k2))) (ids t')) by apply perm_reroot.
  pose proof (hangs_nodup K h _ NS H) as Nod. pose proof (nids_nodup K h _ NS H) as Non.
  assert (En : A' n = an') by (unfold A', upd2; now rewrite Nat.eqb_refl).
  assert (Ee : A' e = ae').
  { unfold A', upd2. rewrite Nat.eqb_refl. destruct (Nat.eqb_spec e n); [congruence|auto]. }
  (* n and e do not occur in the other subtrees *)
  cbn [nids] in Non. rewrite flat_map_app in Non. cbn [flat_map] in Non. change (k_t (i, Nd e (c1 ++ c2), j)) with (Nd e (c1 ++ c2)) in Non. cbn [nids] in Non.
  assert (Away : forall m, In m (flat_map (fun k => nids (k_t k)) (k1 ++ k2 ++ c1 ++ c2)) -> m <> n /\ m <> e).
  { intros m Hm. apply NoDup_cons_iff in Non. destruct Non as (X1 & X2).
    assert (Y : In m (flat_map (fun k => nids (k_t k)) k1 ++ (e :: flat_map (fun k => nids (k_t k)) (c1 ++ c2)) ++ flat_map (fun k => nids (k_t k)) k2)).
    { rewrite !flat_map_app in Hm. rewrite flat_map_app. cbn [app]. rewrite !in_app_iff in *. cbn [In]. rewrite !in_app_iff in *. tauto. }
    split; [intros ->; apply X1; exact Y|]. intros ->.
    cbn [app] in X2. apply NoDup_remove_2 in X2. apply X2. rewrite !flat_map_app in Hm. rewrite flat_map_app. rewrite !in_app_iff in *. tauto. }
  assert (Agree : forall m, In m (flat_map (fun k => nids (k_t k)) (k1 ++ k2 ++ c1 ++ c2)) -> A' m = A m).
  { intros m Hm. apply Away in Hm. destruct Hm as (X & Y). unfold A', upd2.
    destruct (Nat.eqb_spec m n); [tauto|]. destruct (Nat.eqb_spec m e); [tauto|]. auto. }
  assert (Old : forall m, In m (nids t') -> n = m \/ e = m \/ In m (flat_map (fun k => nids (k_t k)) (k1 ++ k2 ++ c1 ++ c2))).
  { intros m Hm. unfold t' in Hm. apply nids_root in Hm. destruct Hm as [->|Hm]; auto. rewrite flat_map_app in Hm. cbn [flat_map] in Hm.
    change (nids (k_t (j, Nd n (k1 ++ k2), i))) with (n :: flat_map (fun k => nids (k_t k)) (k1 ++ k2)) in Hm.
    rewrite !flat_map_app in Hm. rewrite !flat_map_app. cbn [app] in Hm. rewrite !in_app_iff in Hm. rewrite !in_app_iff. cbn [In] in Hm. rewrite !in_app_iff in Hm. tauto. }
  assert (NotMid : forall m, In m (ids t') -> m <> length h).
  { intros m Hm. pose proof (hangs_lt K h _ _ H' m Hm). lia. }
  assert (OldT : forall m, In m (flat_map (fun k => nids (k_t k)) (k1 ++ k2 ++ c1 ++ c2)) -> In m (nids (Nd n (k1 ++ (i, Nd e (c1 ++ c2), j) :: k2)))).
  { intros m Hm. apply nids_root. right. rewrite flat_map_app. cbn [flat_map].
    change (nids (k_t (i, Nd e (c1 ++ c2), j))) with (e :: flat_map (fun k => nids (k_t k)) (c1 ++ c2)).
    rewrite !flat_map_app in *. cbn [app]. rewrite !in_app_iff in *. cbn [In]. rewrite !in_app_iff in *. tauto. }
  assert (Ldi : i <= length (del i (shape (A n)))) by (rewrite length_del by exact Hi; unfold ndim in Hi; lia).
  assert (Ldj : j <= length (del j (shape (A e)))) by (rewrite length_del by exact Hj; unfold ndim in Hj; lia).
  assert (Posd : forall (a : arr K) x, Forall (fun d => 0 < d) (shape a) -> Forall (fun d => 0 < d) (ins x r (del x (shape a)))).
  { intros a x Fa. rewrite Forall_forall in *. intros d Hd'. unfold ins, del in Hd'. rewrite in_app_iff in Hd'.
    assert (Y : d = r \/ In d (del x (shape a))).
    { destruct Hd' as [Y|[Y|Y]]; auto; right; [rewrite <- (firstn_skipn x (del x _))|rewrite <- (firstn_skipn x (del x _))];
        apply in_app_iff; auto. }
    destruct Y as [->|Y]; auto. apply Fa. unfold del in Y. apply in_app_iff in Y. destruct Y as [Y|Y].
    - rewrite <- (firstn_skipn x (shape a)). apply in_app_iff; auto.
    - rewrite <- (firstn_skipn (S x) (shape a)). apply in_app_iff; auto. }
  assert (Ndn : ndim an' = ndim (A n)).
  { unfold ndim. rewrite S1, length_ins, length_del by exact Hi. unfold ndim in Hi. lia. }
  assert (Nde : ndim ae' = ndim (A e)).
  { unfold ndim. rewrite S2, length_ins, length_del by exact Hj. unfold ndim in Hj. lia. }
  split; [|split].
  - split; auto. split; auto. split. { intros m x. rewrite Lk. apply NS. } split; [|split; [|split]].
    + apply (hangs_on h); auto. intros m Hm. split; [|apply Lk]. apply Nm. apply NotMid. auto.
    + apply oriented_node; auto. apply oriented_kids in Or. destruct Or as (_ & Or).
      assert (Sub : forall k ax, In k (k1 ++ k2 ++ c1 ++ c2) -> oriented h ax (k_t k) -> oriented h' ax (k_t k)).
      { intros k ax Hk Ok. eapply oriented_same; [|exact Ok]. intros m Hm.
        assert (Hm' : In m (flat_map (fun k => nids (k_t k)) (k1 ++ k2 ++ c1 ++ c2))) by (eapply in_kid_nids; eauto).
        destruct (Away m Hm') as (Y1 & Y2). apply Ax; auto. apply NotMid. apply nids_ids.
        unfold t'. apply nids_root. right. rewrite flat_map_app. cbn [flat_map].
        change (nids (k_t (j, Nd n (k1 ++ k2), i))) with (n :: flat_map (fun k => nids (k_t k)) (k1 ++ k2)).
        rewrite !flat_map_app in *. cbn [app]. rewrite !in_app_iff in *. cbn [In]. rewrite !in_app_iff in *. tauto. }
      rewrite Forall_forall in Or.
      assert (Oe : Forall (fun k => oriented h (Some (k_j k)) (k_t k)) (c1 ++ c2)).
      { assert (X : oriented h (Some j) (Nd e (c1 ++ c2))) by (apply (Or (i, Nd e (c1 ++ c2), j)); apply in_app_iff; right; left; auto).
        apply oriented_kids in X. apply X. }
      rewrite Forall_forall in Oe.
      apply Forall_forall. intros k Hk. apply in_app_iff in Hk. destruct Hk as [Hk|[<-|Hk]].
      * apply Sub; [rewrite !in_app_iff; tauto|]. apply Oe. apply in_app_iff; auto.
      * change (oriented h' (Some i) (Nd n (k1 ++ k2))). apply oriented_node; auto. apply Forall_forall. intros k Hk.
        apply Sub; [rewrite !in_app_iff in *; tauto|]. apply Or. rewrite !in_app_iff in *. cbn. tauto.
      * apply Sub; [rewrite !in_app_iff; tauto|]. apply Oe. apply in_app_iff; auto.
    + assert (FE : forall ks ms, incl ks (k1 ++ k2 ++ c1 ++ c2) -> Forall2 (fun k m => fits A (Some (k_j k)) m (k_t k)) ks ms ->
                Forall2 (fun k m => fits A' (Some (k_j k)) m (k_t k)) ks ms).
      { intros ks ms Inc Fk. induction Fk as [|k m ks ms Hk Fk IH]; constructor.
        - eapply fits_agree; [|exact Hk]. intros x Hx. apply Agree. eapply in_kid_nids; eauto. apply Inc. left. auto.
        - apply IH. intros x Hx. apply Inc. right. auto. }
      apply fits_node; rewrite ?Ee; auto.
      * rewrite S2. apply Posd. apply Se.
      * rewrite Ke. cbn [others]. now rewrite Nde.
      * cbn [others]. rewrite S2. rewrite <- Lj at 2. apply Forall2_ins_mid.
        { apply FE; auto. intros x Hx. rewrite !in_app_iff in *. tauto. }
        change (fits A' (Some i) r (Nd n (k1 ++ k2))). apply fits_node; rewrite ?En; auto.
        -- rewrite S1. apply Posd. apply Sn.
        -- split; [rewrite Ndn; auto|]. rewrite S1. apply nth_ins_eq. auto.
        -- cbn [others]. rewrite Ndn. auto.
        -- cbn [others]. rewrite S1, del_ins by auto. apply FE; auto. intros x Hx. rewrite !in_app_iff in *. tauto.
    + intros m Hm. assert (Hmid : m <> length h) by (apply NotMid, nids_ids; auto).
      destruct (Nm m Hmid) as (Y1 & _). destruct (Old m Hm) as [<-|[<-|Hm']].
      * rewrite En. split; auto. exists nn. rewrite Y1. destruct Sn as (_ & _ & _ & _ & _ & _ & _ & ->). auto.
      * rewrite Ee. split; auto. exists ne. rewrite Y1. destruct Se as (_ & _ & _ & _ & _ & _ & _ & ->). auto.
      * rewrite Agree by auto. destruct (Away m Hm') as (Y2 & Y3). destruct (Ax m Y2 Y3 Hmid) as (_ & Y4).
        pose proof (OldT m Hm') as Ho. destruct (At m Ho) as (Z1 & Z2). rewrite Y1. split; auto.
        rewrite Y4; auto. eapply nids_inner; eauto.
  - exact Perm.
  - intros Sp s. unfold t'. rewrite amp_reroot; auto.
    + apply (amp_replace K A A' s n k1 k2 i e c1 c2 j r); auto. rewrite En, Ee. auto.
    + rewrite En. rewrite Ndn. auto.
    + rewrite Ee. rewrite Nde. auto.
    + rewrite En, Ee, S1, S2. rewrite !nth_ins_eq by auto. auto.
Qed.

Lemma after_move h h' A n k1 k2 i e cks j an' ae' r :
  network h (Nd n (k1 ++ (i, Nd e cks, j) :: k2)) A ->
  dicts_ok h' -> symmetric h' -> (forall t, oacc (hget h' t) = oacc (hget h t)) ->
  (forall t, t <> length h -> oname (hget h' t) = oname (hget h t) /\ oleaf (hget h' t) = oleaf (hget h t)) ->
  (forall t, t <> n -> t <> e -> t <> length h -> oaxis (hget h' t) = oaxis (hget h t) /\ (oleaf (hget h t) = false -> oarr (hget h' t) = oarr (hget h t))) ->
  oarr (hget h' n) = Some an' -> oarr (hget h' e) = Some ae' -> oaxis (hget h' n) = Some i -> oaxis (hget h' e) = None ->
  same_pair (A n) i (A e) j an' ae' r ->
  exists c1 c2, let t' := Nd e (c1 ++ (j, Nd n (k1 ++ k2), i) :: c2) in let A' := upd2 A n e an' ae' in
    cks = c1 ++ c2 /\ network h' t' A' /\
    Permutation (ids (Nd n (k1 ++ (i, Nd e cks, j) :: k2))) (ids t') /\
    forall s, amp A' s None t' 0 = amp A s None (Nd n (k1 ++ (i, Nd e cks, j) :: k2)) 0.
Proof.
  intros N D' S' Lk Nm Ax An' Ae' Xn Xe Sp. pose proof Sp as (W1 & S1 & W2 & S2 & R0 & _).
  destruct (after_move_shape h h' A n k1 k2 i e cks j an' ae' r N D' S' Lk Nm Ax An' Ae' Xn Xe W1 S1 W2 S2 R0) as (c1 & c2 & E & N' & P & Am).
  exists c1, c2. auto.
Qed.

Section Exact.
Variable csvd : arr K -> res (arr K * arr K * arr K).
Hypothesis Ex : exact_svd csvd.

Lemma prod_pos l : Forall (fun d => 0 < d) l -> 0 < prod l.
Proof. induction 1 as [|d l Hd _ IH]; cbn; [lia|]. apply Nat.mul_pos_pos; auto. Qed.
Lemma gather_pos (sh l : list nat) : Forall (fun d => 0 < d) sh -> Forall (fun k => k < length sh) l -> Forall (fun d => 0 < d) (gather sh l).
Proof.
  intros H F. unfold gather. apply Forall_forall. intros d Hd. apply in_map_iff in Hd. destruct Hd as (k & <- & Hk).
  rewrite Forall_forall in *. apply H. apply nth_In. auto.
Qed.

Lemma exact_fitting (a : arr K) l : Forall (fun d => 0 < d) (shape a) -> Forall (fun k => k < ndim a) l -> fitting K csvd a l /\
  forall m u s v k, matricized a l m -> csvd m = Ok (u, s, v) -> triple m u s v k -> exact m u s v k.
Proof.
  intros P F. assert (X : forall m, matricized a l m -> exists u s v r, csvd m = Ok (u, s, v) /\ triple m u s v r /\ exact m u s v r /\ 0 < r).
  { intros m (W & S & _). eapply Ex; eauto.
    - apply prod_pos, gather_pos; auto.
    - apply prod_pos, gather_pos; auto. apply Forall_forall. intros k Hk. apply in_rest in Hk. apply Hk. }
  split.
  - intros m Hm. destruct (X m Hm) as (u & s & v & r & E & T & _ & R). eauto 8.
  - intros m u s v k Hm E T. destruct (X m Hm) as (u' & s' & v' & r & E' & T' & Ex' & _). rewrite E in E'. injection E' as <- <- <-.
    assert (Er : r = k).
    { destruct T as (p & q & _ & _ & (_ & Y) & _). destruct T' as (p' & q' & _ & _ & (_ & Y') & _). rewrite Y in Y'. injection Y' as -> _. auto. }
    now subst.
Qed.

Lemma keep_quiet : quiet (@keep K).
Proof. intros h m. exists h. repeat split; auto. intros a E W. eauto. Qed.

Definition moved h A n k1 k2 i e cks j (r : res (id * id * id * heap K)) : Prop :=
  exists h' c1 c2 A', let t' := Nd e (c1 ++ (j, Nd n (k1 ++ k2), i) :: c2) in
    r = Ok (n, length h, e, h') /\ cks = c1 ++ c2 /\ network h' t' A' /\
    (forall t, oacc (hget h' t) = oacc (hget h t)) /\
    (forall t, t <> length h -> oname (hget h' t) = oname (hget h t) /\ oleaf (hget h' t) = oleaf (hget h t) /\ onorm (hget h' t) = onorm (hget h t)) /\
    (forall t, t <> n -> t <> e -> A' t = A t) /\
    Permutation (ids (Nd n (k1 ++ (i, Nd e cks, j) :: k2))) (ids t') /\
    forall s, amp A' s None t' 0 = amp A s None (Nd n (k1 ++ (i, Nd e cks, j) :: k2)) 0.

Lemma split_moved h A n k1 k2 i e cks j op nz : network h (Nd n (k1 ++ (i, Nd e cks, j) :: k2)) A -> quiet op ->
  moved h A n k1 k2 i e cks j (split_unite csvd h n i op nz).
Proof.
  intros N Q. pose proof N as (_ & _ & _ & _ & Or & _).
  destruct (network_joint h A n k1 k2 i e cks j N) as (nn & ne & d1 & d2 & Ed & J & Pn & Pe & Li & Lj & Hi & Hj & _).
  apply oriented_kids in Or. destruct Or as (Ax & _).
  pose proof J as (_ & _ & Sn & Se & Hne & P & Only & Sfn & Sfe & Hd).
  destruct (exact_fitting (A n) [i]) as (Ft & Exa); [apply Sn|constructor; auto|].
  destruct (split_unite_ok K csvd h n i e j (A n) (A e) nn ne op nz J Ax ltac:(lia) Ft) as
    (hA & hB & h' & m & u & s & v & k & x & y & x' & z & E & Mm & Es & Tr & K0 & Lp & Rp & E2 & Edt & XA & XB & Wx' & Sx' & C & Yn & Ye & Xn & Xe & Hl & D' & S' & Lk & _ & _ & Nm & Rm).
  { intros hA mid. destruct (Q hA mid) as (hB & Y1 & Y2 & _). eauto. }
  assert (x' = x).
  { destruct (Q hA (length h)) as (hB' & Y1 & _ & Y2). rewrite E2 in Y1. injection Y1 as <-. congruence. }
  subst x'.
  assert (Sp : same_pair (A n) i (A e) j y z k) by (eapply (su_pair K (A n) i (A e) j m u s v k x y z); eauto; apply Sn).
  destruct (after_move h h' A n k1 k2 i e cks j y z k N D' S' Lk) as (c1 & c2 & -> & N' & Pm & Am); auto.
  { intros t Ht. destruct (Nm t Ht) as (Y1 & Y2 & _). auto. }
  exists h', c1, c2, (upd2 A n e y z). cbn zeta. split; auto. split; auto. split; auto. split; auto. split; auto. split; auto.
  intros t H1 H2. unfold upd2. destruct (Nat.eqb_spec t n); [tauto|]. destruct (Nat.eqb_spec t e); [tauto|]. auto.
Qed.

Lemma unite_moved fuel h A n k1 k2 i e cks j op nz : network h (Nd n (k1 ++ (i, Nd e cks, j) :: k2)) A -> quiet op ->
  height (Nd n (k1 ++ (i, Nd e cks, j) :: k2)) <= fuel ->
  moved h A n k1 k2 i e cks j (unite_split csvd fuel h n i op nz).
Proof.
  intros N Q Hf. pose proof N as (_ & _ & _ & H & Or & _).
  destruct (network_joint h A n k1 k2 i e cks j N) as (nn & ne & d1 & d2 & Ed & J & Pn & Pe & Li & Lj & Hi & Hj & _).
  apply oriented_kids in Or. destruct Or as (Ax & _).
  pose proof J as (_ & _ & Sn & Se & Hne & P & Only & Sfn & Sfe & Hd).
  assert (Fit : forall c : arr K, shape c = firstn i (shape (A n)) ++ del j (shape (A e)) ++ skipn (S i) (shape (A n)) ->
    Forall (fun d => 0 < d) (shape c) /\ Forall (fun k => k < ndim c) (seq i (ndim (A e) - 1))).
  { intros c Sc. assert (Pn' : Forall (fun d => 0 < d) (shape (A n))) by apply Sn. assert (Pe' : Forall (fun d => 0 < d) (shape (A e))) by apply Se.
    split.
    - rewrite Sc. rewrite Forall_forall in *. intros d Hd'. rewrite !in_app_iff in Hd'. destruct Hd' as [Y|[Y|Y]].
      + apply Pn'. rewrite <- (firstn_skipn i (shape (A n))). apply in_app_iff; auto.
      + apply Pe'. unfold del in Y. apply in_app_iff in Y. destruct Y as [Y|Y].
        * rewrite <- (firstn_skipn j (shape (A e))). apply in_app_iff; auto.
        * rewrite <- (firstn_skipn (S j) (shape (A e))). apply in_app_iff; auto.
      + apply Pn'. rewrite <- (firstn_skipn (S i) (shape (A n))). apply in_app_iff; auto.
    - apply Forall_forall. intros k Hk. apply in_seq in Hk. unfold ndim in *. rewrite Sc, !app_length, firstn_length, skipn_length, length_del by exact Hj. lia. }
  destruct (unite_split_ok K csvd fuel h n i e j (A n) (A e) nn ne op nz (edges (Nd n (k1 ++ (i, Nd e cks, j) :: k2))) J (or_introl Ax) Pn Pe) as
    (hA & hB & h' & m & u & s & v & k & c & c' & x & y & E & C & E2 & Edt & XA & XB & Wc' & Sc' & Mm & Es & Tr & K0 & Lp & Rp & Ye & Yn & Xn & Xe & Hl & D' & S' & Lk & _ & _ & Nm & Rm).
  { apply (linkage_hangs K h _ None fuel true H Hf). }
  { intros c Sc. destruct (Fit c Sc). apply exact_fitting; auto. }
  { intros hA mid. destruct (Q hA mid) as (hB & Y1 & Y2 & _). eauto. }
  assert (c' = c).
  { destruct (Q hA (length h)) as (hB' & Y1 & _ & Y2). rewrite E2 in Y1. injection Y1 as <-. congruence. }
  subst c'.
  assert (Ea : exact m u s v k). { destruct (Fit c) as (Y1 & Y2); [apply C|]. eapply exact_fitting; eauto. }
  assert (Sp : same_pair (A n) i (A e) j y x k) by (eapply (us_pair K (A n) i (A e) j c m u s v k x y); eauto).
  destruct (after_move h h' A n k1 k2 i e cks j y x k N D' S' Lk) as (c1 & c2 & -> & N' & Pm & Am); auto.
  { intros t Ht. destruct (Nm t Ht) as (Y1 & Y2 & _). auto. }
  exists h', c1, c2, (upd2 A n e y x). cbn zeta. split; auto. split; auto. split; auto. split; auto. split; auto. split; auto.
  intros t H1 H2. unfold upd2. destruct (Nat.eqb_spec t n); [tauto|]. destruct (Nat.eqb_spec t e); [tauto|]. auto.
Qed.

(** A traversal that returns had enough fuel. *)
Lemma linkage_fuel h : forall t up fuel l, hangs h up t ->
  linkage_visitor fuel h (top t) (option_map fst up) true false = Ok l -> height t <= fuel.
Proof.
  induction t as [n|n ks IH] using tree_ind'; intros up fuel l H E; destruct fuel as [|fuel]; try discriminate; cbn [height]; [lia|].
  cbn [linkage_visitor top] in E. rewrite (children_node _ _ _ _ _ _ H), concatM_map in E.
  destruct (hangs_kids _ _ _ _ _ H) as (_ & F & _). apply le_n_S. apply list_max_le. apply Forall_forall. intros x Hx.
  apply in_map_iff in Hx. destruct Hx as (k & <- & Hk). rewrite Forall_forall in IH, F. cbn [orb] in E. rewrite filter_all in E by auto.
  assert (Y : forall ks l, concatM (fun x => let '(i, c, j) := kid3 x in let! rest := linkage_visitor fuel h c (Some j) true false in
     Ok ((n, i, c, j) :: rest ++ [])) ks = Ok l -> In k ks -> exists l', linkage_visitor fuel h (top (k_t k)) (Some (k_j k)) true false = Ok l').
  { clear. induction ks as [|k' ks IH]; intros l E Hk; [destruct Hk|]. cbn [concatM] in E. unfold kid3 at 1 in E.
    destruct (linkage_visitor fuel h (top (k_t k')) (Some (k_j k')) true false) as [l'|] eqn:E'; [|discriminate]. cbn [bind] in E.
    destruct Hk as [->|Hk]; eauto.
    destruct (concatM _ ks) eqn:E2; [|discriminate]. eauto. }
  destruct (Y ks l E Hk) as (l' & E'). apply (IH k Hk (Some (k_j k, (n, k_i k))) fuel l'); auto.
Qed.

(** An axis of the root that leads to an inner tensor is a child. *)
Lemma point_kid h t A n i e j : network h t A -> top t = n -> points h n i e j -> oleaf (hget h e) = false ->
  exists k1 cks k2, t = Nd n (k1 ++ (i, Nd e cks, j) :: k2).
Proof.
  intros (_ & _ & _ & H & _) Tn P L. destruct t as [x|x ks]; [inversion H|]. cbn in Tn. subst x.
  inversion H as [|? ? Lf AA D F|]; subst. unfold points in P. rewrite AA in P. apply in_map_iff in P. destruct P as (k & E & Hk).
  destruct k as ((a, s), b). unfold kid_half, k_i, k_t, k_j in E. cbn in E. injection E as -> E2 ->.
  rewrite Forall_forall in F. pose proof (F _ Hk) as Hs. unfold k_t in Hs. cbn in Hs. destruct s as [x|x cks].
  - inversion Hs; subst. cbn in L. congruence.
  - cbn in E2. subst x. apply in_split in Hk. destruct Hk as (k1 & k2 & ->). eauto.
Qed.

Lemma moves_state h n h' r : moves csvd h n h' r -> forall t A, network h t A -> top t = n ->
  exists t' A', network h' t' A' /\ top t' = r /\ Permutation (ids t) (ids t') /\
    (forall x, In x (ids t) -> oacc (hget h' x) = oacc (hget h x) /\ oname (hget h' x) = oname (hget h x) /\
       oleaf (hget h' x) = oleaf (hget h x) /\ onorm (hget h' x) = onorm (hget h x)) /\
    forall s, amp A' s None t' 0 = amp A s None t 0.
Proof.
  induction 1 as [h n|h n i e j op nz mid h1 h2 r P L Q E _ IH|fuel h n i e j op nz mid h1 h2 r P L Q E _ IH]; intros t A N Tn.
  - exists t, A. split; auto. split; auto. split; auto.
  - destruct (point_kid h t A n i e j N Tn P L) as (k1 & cks & k2 & ->).
    pose proof (split_moved h A n k1 k2 i e cks j op nz N Q) as (h1' & c1 & c2 & A' & M). cbn zeta in M.
    destruct M as (E' & -> & N' & Lk & Nm & _ & Pm & Am). rewrite E in E'. injection E' as _ <-.
    destruct (IH _ A' N' eq_refl) as (t2 & A2 & N2 & T2 & Pm2 & Lk2 & Am2).
    exists t2, A2. split; auto. split; auto. split; [etransitivity; eauto|]. split.
    + intros x Hx. assert (Hm : x <> length h) by (pose proof N as (_ & _ & _ & H & _); pose proof (hangs_lt K h _ _ H x Hx); lia).
      destruct (Lk2 x) as (Y1 & Y2 & Y3 & Y4); [eapply Permutation_in; eauto|]. destruct (Nm x Hm) as (Z1 & Z2 & Z3).
      rewrite Y1, Y2, Y3, Y4. auto.
    + intros s. rewrite Am2. auto.
  - destruct (point_kid h t A n i e j N Tn P L) as (k1 & cks & k2 & ->).
    destruct (le_lt_dec (height (Nd n (k1 ++ (i, Nd e cks, j) :: k2))) fuel) as [Hf|Hf].
    + pose proof (unite_moved fuel h A n k1 k2 i e cks j op nz N Q Hf) as (h1' & c1 & c2 & A' & M). cbn zeta in M.
      destruct M as (E' & -> & N' & Lk & Nm & _ & Pm & Am). rewrite E in E'. injection E' as _ <-.
      destruct (IH _ A' N' eq_refl) as (t2 & A2 & N2 & T2 & Pm2 & Lk2 & Am2).
      exists t2, A2. split; auto. split; auto. split; [etransitivity; eauto|]. split.
      * intros x Hx. assert (Hm : x <> length h) by (pose proof N as (_ & _ & _ & H & _); pose proof (hangs_lt K h _ _ H x Hx); lia).
        destruct (Lk2 x) as (Y1 & Y2 & Y3 & Y4); [eapply Permutation_in; eauto|]. destruct (Nm x Hm) as (Z1 & Z2 & Z3).
        rewrite Y1, Y2, Y3, Y4. auto.
      * intros s. rewrite Am2. auto.
    + exfalso. pose proof N as (_ & _ & _ & H & _). unfold unite_split in E.
      destruct (linkage_visitor fuel h n None true false) as [l|] eqn:El; [|discriminate].
      pose proof (linkage_fuel h _ None fuel l H El). lia.
Qed.

End Exact.
End State.
