(** Moving the root: [split_unite] and [unite_split]. *)
From Coq Require Import String List Arith Bool Lia Permutation Sorting.Sorted.
From Verif Require Import Py Alg ListX NdArray_Model NdArray_Proof Contract_Model Contract_Spec Contract_Proof
  Net_Model Net_Spec Trav_Proof Link_Spec Link_Proof Move_Spec Split_Proof Relink_Proof Move_Proof.
Import ListNotations.
Local Open Scope nat_scope.
Local Open Scope list_scope.
Local Open Scope py_scope.

Lemma nth_error_nil {A} k : @nth_error A [] k = None.
Proof. now destruct k. Qed.
Lemma map_fst_combine {A B} (l : list A) (l' : list B) : length l = length l' -> map fst (combine l l') = l.
Proof. revert l'; induction l as [|x l IH]; intros [|y l'] H; cbn in *; try lia; auto. f_equal. apply IH. lia. Qed.
Lemma map_snd_combine {A B} (l : list A) (l' : list B) : length l = length l' -> map snd (combine l l') = l'.
Proof. revert l'; induction l as [|x l IH]; intros [|y l'] H; cbn in *; try lia; auto. f_equal. apply IH. lia. Qed.
Lemma seq_sorted n : forall s, Sorted lt (seq s n).
Proof.
  induction n as [|n IH]; intros s; cbn; constructor; auto. destruct n; cbn; constructor. lia.
Qed.
Lemma index_of_lt l i : In i l -> index_of i l < length l.
Proof.
  induction l as [|k l IH]; intros H; [destruct H|]. cbn [index_of length]. destruct (Nat.eqb_spec k i) as [|Hn]; [lia|].
  destruct H as [H|H]; [tauto|]. apply IH in H. lia.
Qed.
Lemma index_of_at l p i : NoDup l -> nth_error l p = Some i -> index_of i l = p.
Proof.
  intros D H. assert (Hi : In i l) by (eapply nth_error_In; eauto).
  assert (Hl := index_of_lt l i Hi). eapply NoDup_nth_error; eauto.
  rewrite H. rewrite (nth_error_nth' l 0 Hl). f_equal. apply nth_index_of. auto.
Qed.
Section Lists.
Context {A : Type}.
Implicit Types l : list A.
Lemma nth_error_ins_eq i x l : i <= length l -> nth_error (ins i x l) i = Some x.
Proof.
  intros H. unfold ins. rewrite nth_error_app2 by (rewrite firstn_length; lia).
  rewrite firstn_length, Nat.min_l, Nat.sub_diag by lia. reflexivity.
Qed.
Lemma nth_error_firstn' i k l : nth_error (firstn i l) k = if k <? i then nth_error l k else None.
Proof.
  revert k l; induction i as [|i IH]; intros k l.
  - cbn. destruct k; reflexivity.
  - destruct l as [|x l]; [cbn [firstn]; rewrite !nth_error_nil; destruct (k <? S i); reflexivity|]. destruct k as [|k]; [reflexivity|].
    cbn [firstn nth_error]. rewrite IH. reflexivity.
Qed.
Lemma nth_error_skipn' i k l : nth_error (skipn i l) k = nth_error l (i + k).
Proof. revert l; induction i as [|i IH]; intros [|x l]; auto. cbn [skipn]. now rewrite !nth_error_nil. cbn. apply IH. Qed.
Lemma nth_error_ins_shifted i x l p : i <= length l -> nth_error (ins i x l) (shifted i p) = nth_error l p.
Proof.
  intros H. unfold ins, shifted. destruct (Nat.ltb_spec p i) as [Hp|Hp].
  - rewrite nth_error_app1 by (rewrite firstn_length; lia). rewrite nth_error_firstn'.
    apply Nat.ltb_lt in Hp. now rewrite Hp.
  - rewrite nth_error_app2 by (rewrite firstn_length; lia). rewrite firstn_length, Nat.min_l by lia.
    replace (S p - i) with (S (p - i)) by lia. cbn [nth_error]. rewrite nth_error_skipn'. f_equal. lia.
Qed.
Lemma shifted_onto i k : k <> i -> exists p, k = shifted i p.
Proof.
  intros H. unfold shifted. destruct (Nat.lt_ge_cases k i).
  - exists k. apply Nat.ltb_lt in H0. now rewrite H0.
  - exists (k - 1). destruct (Nat.ltb_spec (k - 1) i); lia.
Qed.
Lemma ins_nth_del i l x : nth_error l i = Some x -> ins i x (del i l) = l.
Proof.
  revert i; induction l as [|y l IH]; intros [|i] H; cbn in H; try discriminate.
  - injection H as ->. reflexivity.
  - unfold ins, del. cbn. f_equal. apply (IH i) in H. unfold ins, del in H. auto.
Qed.
End Lists.

Section MoveRoot.
Variable K : StarRing.
Implicit Types h : heap K.

Lemma acc_eq h x (L : list half) : dicts_ok h -> (forall k y l, points h x k y l <-> nth_error L k = Some (y, l)) ->
  oacc (hget h x) = combine (seq 0 (length L)) L.
Proof.
  intros D H. apply dok_ext.
  - apply dicts_dok. auto.
  - unfold dok. rewrite map_fst_combine by now rewrite seq_length. apply seq_sorted.
  - intros k [y l]. rewrite in_combine_seq, Nat.sub_0_r. specialize (H k y l). unfold points in H. intuition lia.
Qed.
Lemma acc_numbered h x (L : list half) : oacc (hget h x) = combine (seq 0 (length L)) L -> numbered h x /\ targets h x = L.
Proof.
  intros E. unfold numbered, targets. rewrite E. rewrite map_fst_combine, map_snd_combine by now rewrite seq_length.
  split; auto. rewrite combine_length, seq_length, Nat.min_id. reflexivity.
Qed.
Lemma numbered_acc h x : numbered h x -> oacc (hget h x) = combine (seq 0 (length (targets h x))) (targets h x).
Proof. intros N. rewrite targets_length. apply numbered_combine. auto. Qed.


(** ** Links after [split] *)
Lemma in_split_info h n r i1 c i2 l l' z k y l0 :
  oleaf (hget h n) = false -> i1 <= length l -> i2 <= length l' ->
  (forall i t l0, points h n i t l0 -> In i l \/ In i l') ->
  In (z, k, y, l0) (split_info (children h n None true) r i1 c i2 l l') <->
  (z = r /\ k = i1 /\ y = c /\ l0 = i2) \/
  exists i, points h n i y l0 /\ ((In i l /\ z = r /\ k = shifted i1 (index_of i l)) \/
    (~ In i l /\ z = c /\ k = shifted i2 (index_of i l'))).
Proof.
  intros L B1 B2 C. unfold split_info. rewrite children_all by auto. cbn [In]. split.
  - intros [E|H]; [inversion E; subst; auto 10|]. right. apply in_map_iff in H. destruct H as ([[i t] j] & E & H).
    apply in_map_iff in H. destruct H as ([i' [t' j']] & E' & H). cbn in E'. inversion E'; subst i' t' j'.
    exists i. destruct (memb i l) eqn:M.
    + apply membP in M. rewrite oindex_shifted in E by auto. inversion E; subst. split; auto.
    + assert (Hn : ~ In i l) by (rewrite <- membP; congruence).
      assert (Hi : In i l') by (destruct (C _ _ _ H); tauto).
      rewrite oindex_shifted in E by auto. inversion E; subst. split; auto.
  - intros [(-> & -> & -> & ->)|(i & H & E)]; [auto|]. right. apply in_map_iff. exists (i, y, l0). split.
    + destruct E as [(Hi & -> & ->)|(Hn & -> & ->)].
      * apply membP in Hi as M. rewrite M. rewrite oindex_shifted by auto. reflexivity.
      * destruct (memb i l) eqn:M; [apply membP in M; tauto|].
        rewrite oindex_shifted; auto. destruct (C _ _ _ H); tauto.
    + apply in_map_iff. exists (i, (y, l0)). auto.
Qed.

Lemma split_links h h' n r c i1 i2 l :
  let N := length (oacc (hget h n)) in let l' := rest N l in let T := targets h n in
  dicts_ok h' -> symmetric h -> numbered h n -> oleaf (hget h n) = false ->
  (forall i t l, points h n i t l -> t <> n) -> NoDup l -> Forall (fun k => k < N) l ->
  i1 <= length l -> i2 <= length l' -> r <> c ->
  (r = n \/ oacc (hget h r) = []) -> (c = n \/ oacc (hget h c) = []) ->
  (forall z k y l0, points h' z k y l0 <->
      (points h z k y l0 /\ z <> n /\ y <> n) \/
      In (z, k, y, l0) (split_info (children h n None true) r i1 c i2 l l') \/
      In (y, l0, z, k) (split_info (children h n None true) r i1 c i2 l l')) ->
  (let L := ins i1 (c, i2) (map (fun i => nth i T (0, 0)) l) in oacc (hget h' r) = combine (seq 0 (length L)) L) /\
  (let L := ins i2 (r, i1) (map (fun i => nth i T (0, 0)) l') in oacc (hget h' c) = combine (seq 0 (length L)) L) /\
  (n <> r -> n <> c -> oacc (hget h' n) = []) /\
  (forall x k y j, x <> n -> x <> r -> x <> c -> y <> n -> y <> r -> y <> c -> (points h' x k y j <-> points h x k y j)).
Proof.
  intros N l' T D' Sy Nu Lf O Dl Fl B1 B2 Hrc Hr Hc Q.
  assert (Pt : forall i y j, points h n i y j <-> nth_error T i = Some (y, j)) by (intros; apply numbered_points; auto).
  assert (LT : length T = N) by apply targets_length.
  assert (Cov : forall i t l0, points h n i t l0 -> In i l \/ In i l').
  { intros i t l0 H. apply Pt in H. assert (Hi : i < N) by (rewrite <- LT; apply nth_error_Some; congruence).
    destruct (in_dec Nat.eq_dec i l); auto. right. apply in_rest. auto. }
  assert (Q' : forall z k y l0, points h' z k y l0 <->
      (points h z k y l0 /\ z <> n /\ y <> n) \/
      ((z = r /\ k = i1 /\ y = c /\ l0 = i2) \/
        exists i, points h n i y l0 /\ ((In i l /\ z = r /\ k = shifted i1 (index_of i l)) \/
          (~ In i l /\ z = c /\ k = shifted i2 (index_of i l')))) \/
      ((y = r /\ l0 = i1 /\ z = c /\ k = i2) \/
        exists i, points h n i z k /\ ((In i l /\ y = r /\ l0 = shifted i1 (index_of i l)) \/
          (~ In i l /\ y = c /\ l0 = shifted i2 (index_of i l'))))).
  { intros z k y l0. rewrite Q. rewrite !(in_split_info h n) by auto. reflexivity. }
  clear Q.
  assert (NoIn : forall t, t = n \/ oacc (hget h t) = [] -> forall i k, ~ points h n i t k).
  { intros t Ht i k H. destruct Ht as [->|E]; [eapply O; eauto|]. apply Sy in H. unfold points in H. rewrite E in H. destruct H. }
  assert (NoOut : forall t, t = n \/ oacc (hget h t) = [] -> t <> n -> forall i y k, ~ points h t i y k).
  { intros t Ht Hn i y k H. destruct Ht as [->|E]; [tauto|]. unfold points in H. rewrite E in H. destruct H. }
  assert (Dl' : NoDup l') by apply rest_nodup.
  assert (Mem : forall i, In i l -> i < N) by (rewrite Forall_forall in Fl; auto).
  assert (Mem' : forall i, In i l' -> i < N /\ ~ In i l) by (intros i Hi; apply in_rest in Hi; auto).
  assert (Nth : forall m p y j, (forall i, In i m -> i < N) -> NoDup m ->
     (nth_error (map (fun i => nth i T (0, 0)) m) p = Some (y, j) <-> exists i, points h n i y j /\ In i m /\ index_of i m = p)).
  { intros m p y j Hm Dm. split.
    - intros H. destruct (nth_error m p) as [i|] eqn:E.
      + exists i. rewrite (map_nth_error _ _ _ E) in H. injection H as H. assert (Hi : In i m) by (eapply nth_error_In; eauto).
        split; [|split; [auto|apply index_of_at; auto]]. apply Pt. rewrite <- H. apply nth_error_nth'. rewrite LT. auto.
      + apply nth_error_None in E. assert (nth_error (map (fun i => nth i T (0, 0)) m) p = None) by (apply nth_error_None; rewrite map_length; auto). congruence.
    - intros (i & H & Hi & <-). erewrite map_nth_error.
      2:{ rewrite (nth_error_nth' m 0) by (apply index_of_lt; auto). rewrite nth_index_of; auto. }
      f_equal. apply Pt in H. erewrite nth_error_nth; eauto. }
  split; [|split; [|split]].
  - apply acc_eq; auto. intros k y j. rewrite Q'.
    assert (Bm : i1 <= length (map (fun i => nth i T (0, 0)) l)) by now rewrite map_length.
    destruct (Nat.eq_dec k i1) as [->|Hk].
    + rewrite nth_error_ins_eq by auto. split.
      * intros [(H & Hn & _)|[[(_ & _ & -> & ->)|(i & H & [(_ & _ & E)|(_ & E & _)])]|[(_ & _ & E & _)|(i & H & _)]]];
          try (exfalso; now apply (NoOut r Hr Hn _ _ _ H)); try congruence; try (now apply (NoIn r Hr) in H).
        exfalso. eapply shifted_ne; symmetry; eauto.
      * intros E. injection E as <- <-. right. left. left. auto.
    + destruct (shifted_onto i1 k Hk) as (p & ->). rewrite nth_error_ins_shifted by auto. rewrite Nth by auto. split.
      * intros [(H & Hn & _)|[[(_ & E & _)|(i & H & [(Hi & _ & E)|(_ & E & _)])]|[(_ & _ & E & _)|(i & H & _)]]];
          try (exfalso; now apply (NoOut r Hr Hn _ _ _ H)); try congruence; try (now apply (NoIn r Hr) in H).
        apply shifted_inj in E. eauto.
      * intros (i & H & Hi & <-). right. left. right. exists i. split; auto.
  - apply acc_eq; auto. intros k y j. rewrite Q'.
    assert (Bm : i2 <= length (map (fun i => nth i T (0, 0)) l')) by now rewrite map_length.
    destruct (Nat.eq_dec k i2) as [->|Hk].
    + rewrite nth_error_ins_eq by auto. split.
      * intros [(H & Hn & _)|[[(E & _)|(i & H & [(_ & E & _)|(_ & _ & E)])]|[(-> & -> & _)|(i & H & _)]]];
          try (exfalso; now apply (NoOut c Hc Hn _ _ _ H)); try congruence; try (now apply (NoIn c Hc) in H).
        exfalso. eapply shifted_ne; symmetry; eauto.
      * intros E. injection E as <- <-. right. right. left. auto.
    + destruct (shifted_onto i2 k Hk) as (p & ->). rewrite nth_error_ins_shifted by auto. rewrite Nth by (auto; intros; apply Mem'; auto). split.
      * intros [(H & Hn & _)|[[(E & _)|(i & H & [(_ & E & _)|(Hi & _ & E)])]|[(_ & _ & _ & E)|(i & H & _)]]];
          try (exfalso; now apply (NoOut c Hc Hn _ _ _ H)); try congruence; try (now apply (NoIn c Hc) in H).
        apply shifted_inj in E. exists i. split; auto. split; auto. destruct (Cov _ _ _ H); tauto.
      * intros (i & H & Hi & <-). right. left. right. exists i. split; auto. right. split; auto. apply Mem'. auto.
  - intros Hnr Hnc. assert (E : forall k y j, ~ points h' n k y j).
    { intros k y j. rewrite Q'. intros [(_ & H & _)|[[(E & _)|(i & H & [(_ & E & _)|(_ & E & _)])]|[(_ & _ & E & _)|(i & H & _)]]]; try tauto.
      eapply O; eauto. }
    destruct (oacc (hget h' n)) as [|[k [y j]] d] eqn:Ed; auto. exfalso. apply (E k y j). unfold points. rewrite Ed. left. auto.
  - intros x k y j H1 H2 H3 H4 H5 H6. rewrite Q'. split.
    + intros [(H & _)|[[(E & _)|(i & H & [(_ & E & _)|(_ & E & _)])]|[(E & _)|(i & H & [(_ & E & _)|(_ & E & _)])]]]; try congruence; auto.
    + auto.
Qed.

(** ** Links after [unite] *)
Lemma unite_links h h' t1 axis t2 j r :
  dicts_ok h' -> (r = t1 \/ r = t2 \/ forall x k l, ~ points h x k r l /\ ~ points h r l x k) -> symmetric h ->
  points h t1 axis t2 j -> numbered h t1 -> numbered h t2 ->
  (forall i c l, points h t1 i c l -> c = t1 \/ c = t2 -> i = axis) ->
  (forall i c l, points h t2 i c l -> c = t1 \/ c = t2 -> i = j) ->
  (forall x k y l, points h' x k y l <->
      (points h x k y l /\ x <> t1 /\ x <> t2 /\ y <> t1 /\ y <> t2) \/
      (x = r /\ nth_error (joined K h t1 axis t2 j) k = Some (y, l)) \/
      (y = r /\ nth_error (joined K h t1 axis t2 j) l = Some (x, k))) ->
  (let L := joined K h t1 axis t2 j in oacc (hget h' r) = combine (seq 0 (length L)) L) /\
  (forall t, t = t1 \/ t = t2 -> t <> r -> oacc (hget h' t) = []) /\
  (forall x k y l, x <> t1 -> x <> t2 -> x <> r -> y <> t1 -> y <> t2 -> y <> r -> (points h' x k y l <-> points h x k y l)).
Proof.
  intros D' Hr Sy P N1 N2 O1 O2 Q.
  assert (J : forall k y l, nth_error (joined K h t1 axis t2 j) k = Some (y, l) ->
     (exists i, points h t1 i y l /\ i <> axis) \/ (exists i, points h t2 i y l /\ i <> j)).
  { assert (Dl : forall t i y l, numbered h t -> In (y, l) (del i (targets h t)) -> exists i', points h t i' y l /\ i' <> i).
    { intros t i y l Nt H. apply In_nth_error in H. destruct H as (p & H).
      exists (shifted i p). split; [|apply shifted_ne]. apply numbered_points; auto. rewrite <- H.
      unfold del, shifted. destruct (Nat.ltb_spec p i) as [Hp|Hp].
      - destruct (Nat.lt_ge_cases p (length (targets h t))) as [Hl|Hl].
        + rewrite nth_error_app1 by (rewrite firstn_length; lia). rewrite nth_error_firstn'. apply Nat.ltb_lt in Hp. now rewrite Hp.
        + rewrite firstn_all2 by lia. rewrite (skipn_all2 (n := S i)) by lia. now rewrite app_nil_r.
      - destruct (Nat.lt_ge_cases (length (targets h t)) i) as [Hl|Hl].
        + rewrite firstn_all2 by lia. rewrite (skipn_all2 (n := S i)) by lia. rewrite app_nil_r.
          rewrite (proj2 (nth_error_None _ _)) by lia. symmetry. apply nth_error_None. lia.
        + rewrite nth_error_app2 by (rewrite firstn_length; lia). rewrite firstn_length, Nat.min_l by lia.
          rewrite nth_error_skipn'. f_equal. lia. }
    intros k y l H. apply nth_error_In in H. unfold joined in H. apply in_app_iff in H. destruct H as [H|H].
    - left. apply Dl; auto. rewrite <- (firstn_skipn axis (del axis (targets h t1))). apply in_app_iff. auto.
    - apply in_app_iff in H. destruct H as [H|H].
      + right. apply Dl; auto.
      + left. apply Dl; auto. rewrite <- (firstn_skipn axis (del axis (targets h t1))). apply in_app_iff. auto. }
  assert (Jn : forall k y l, nth_error (joined K h t1 axis t2 j) k = Some (y, l) -> y <> t1 /\ y <> t2 /\ y <> r).
  { intros k y l H. apply J in H. assert (X : y <> t1 /\ y <> t2).
    { destruct H as [(i & H & Hi)|(i & H & Hi)].
      - split; intros ->; apply Hi; eapply O1; eauto.
      - split; intros ->; apply Hi; eapply O2; eauto. }
    destruct X as (X1 & X2). split; auto. split; auto. intros ->. destruct Hr as [Hr|[Hr|Hr]]; [tauto|tauto|].
    destruct H as [(i & H & _)|(i & H & _)]; eapply Hr; eauto. }
  split; [|split].
  - apply acc_eq; auto. intros k y l. rewrite Q. split.
    + intros [(H & H1 & H2 & _)|[(_ & H)|(-> & H)]]; auto.
      * exfalso. destruct Hr as [Hr|[Hr|Hr]]; [tauto|tauto|]. eapply Hr; eauto.
      * exfalso. apply Jn in H. tauto.
    + intros H. right. left. auto.
  - intros t Ht Hn. assert (E : forall k y l, ~ points h' t k y l).
    { intros k y l. rewrite Q. intros [(_ & H1 & H2 & _)|[(E & _)|(_ & H)]]; [destruct Ht; tauto|tauto|].
      apply Jn in H. destruct Ht; subst; tauto. }
    destruct (oacc (hget h' t)) as [|[k [y l]] d] eqn:Ed; auto. exfalso. apply (E k y l). unfold points. rewrite Ed. left. auto.
  - intros x k y l H1 H2 H3 H4 H5 H6. rewrite Q. split; [|auto 10].
    intros [(H & _)|[(E & _)|(E & _)]]; try congruence; auto.
Qed.

(** Links agree everywhere if they agree at, and away from, some objects. *)
Lemma links_agree h h' (U : id -> bool) : dicts_ok h -> dicts_ok h' -> symmetric h -> symmetric h' ->
  (forall x, U x = true -> oacc (hget h' x) = oacc (hget h x)) ->
  (forall x k y l, U x = false -> U y = false -> (points h' x k y l <-> points h x k y l)) ->
  forall x, oacc (hget h' x) = oacc (hget h x).
Proof.
  intros D D' Sy Sy' H1 H2 x. destruct (U x) eqn:Ux; [auto|].
  apply dok_ext; try (apply dicts_dok; auto). intros k [y l].
  change (points h' x k y l <-> points h x k y l). destruct (U y) eqn:Uy; [|auto].
  split; intros H.
  - apply Sy. apply Sy' in H. unfold points in *. now rewrite <- H1.
  - apply Sy'. apply Sy in H. unfold points in *. now rewrite H1.
Qed.

(** ** split_unite *)
Section Moves.
Variable csvd : arr K -> res (arr K * arr K * arr K).
(** The factors fit the matrix [a] is turned into. *)
Definition fitting (a : arr K) (l : list nat) : Prop :=
  forall m, matricized a l m -> exists u s v k, csvd m = Ok (u, s, v) /\ triple m u s v k /\ 0 < k.

Lemma rest_single n i : i < n -> rest n [i] = del i (seq 0 n).
Proof.
  intros H. destruct (rest_split n [] i (Forall_nil _) (NoDup_nil _) H) as (E1 & E2 & E3). cbn [app] in E2. rewrite E2.
  unfold rest. rewrite filter_all_id by reflexivity. unfold del.
  replace n with (i + (n - i)) at 2 3 by lia. rewrite seq_app, firstn_app, firstn_all2 by (rewrite seq_length; lia).
  rewrite seq_length, Nat.sub_diag, firstn_O, app_nil_r. f_equal.
  rewrite skipn_app, (skipn_all2 (n := S i)) by (rewrite seq_length; lia). rewrite seq_length. cbn [app].
  replace (S i - i) with 1 by lia. replace (n - i) with (S (n - S i)) by lia. reflexivity.
Qed.
Lemma map_nth_del {A} (T : list A) d i : map (fun k => nth k T d) (del i (seq 0 (length T))) = del i T.
Proof.
  rewrite map_del, map_nth_seq. reflexivity.
Qed.

Lemma su_first h n i e j an ae nn ne nz :
  joint h n i e j an ae nn ne -> oaxis (hget h n) = None -> count_ascii plus nn <= 1 -> fitting an [i] ->
  let mid := length h in
  exists hA m u s v k x y,
    split csvd h n (AxInt i) None None (Some n) nz = Ok (mid, n, hA) /\
    matricized an [i] m /\ csvd m = Ok (u, s, v) /\ triple m u s v k /\ 0 < k /\
    left_part an [i] 0 k u s x /\ right_part an [i] i k v y /\
    dicts_ok hA /\ symmetric hA /\ mid < length hA /\
    (forall z, z <> n -> z <> mid -> attrs (hget h z) (hget hA z)) /\
    attrs (new_tensor (Some (name1_of nn)) (Some x) None nz) (hget hA mid) /\
    attrs (put_arr (Some y) (put_axis (Some i) (hget h n))) (hget hA n) /\
    oacc (hget hA mid) = [(0, (n, i)); (1, (e, j))] /\
    numbered hA n /\ targets hA n = ins i (mid, 0) (del i (targets h n)) /\
    numbered hA e /\ targets hA e = ins j (mid, 1) (del j (targets h e)) /\
    (forall x k y l, x <> n -> x <> mid -> y <> n -> y <> mid -> (points hA x k y l <-> points h x k y l)).
Proof.
  intros (D & Sy & Sn & Se & Hne & P & Only & Sfn & Sfe & Hd) Ax Pl Ft mid.
  destruct Sn as (Ln & Lfn & Nn & An & Wn & Pn & Dn & Nmn). destruct Se as (Le & Lfe & Ne & Ae & We & Pe & De & Nme).
  assert (Ti : nth_error (targets h n) i = Some (e, j)) by (apply numbered_points; auto).
  assert (Hi : i < ndim an) by (rewrite Dn, <- (targets_length K h n); apply nth_error_Some; congruence).
  assert (Rl : length (rest (ndim an) [i]) = ndim an - 1).
  { rewrite rest_length; auto. repeat constructor. intros []. }
  assert (Hfree : oacc (hget h mid) = []) by (rewrite hget_out by (unfold mid; lia); reflexivity).
  destruct (split_ok K csvd h n (AxInt i) None None (Some n) nz an nn) as
    (hA & m & u & s & v & k & x & y & E & Mm & Es & Tr & Lp & Rp & DA & SA & Hl & Hr & Hc & Oth & Atr & Atc & Q); auto.
  - intros k t l H ->. eapply Sfn; eauto.
  - repeat constructor.
  - repeat constructor. auto.
  - cbn. lia.
  - cbn [axes_of indice_of default_of snd]. lia.
  - intros m Hm. destruct (Ft m Hm) as (u & s & v & k & X & Y & _). eauto 6.
  - right. exists n. auto.
  - cbn. lia.
  - cbn [axes_of indice_of default_of fst snd root_of child_of] in E, Mm, Lp, Rp, Hr, Hc, Oth, Atr, Atc, Q. fold mid in E, Hr, Oth, Atr, Q.
    assert (Hm : mid <> n) by (unfold mid; lia). assert (Hme : mid <> e) by (unfold mid; lia).
    assert (K0 : 0 < k).
    { destruct (Ft m Mm) as (u' & s' & v' & k' & X & Y & Z). rewrite X in Es. injection Es as -> -> ->.
      destruct Y as (p & q & _ & _ & (_ & Sh) & _). destruct Tr as (p' & q' & _ & _ & (_ & Sh') & _). rewrite Sh in Sh'. injection Sh' as E1 _. lia. }
    destruct (split_links h hA n mid n 0 i [i]) as (L1 & L2 & _ & L4); auto.
    + intros k0 t l H ->. eapply Sfn; eauto.
    + repeat constructor. intros [].
    + constructor; [lia|constructor].
    + cbn. lia.
    + rewrite <- Dn, Rl. lia.
    + rewrite <- Dn. auto.
    + cbn zeta in L1, L2. rewrite <- Dn, rest_single in L2 by auto.
      rewrite Dn, <- (targets_length K h n), map_nth_del in L2.
      cbn [map] in L1. rewrite (nth_error_nth _ _ _ Ti) in L1. cbn in L1.
      assert (Nn' := acc_numbered hA n _ L2). destruct Nn' as (Nn' & Tn').
      assert (Ldel : i <= length (del i (targets h n))).
      { rewrite length_del by (rewrite targets_length; lia). rewrite targets_length. lia. }
      assert (Qe : forall k0 y0 l, points hA e k0 y0 l <-> nth_error (ins j (mid, 1) (del j (targets h e))) k0 = Some (y0, l)).
      { assert (Tj : nth_error (targets h e) j = Some (n, i)) by (apply numbered_points; auto).
        assert (Hj : j < length (targets h e)) by (apply nth_error_Some; congruence).
        assert (Ldj : j <= length (del j (targets h e))) by (rewrite length_del by auto; lia).
        assert (Bj : forall p, nth_error (del j (targets h e)) p = nth_error (targets h e) (shifted j p)).
        { intros p. rewrite <- (ins_nth_del j (targets h e) (n, i) Tj) at 2. now rewrite nth_error_ins_shifted. }
        intros k0 y0 l. destruct (Nat.eq_dec y0 mid) as [->|Hy1]; [|destruct (Nat.eq_dec y0 n) as [->|Hy2]].
        - split.
          + intros H. apply SA in H. unfold points in H. rewrite L1 in H. destruct H as [H|[H|[]]]; inversion H; subst; [congruence|].
            apply nth_error_ins_eq. auto.
          + intros H. destruct (Nat.eq_dec k0 j) as [->|Hk].
            * rewrite nth_error_ins_eq in H by auto. injection H as <-. apply SA. unfold points. rewrite L1. right. left. auto.
            * destruct (shifted_onto j k0 Hk) as (p & ->). rewrite nth_error_ins_shifted, Bj in H by auto.
              apply (numbered_points K h e) in H; auto. apply Sy in H. unfold points in H. rewrite Hfree in H. destruct H.
        - split.
          + intros H. exfalso. apply SA in H. apply (numbered_points K hA n) in H; auto. rewrite Tn' in H.
            destruct (Nat.eq_dec l i) as [->|Hli].
            * rewrite nth_error_ins_eq in H by auto. congruence.
            * destruct (shifted_onto i l Hli) as (p & ->). rewrite nth_error_ins_shifted in H by auto.
              rewrite <- (nth_error_ins_shifted i (e, j)) in H by auto.
              rewrite (ins_nth_del i (targets h n) (e, j) Ti) in H. apply (numbered_points K h n) in H; auto. apply Only in H. tauto.
          + intros H. exfalso. destruct (Nat.eq_dec k0 j) as [->|Hk].
            * rewrite nth_error_ins_eq in H by auto. congruence.
            * destruct (shifted_onto j k0 Hk) as (p & ->). rewrite nth_error_ins_shifted, Bj in H by auto.
              apply (numbered_points K h e) in H; auto. apply Sy in H. pose proof (Only _ _ H) as ->.
              assert (X := points_key K h n _ _ _ _ _ D H P). injection X as X. now apply shifted_ne in X.
        - rewrite L4 by auto. rewrite (numbered_points K h e) by auto. destruct (Nat.eq_dec k0 j) as [->|Hk].
          + rewrite nth_error_ins_eq by auto. rewrite Tj. split; congruence.
          + destruct (shifted_onto j k0 Hk) as (p & ->). rewrite nth_error_ins_shifted, Bj by auto. reflexivity. }
      apply acc_eq in Qe; auto. apply acc_numbered in Qe. destruct Qe as (Ne' & Te').
      exists hA, m, u, s, v, k, x, y. cbn [placed] in Atr, Atc. repeat (split; [first [assumption|intros z Hz1 Hz2; apply Oth; assumption]|]).
      intros x0 k0 y0 l H1 H2 H3 H4. apply L4; auto.
Qed.
Lemma edits_links h x h' : edits h x h' -> forall z, oacc (hget h' z) = oacc (hget h z).
Proof. intros (_ & H & _) z. apply H. Qed.
Lemma edits_targets h x h' z : edits h x h' -> targets h' z = targets h z.
Proof. intros E. unfold targets. now rewrite (edits_links _ _ _ E). Qed.
Lemma edits_numbered h x h' z : edits h x h' -> numbered h z -> numbered h' z.
Proof. intros E. unfold numbered. now rewrite (edits_links _ _ _ E). Qed.

Lemma su_second hB n i e j mid ae x ne nm nz (T : list half) :
  dicts_ok hB -> symmetric hB -> n <> e -> mid <> n -> mid <> e -> mid < length hB ->
  oacc (hget hB mid) = [(0, (n, i)); (1, (e, j))] -> oleaf (hget hB mid) = false -> oarr (hget hB mid) = Some x ->
  oaxis (hget hB mid) = None -> oname (hget hB mid) = Some nm ->
  e < length hB -> oleaf (hget hB e) = false -> oarr (hget hB e) = Some ae -> oname (hget hB e) = Some ne ->
  ndim ae = length (oacc (hget hB e)) -> ndim x = 2 -> nth j (shape ae) 0 = nth 1 (shape x) 0 ->
  numbered hB e -> targets hB e = ins j (mid, 1) (del j T) -> nth_error T j = Some (n, i) ->
  (forall k l, ~ points hB e k e l) ->
  exists h' z, unite hB e j (Some e) nz = Ok (e, h') /\ contracts ae j x 1 z /\
    dicts_ok h' /\ symmetric h' /\ length hB <= length h' /\
    (forall t, t <> e -> attrs (hget hB t) (hget h' t)) /\
    attrs (put_arr (Some z) (put_axis None (hget hB e))) (hget h' e) /\
    oacc (hget h' mid) = [] /\ oacc (hget h' e) = combine (seq 0 (length T)) T /\
    (forall t k y l, t <> e -> t <> mid -> y <> e -> y <> mid -> (points h' t k y l <-> points hB t k y l)).
Proof.
  intros D Sy Hne Hmn Hme Lm Am Lfm Xm Axm Nmm Le Lfe Ae Nme De Nx Hd Nu Te Tj Sf.
  assert (Hj : j < length T) by (apply nth_error_Some; congruence).
  assert (Lj : j <= length (del j T)) by (rewrite length_del by auto; lia).
  assert (Num : numbered hB mid) by (unfold numbered; rewrite Am; reflexivity).
  assert (Pj : points hB e j mid 1) by (apply numbered_points; auto; rewrite Te; apply nth_error_ins_eq; auto).
  assert (O1 : forall k c l, points hB e k c l -> c = e \/ c = mid -> k = j).
  { intros k c l H [->| ->]; [exfalso; eapply Sf; eauto|]. apply Sy in H. unfold points in H. rewrite Am in H.
    destruct H as [H|[H|[]]]; inversion H; subst; congruence. }
  assert (O2 : forall k c l, points hB mid k c l -> c = e \/ c = mid -> k = 1).
  { intros k c l H Hc. unfold points in H. rewrite Am in H. destruct H as [H|[H|[]]]; inversion H; subst; auto. destruct Hc; congruence. }
  destruct (unite_ok K hB e j mid 1 (Some e) nz ae x ne nm) as (h' & z & nm' & E & C & _ & D' & S' & Hl & _ & Oth & Ate & Q); auto.
  - rewrite De, <- (targets_length K hB e), Te, length_ins by auto. lia.
  - lia.
  - exists h', z. cbn [root_of] in *. split; auto. split; auto. split; auto. split; auto. split; auto. split; auto. split; auto.
    destruct (unite_links hB h' e j mid 1 e) as (L1 & L2 & L3); auto. cbn zeta in L1.
    assert (EJ : joined K hB e j mid 1 = T).
    { unfold joined. rewrite Te. rewrite del_ins by auto. unfold targets. rewrite Am. cbn [map snd].
      change (del 1 [(n, i); (e, j)]) with [(n, i)]. exact (ins_nth_del j T (n, i) Tj). }
    rewrite EJ in L1. split; auto. 
Qed.

Lemma split_unite_ok h n i e j an ae nn ne operator nz :
  joint h n i e j an ae nn ne -> oaxis (hget h n) = None -> count_ascii plus nn <= 1 -> fitting an [i] ->
  (forall hA mid, exists hB, operator hA mid = Ok (mid, hB) /\ edits hA mid hB) ->
  let mid := length h in
  exists hA hB h' m u s v k x y x' z,
    split_unite csvd h n i operator nz = Ok (n, mid, e, h') /\
    matricized an [i] m /\ csvd m = Ok (u, s, v) /\ triple m u s v k /\ 0 < k /\
    left_part an [i] 0 k u s x /\ right_part an [i] i k v y /\
    operator hA mid = Ok (mid, hB) /\ edits hA mid hB /\
    oarr (hget hA mid) = Some x /\ oarr (hget hB mid) = Some x' /\ wf x' /\ shape x' = shape x /\
    contracts ae j x' 1 z /\ oarr (hget h' n) = Some y /\ oarr (hget h' e) = Some z /\
    oaxis (hget h' n) = Some i /\ oaxis (hget h' e) = None /\
    length h <= length h' /\ dicts_ok h' /\ symmetric h' /\ (forall t, oacc (hget h' t) = oacc (hget h t)) /\
    (forall t, t <> n -> t <> mid -> attrs (hget h t) (hget hA t)) /\
    (forall t, t <> e -> attrs (hget hB t) (hget h' t)) /\
    (forall t, t <> mid -> oname (hget h' t) = oname (hget h t) /\ oleaf (hget h' t) = oleaf (hget h t) /\ onorm (hget h' t) = onorm (hget h t)) /\
    (forall t, t <> n -> t <> e -> t <> mid -> oaxis (hget h' t) = oaxis (hget h t) /\ (oleaf (hget h t) = false -> oarr (hget h' t) = oarr (hget h t))).
Proof.
  intros J Ax Pl Ft Op mid. pose proof J as (D & Sy & Sn & Se & Hne & P & Only & Sfn & Sfe & Hd).
  destruct Sn as (Ln & Lfn & Nn & An & Wn & Pn & Dn & Nmn). destruct Se as (Le & Lfe & Ne & Ae & We & Pe & De & Nme).
  set (nz' := match nz with Some b => b | None => onorm (hget h n) && onorm (hget h e) end).
  destruct (su_first h n i e j an ae nn ne nz' J Ax Pl Ft) as
    (hA & m & u & s & v & k & x & y & E1 & Mm & Es & Tr & K0 & Lp & Rp & DA & SA & Hl & Oth & Atm & Atn & Am & NnA & TnA & NeA & TeA & QA).
  fold mid in E1, Hl, Oth, Atm, Am, TnA, TeA, QA.
  assert (Hmn : mid <> n) by (unfold mid; lia). assert (Hme : mid <> e) by (unfold mid; lia).
  destruct (Op hA mid) as (hB & E2 & Ed).
  assert (XA : oarr (hget hA mid) = Some x) by (apply attrs_fields in Atm; apply Atm).
  pose proof Ed as (EdL & EdF & EdA & EdM). destruct (EdM x XA (proj1 Lp)) as (x' & XB & Wx' & Sx').
  assert (Sx : shape x = [k; nth i (shape an) 0]) by apply Lp.
  assert (AeA : attrs (hget h e) (hget hA e)) by (apply Oth; auto). apply attrs_fields in AeA.
  apply attrs_fields in Atm. cbn in Atm. apply attrs_fields in Atn. cbn in Atn.
  assert (Tj : nth_error (targets h e) j = Some (n, i)) by (apply numbered_points; auto).
  assert (Hj : j < length (targets h e)) by (apply nth_error_Some; congruence).
  assert (Lj : j <= length (del j (targets h e))) by (rewrite length_del by auto; lia).
  destruct (su_second hB n i e j mid ae x' ne (name1_of nn) nz' (targets h e)) as
    (h' & z & E3 & C & D' & S' & Hl' & Oth' & Ate & Am' & Ae' & Q'); auto.
  - eapply links_dicts; [|exact DA]. apply (edits_links _ _ _ Ed).
  - eapply links_symmetric; [|exact SA]. apply (edits_links _ _ _ Ed).
  - lia.
  - now rewrite (edits_links _ _ _ Ed).
  - destruct (EdF mid) as (_ & _ & -> & _). apply Atm.
  - destruct (EdF mid) as (_ & _ & _ & -> & _). apply Atm.
  - destruct (EdF mid) as (_ & -> & _). apply Atm.
  - assert (length h = mid) by reflexivity. lia.
  - destruct (EdF e) as (_ & _ & -> & _). destruct AeA as (_ & -> & _). auto.
  - rewrite EdA; auto. { destruct AeA as (_ & _ & -> & _). auto. } destruct AeA as (_ & -> & _). auto.
  - destruct (EdF e) as (_ & -> & _). destruct AeA as (-> & _). auto.
  - rewrite (edits_links _ _ _ Ed). rewrite <- (targets_length K hA e), TeA, length_ins by auto.
    rewrite length_del, targets_length by auto. rewrite targets_length in Hj. lia.
  - unfold ndim. rewrite Sx', Sx. reflexivity.
  - rewrite Sx', Sx. cbn. auto.
  - apply (edits_numbered _ _ _ _ Ed). auto.
  - rewrite (edits_targets _ _ _ _ Ed). auto.
  - intros k0 l H. apply (links_points K hA hB (edits_links _ _ _ Ed)) in H. apply QA in H; auto. eapply Sfe; eauto.
  - exists hA, hB, h', m, u, s, v, k, x, y, x', z.
    assert (Links : forall t, oacc (hget h' t) = oacc (hget h t)).
    { apply (links_agree h h' (fun t => (t =? n) || (t =? e) || (t =? mid))); auto.
      - intros t Ht. apply orb_true_iff in Ht. rewrite orb_true_iff in Ht. rewrite !Nat.eqb_eq in Ht.
        destruct Ht as [[->| ->]| ->].
        + (* n *)
          rewrite (numbered_acc h n Nn). apply acc_eq; auto. intros k0 y0 l.
          assert (Ti : nth_error (targets h n) i = Some (e, j)) by (apply numbered_points; auto).
          assert (Li : i <= length (del i (targets h n))).
          { assert (i < length (targets h n)) by (apply nth_error_Some; congruence). rewrite length_del by auto. lia. }
          assert (PB : forall k0 y0 l, points hB n k0 y0 l <-> nth_error (ins i (mid, 0) (del i (targets h n))) k0 = Some (y0, l)).
          { intros. rewrite (links_points K hA hB (edits_links _ _ _ Ed)). rewrite numbered_points by auto. now rewrite TnA. }
          destruct (Nat.eq_dec y0 e) as [->|Hy1]; [|destruct (Nat.eq_dec y0 mid) as [->|Hy2]].
          * split.
            -- intros H. apply S' in H. unfold points in H. rewrite Ae', in_combine_seq, Nat.sub_0_r in H. destruct H as (_ & H).
               apply (numbered_points K h e) in H; auto. apply Sy in H. apply numbered_points; auto.
            -- intros H. apply S'. unfold points. rewrite Ae', in_combine_seq, Nat.sub_0_r. split; [lia|].
               apply (numbered_points K h n) in H; auto. apply Sy in H. apply numbered_points; auto.
          * split.
            -- intros H. apply S' in H. unfold points in H. rewrite Am' in H. destruct H.
            -- intros H. apply (numbered_points K h n) in H; auto. apply Sy in H.
               exfalso. unfold points in H. rewrite hget_out in H by (unfold mid; lia). destruct H.
          * rewrite Q' by auto. rewrite PB. destruct (Nat.eq_dec k0 i) as [->|Hk].
            -- rewrite nth_error_ins_eq by auto. rewrite Ti. split; congruence.
            -- destruct (shifted_onto i k0 Hk) as (p & ->). rewrite nth_error_ins_shifted by auto.
               rewrite <- (ins_nth_del i (targets h n) (e, j) Ti) at 2. rewrite nth_error_ins_shifted by auto. reflexivity.
        + rewrite Ae'. symmetry. apply numbered_acc. auto.
        + rewrite Am'. rewrite hget_out by (unfold mid; lia). reflexivity.
      - intros t k0 y0 l Ht Hy. apply orb_false_iff in Ht, Hy. rewrite orb_false_iff in Ht, Hy. rewrite !Nat.eqb_neq in Ht, Hy.
        rewrite Q' by tauto. rewrite (links_points K hA hB (edits_links _ _ _ Ed)). apply QA; tauto. }
    assert (Bn : attrs (hget hB n) (hget h' n)) by (apply Oth'; auto). apply attrs_fields in Bn.
    apply attrs_fields in Ate. cbn in Ate.
    split.
    { unfold split_unite. unfold dindex. rewrite (proj1 (points_get K h n i e j D) P). cbn [bind].
      fold nz'. rewrite E1. cbn [bind]. rewrite E2. cbn [bind]. rewrite E3. cbn [bind]. reflexivity. }
    split; [assumption|]. split; [assumption|]. split; [assumption|]. split; [assumption|]. split; [assumption|]. split; [assumption|].
    split; [assumption|]. split; [assumption|]. split; [assumption|]. split; [assumption|]. split; [assumption|]. split; [assumption|].
    split; [assumption|].
    split. { destruct Bn as (_ & _ & -> & _). rewrite EdA; [|auto|]. - apply Atn. - destruct Atn as (_ & -> & _). auto. }
    split. { apply Ate. }
    split. { destruct Bn as (_ & _ & _ & _ & -> & _). destruct (EdF n) as (_ & _ & _ & -> & _). apply Atn. }
    split. { apply Ate. }
    split. { lia. }
    split; [assumption|]. split; [assumption|]. split; [assumption|]. split; [assumption|]. split; [assumption|].
    assert (NL : forall t, t <> mid -> oname (hget hA t) = oname (hget h t) /\ oleaf (hget hA t) = oleaf (hget h t) /\ onorm (hget hA t) = onorm (hget h t)).
    { intros t Ht. destruct (Nat.eq_dec t n) as [->|Hn]; [tauto|]. assert (X := Oth t Hn Ht). apply attrs_fields in X. tauto. }
    split.
    + intros t Ht. destruct (NL t Ht) as (X1 & X2 & X3). destruct (EdF t) as (_ & Y1 & Y2 & _ & Y3).
      destruct (Nat.eq_dec t e) as [->|He].
      * destruct Ate as (Z1 & Z2 & _ & _ & _ & Z3 & _). rewrite Z1, Z2, Z3. split; [|split]; congruence.
      * assert (X := Oth' t He). apply attrs_fields in X. destruct X as (Z1 & Z2 & _ & _ & _ & Z3 & _).
        rewrite Z1, Z2, Z3. split; [|split]; congruence.
    + intros t H1 H2 H3. destruct (EdF t) as (_ & Y1 & Y2 & Y4 & Y3).
      assert (X := Oth' t H2). apply attrs_fields in X. destruct X as (_ & _ & X1 & _ & X2 & _).
      assert (Y := Oth t H1 H3). apply attrs_fields in Y. destruct Y as (_ & Y5 & Y6 & _ & Y7 & _).
      split; [congruence|]. intros Hl0. rewrite X1, EdA; auto. congruence.
Qed.
(** ** unite_split *)
Definition block (i m : nat) : list nat := map (fun k => i + k) (seq 0 m).
Lemma seq_shift_add i m : forall s, map (fun k => i + k) (seq s m) = seq (i + s) m.
Proof. induction m as [|m IH]; intros s; cbn; auto. f_equal. rewrite IH. f_equal. lia. Qed.
Lemma block_seq i m : block i m = seq i m.
Proof. unfold block. rewrite seq_shift_add. f_equal. lia. Qed.
Lemma nsort_sorted l : Sorted lt l -> nsort l = l.
Proof.
  intros H. apply Sorted_StronglySorted in H; [|intros a b c; lia]. induction H as [|x l H IH F]; auto.
  cbn [nsort]. rewrite IH. destruct l as [|y l]; auto. cbn [ninsert]. inversion F; subst.
  assert (E : x <=? y = true) by (apply Nat.leb_le; lia). now rewrite E.
Qed.
Lemma rest_block n i m : i + m <= n -> rest n (seq i m) = seq 0 i ++ seq (i + m) (n - (i + m)).
Proof.
  intros H. unfold rest.
  replace (seq 0 n) with (seq 0 i ++ seq i m ++ seq (i + m) (n - (i + m))).
  2:{ rewrite <- seq_app. replace i with (0 + i) at 2 by lia. rewrite <- seq_app. f_equal. lia. }
  rewrite !filter_app. rewrite filter_all_id.
  2:{ intros x Hx. apply in_seq in Hx. apply negb_true_iff. destruct (existsb (Nat.eqb x) (seq i m)) eqn:E; auto.
      apply existsb_In, in_seq in E. lia. }
  rewrite (filter_all_id _ (seq (i + m) (n - (i + m)))).
  2:{ intros x Hx. apply in_seq in Hx. apply negb_true_iff. destruct (existsb (Nat.eqb x) (seq i m)) eqn:E; auto.
      apply existsb_In, in_seq in E. lia. }
  f_equal. replace (filter _ (seq i m)) with (@nil nat); auto.
  symmetry. assert (X : forall l, (forall x, In x l -> In x (seq i m)) -> filter (fun k => negb (existsb (Nat.eqb k) (seq i m))) l = []).
  { induction l as [|x l IH]; intros Hl; auto. cbn [filter]. rewrite (proj2 (existsb_In x (seq i m))) by (apply Hl; left; auto).
    cbn [negb]. apply IH. intros; apply Hl; right; auto. }
  apply X. auto.
Qed.
Lemma map_nth_seq_app {A} (d : A) (l1 l2 l3 : list A) i m : length l1 = i -> length l2 = m ->
  map (fun k => nth k (l1 ++ l2 ++ l3) d) (seq i m) = l2.
Proof.
  intros <- <-. transitivity (map (fun k => nth k l2 d) (seq 0 (length l2))); [|apply map_nth_seq].
  replace (seq (length l1) (length l2)) with (seq (length l1 + 0) (length l2)) by (f_equal; lia). rewrite <- seq_shift_add.
  rewrite map_map. apply map_ext_in. intros k Hk. apply in_seq in Hk.
  rewrite app_nth2 by lia. replace (length l1 + k - length l1) with k by lia. rewrite app_nth1 by lia. reflexivity.
Qed.

Lemma map_nth_seq_last {A} (d : A) (l1 l2 : list A) i m : length l1 = i -> length l2 = m ->
  map (fun k => nth k (l1 ++ l2) d) (seq i m) = l2.
Proof. intros H1 H2. assert (X := map_nth_seq_app d l1 l2 [] i m H1 H2). rewrite app_nil_r in X. exact X. Qed.

Lemma linkage_same h h' : (forall t, oacc (hget h' t) = oacc (hget h t)) ->
  (forall t, oacc (hget h t) <> [] -> oleaf (hget h' t) = oleaf (hget h t)) ->
  forall fuel n ax dir, linkage_visitor fuel h' n ax true dir = linkage_visitor fuel h n ax true dir.
Proof.
  intros H1 H2. induction fuel as [|fuel IH]; intros n ax dir; auto. cbn [linkage_visitor].
  replace (children h' n ax true) with (children h n ax true).
  2:{ unfold children, linkages. rewrite H1. destruct (oacc (hget h n)) as [|p d] eqn:E.
      - cbn. destruct (is_none ax && oleaf (hget h n)), (is_none ax && oleaf (hget h' n)); reflexivity.
      - rewrite H2 by congruence. destruct (is_none ax && oleaf (hget h n)); auto. }
  generalize (children h n ax true). induction l as [|[[i c] j] l IHl]; auto. cbn [concatM]. rewrite IH, IHl. reflexivity.
Qed.

Lemma edges_eqb_refl l : edges_eqb l l = true.
Proof. induction l as [|[[[a i] b] j] l IH]; auto. cbn. now rewrite !Nat.eqb_refl, IH. Qed.

Lemma unite_name_plus nn ne : count_ascii plus nn = 0 -> count_ascii plus ne = 0 ->
  exists nm, unite_name (Some nn) (Some ne) = Ok (Some nm) /\ count_ascii plus nm <= 1.
Proof.
  intros H1 H2. unfold unite_name. destruct (0 <? count_ascii quote nn); [exists ne; split; auto; lia|].
  destruct (0 <? count_ascii quote ne); [exists nn; split; auto; lia|]. eexists. split; eauto.
  assert (X : forall s s', count_ascii plus (s ++ s') = count_ascii plus s + count_ascii plus s').
  { induction s as [|c s IH]; intros s'; auto. cbn [append count_ascii]. rewrite IH. destruct (Ascii.eqb c plus); lia. }
  rewrite !X, H1, H2. cbn. lia.
Qed.

Lemma unite_split_ok fuel h n i e j an ae nn ne operator nz ll :
  joint h n i e j an ae nn ne -> (oaxis (hget h n) = None \/ oaxis (hget h e) = None) ->
  count_ascii plus nn = 0 -> count_ascii plus ne = 0 ->
  linkage_visitor fuel h n None true false = Ok ll ->
  (forall c, shape c = firstn i (shape an) ++ del j (shape ae) ++ skipn (S i) (shape an) -> fitting c (seq i (ndim ae - 1))) ->
  (forall hA mid, exists hB, operator hA mid = Ok (mid, hB) /\ edits hA mid hB) ->
  let mid := length h in let l := seq i (ndim ae - 1) in
  exists hA hB h' m u s v k c c' x y,
    unite_split csvd fuel h n i operator nz = Ok (n, mid, e, h') /\
    contracts an i ae j c /\
    operator hA mid = Ok (mid, hB) /\ edits hA mid hB /\
    oarr (hget hA mid) = Some c /\ oarr (hget hB mid) = Some c' /\ wf c' /\ shape c' = shape c /\
    matricized c' l m /\ csvd m = Ok (u, s, v) /\ triple m u s v k /\ 0 < k /\
    left_part c' l j k u s x /\ right_part c' l i k v y /\
    oarr (hget h' e) = Some x /\ oarr (hget h' n) = Some y /\
    oaxis (hget h' n) = Some i /\ oaxis (hget h' e) = None /\
    length h <= length h' /\ dicts_ok h' /\ symmetric h' /\ (forall t, oacc (hget h' t) = oacc (hget h t)) /\
    (forall t, t <> mid -> attrs (hget h t) (hget hA t)) /\
    (forall t, t <> e -> t <> n -> attrs (hget hB t) (hget h' t)) /\
    (forall t, t <> mid -> oname (hget h' t) = oname (hget h t) /\ oleaf (hget h' t) = oleaf (hget h t) /\ onorm (hget h' t) = onorm (hget h t)) /\
    (forall t, t <> n -> t <> e -> t <> mid -> oaxis (hget h' t) = oaxis (hget h t) /\ (oleaf (hget h t) = false -> oarr (hget h' t) = oarr (hget h t))).
Proof.
  intros J Ax P1 P2 Lv Ft Op mid l. pose proof J as (D & Sy & Sn & Se & Hne & P & Only & Sfn & Sfe & Hd).
  destruct Sn as (Ln & Lfn & Nn & An & Wn & Pn & Dn & Nmn). destruct Se as (Le & Lfe & Ne & Ae & We & Pe & De & Nme).
  assert (Tn : nth_error (targets h n) i = Some (e, j)) by (apply numbered_points; auto).
  assert (Tj : nth_error (targets h e) j = Some (n, i)) by (apply numbered_points; auto).
  assert (Hi : i < ndim an) by (rewrite Dn, <- (targets_length K h n); apply nth_error_Some; congruence).
  assert (Hj : j < ndim ae) by (rewrite De, <- (targets_length K h e); apply nth_error_Some; congruence).
  assert (LTn : length (targets h n) = ndim an) by (rewrite targets_length; auto).
  assert (LTe : length (targets h e) = ndim ae) by (rewrite targets_length; auto).
  set (nz' := match nz with Some b => b | None => onorm (hget h n) && onorm (hget h e) end).
  assert (Hmn : mid <> n) by (unfold mid; lia). assert (Hme : mid <> e) by (unfold mid; lia).
  assert (NoM : forall x k l, ~ points h x k mid l /\ ~ points h mid l x k).
  { intros x k l0. assert (X : ~ points h mid l0 x k).
    { intros H. unfold points in H. rewrite hget_out in H by (unfold mid; lia). destruct H. }
    split; auto. }
  assert (O1 : forall k c l, points h n k c l -> c = n \/ c = e -> k = i).
  { intros k c l0 H [->| ->]; [exfalso; eapply Sfn; eauto|eapply Only; eauto]. }
  assert (O2 : forall k c l, points h e k c l -> c = n \/ c = e -> k = j).
  { intros k c l0 H [->| ->]; [|exfalso; eapply Sfe; eauto]. apply Sy in H. pose proof (Only _ _ H) as ->.
    assert (X := points_key K h n _ _ _ _ _ D H P). congruence. }
  destruct (unite_name_plus nn ne P1 P2) as (nm & Enm & Pnm).
  destruct (unite_ok K h n i e j None nz' an ae nn ne) as (hA & c & nm' & E1 & C & Enm' & DA & SA & HlA & HrA & OthA & AtA & QA); auto.
  rewrite Enm in Enm'. injection Enm' as <-. cbn [root_of placed] in E1, HrA, OthA, AtA, QA. fold mid in E1, HrA, OthA, AtA, QA.
  destruct (unite_links h hA n i e j mid) as (LA1 & LA2 & LA3); auto.
  cbn zeta in LA1. set (L := joined K h n i e j) in *.
  assert (LL : length L = ndim an - 1 + (ndim ae - 1)).
  { unfold L, joined. rewrite !app_length, firstn_length, skipn_length, !length_del by lia. lia. }
  apply attrs_fields in AtA. cbn in AtA.
  destruct (Op hA mid) as (hB & E2 & Ed). pose proof Ed as (EdL & EdF & EdA & EdM).
  assert (XA : oarr (hget hA mid) = Some c) by apply AtA.
  pose proof C as (Wc & Sc & _).
  destruct (EdM c XA Wc) as (c' & XB & Wc' & Sc').
  assert (Nc : ndim c' = length L).
  { unfold ndim at 1. rewrite Sc', Sc, LL. rewrite !app_length, firstn_length, skipn_length, length_del by auto. unfold ndim in *. lia. }
  assert (Pc : Forall (fun d => 0 < d) (shape c')).
  { rewrite Sc', Sc. rewrite Forall_forall in *. intros d Hd'. apply in_app_iff in Hd'. destruct Hd' as [H|H].
    - apply Pn. rewrite <- (firstn_skipn i (shape an)). apply in_app_iff. auto.
    - apply in_app_iff in H. destruct H as [H|H].
      + apply Pe. unfold del in H. apply in_app_iff in H. destruct H as [H|H].
        * rewrite <- (firstn_skipn j (shape ae)). apply in_app_iff. auto.
        * rewrite <- (firstn_skipn (S j) (shape ae)). apply in_app_iff. auto.
      + apply Pn. rewrite <- (firstn_skipn (S i) (shape an)). apply in_app_iff. auto. }
  assert (EB : forall t, oacc (hget hB t) = oacc (hget hA t)) by apply (edits_links _ _ _ Ed).
  assert (AmB : oacc (hget hB mid) = combine (seq 0 (length L)) L) by now rewrite EB.
  destruct (acc_numbered hB mid L AmB) as (NB & TB).
  assert (OnB : oacc (hget hB n) = []) by (rewrite EB; apply LA2; auto).
  assert (OeB : oacc (hget hB e) = []) by (rewrite EB; apply LA2; auto).
  assert (Sl : Sorted lt l) by apply seq_sorted.
  assert (Ll : length l = ndim ae - 1) by apply seq_length.
  assert (Fl : Forall (fun k => k < ndim c') l).
  { apply Forall_forall. intros k Hk. apply in_seq in Hk. lia. }
  assert (Rl : rest (ndim c') l = seq 0 i ++ seq (i + (ndim ae - 1)) (ndim c' - (i + (ndim ae - 1)))).
  { apply rest_block. lia. }
  assert (Rlen : length (rest (ndim c') l) = ndim an - 1).
  { rewrite rest_length; auto; [|apply sorted_nodup; auto]. lia. }
  assert (SfB : forall k t l0, points hB mid k t l0 -> t <> mid).
  { intros k t l0 H ->. apply (links_points K hA hB EB) in H. apply QA in H. destruct H as [(H & _)|[(_ & H)|(_ & H)]].
    - eapply NoM; eauto.
    - apply nth_error_In in H. unfold L, joined in H.
      assert (X : In (mid, l0) (targets h n) \/ In (mid, l0) (targets h e)).
      { assert (Dl : forall a (t : list half) z, In z (del a t) -> In z t).
        { intros a t z Hz. unfold del in Hz. apply in_app_iff in Hz. destruct Hz as [Hz|Hz].
          - rewrite <- (firstn_skipn a t). apply in_app_iff; auto.
          - rewrite <- (firstn_skipn (S a) t). apply in_app_iff; auto. }
        apply in_app_iff in H. destruct H as [H|H]; [|apply in_app_iff in H; destruct H as [H|H]].
        - left. apply (Dl i). rewrite <- (firstn_skipn i (del i _)). apply in_app_iff; auto.
        - right. apply (Dl j). auto.
        - left. apply (Dl i). rewrite <- (firstn_skipn i (del i _)). apply in_app_iff; auto. }
      destruct X as [X|X]; apply In_nth_error in X; destruct X as (p & X); apply numbered_points in X; auto; eapply NoM; eauto.
    - apply nth_error_In in H. unfold L, joined in H.
      assert (X : In (mid, k) (targets h n) \/ In (mid, k) (targets h e)).
      { assert (Dl : forall a (t : list half) z, In z (del a t) -> In z t).
        { intros a t z Hz. unfold del in Hz. apply in_app_iff in Hz. destruct Hz as [Hz|Hz].
          - rewrite <- (firstn_skipn a t). apply in_app_iff; auto.
          - rewrite <- (firstn_skipn (S a) t). apply in_app_iff; auto. }
        apply in_app_iff in H. destruct H as [H|H]; [|apply in_app_iff in H; destruct H as [H|H]].
        - left. apply (Dl i). rewrite <- (firstn_skipn i (del i _)). apply in_app_iff; auto.
        - right. apply (Dl j). auto.
        - left. apply (Dl i). rewrite <- (firstn_skipn i (del i _)). apply in_app_iff; auto. }
      destruct X as [X|X]; apply In_nth_error in X; destruct X as (p & X); apply numbered_points in X; auto; eapply NoM; eauto. }
  assert (Eax : axes_of (AxList (block i (ndim ae - 1))) = l) by (cbn; rewrite block_seq; apply nsort_sorted; auto).
  assert (DB : dicts_ok hB) by (eapply links_dicts; eauto).
  assert (SB : symmetric hB) by (eapply links_symmetric; eauto).
  assert (LfB : oleaf (hget hB mid) = false) by (destruct (EdF mid) as (_ & _ & -> & _); apply AtA).
  destruct (split_ok K csvd hB mid (AxList (block i (ndim ae - 1))) (Some (j, i)) (Some e) (Some n) nz' c' nm) as
    (h' & m & u & s & v & k & x & y & E3 & Mm & Es & Tr & Lp & Rp & D' & S' & Hl & Hr & Hc & Oth & Atr & Atc & Q); auto.
  - destruct (EdF mid) as (_ & _ & _ & -> & _). apply AtA.
  - rewrite AmB, combine_length, seq_length. lia.
  - destruct (EdF mid) as (_ & -> & _). apply AtA.
  - rewrite Eax. auto.
  - rewrite Eax. auto.
  - rewrite Eax. cbn. lia.
  - rewrite Eax. cbn. lia.
  - rewrite Eax. intros m Hm. destruct (Ft c') with (m := m) as (u & s & v & k & X & Y & _); auto.
    + congruence.
    + eauto 6.
  - rewrite EdL. auto.
  - right. exists e. split; auto. split; auto. rewrite EdL. assert (length h <= length hA) by auto. lia.
  - right. exists n. split; auto. split; auto. rewrite EdL. assert (length h <= length hA) by auto. lia.
  - rewrite Eax in Mm, Lp, Rp, Q. cbn [indice_of fst snd root_of child_of placed] in E3, Lp, Rp, Hr, Hc, Oth, Atr, Atc, Q.
    assert (K0 : 0 < k).
    { destruct (Ft c') with (m := m) as (u' & s' & v' & k' & X & Y & Z); auto; [congruence|]. rewrite X in Es. injection Es as -> -> ->.
      destruct Y as (p & q & _ & _ & (_ & Sh) & _). destruct Tr as (p' & q' & _ & _ & (_ & Sh') & _). rewrite Sh in Sh'. injection Sh' as E1' _. lia. }
    assert (NL : length (oacc (hget hB mid)) = ndim c') by (rewrite AmB, combine_length, seq_length; lia).
    destruct (split_links hB h' mid e n j i l) as (L1 & L2 & L3 & L4); auto.
    + apply sorted_nodup. auto.
    + rewrite NL. auto.
    + lia.
    + rewrite NL. lia.
    + rewrite NL. auto.
    + cbn zeta in L1, L2. rewrite NL, Rl, TB in L2. rewrite TB in L1.
      assert (M1 : map (fun i0 => nth i0 L (0, 0)) l = del j (targets h e)).
      { unfold l, L, joined. apply map_nth_seq_app; [rewrite firstn_length, length_del by lia; lia|rewrite length_del by lia; lia]. }
      assert (M2 : map (fun i0 => nth i0 L (0, 0)) (seq 0 i ++ seq (i + (ndim ae - 1)) (ndim c' - (i + (ndim ae - 1)))) = del i (targets h n)).
      { rewrite map_app. rewrite <- (firstn_skipn i (del i (targets h n))) at 1. f_equal.
        - unfold L, joined. apply (map_nth_seq_app (0, 0) [] (firstn i (del i (targets h n)))); auto.
          rewrite firstn_length, length_del by lia. lia.
        - unfold L, joined. rewrite app_assoc. apply map_nth_seq_last.
          + rewrite app_length, firstn_length, !length_del by lia. lia.
          + rewrite skipn_length, length_del by lia. lia. }
      rewrite M1, (ins_nth_del j (targets h e) (n, i) Tj), <- (numbered_acc h e Ne) in L1.
      rewrite M2, (ins_nth_del i (targets h n) (e, j) Tn), <- (numbered_acc h n Nn) in L2.
      assert (Am' : oacc (hget h' mid) = []) by (apply L3; auto).
      assert (Links : forall t, oacc (hget h' t) = oacc (hget h t)).
      { apply (links_agree h h' (fun t => (t =? n) || (t =? e) || (t =? mid))); auto.
        - intros t Ht. apply orb_true_iff in Ht. rewrite orb_true_iff in Ht. rewrite !Nat.eqb_eq in Ht.
          destruct Ht as [[->| ->]| ->]; auto. rewrite Am', hget_out by (unfold mid; lia). reflexivity.
        - intros t k0 y0 l0 Ht Hy. apply orb_false_iff in Ht, Hy. rewrite orb_false_iff in Ht, Hy. rewrite !Nat.eqb_neq in Ht, Hy.
          rewrite L4 by tauto. rewrite (links_points K hA hB EB). apply LA3; tauto. }
      apply attrs_fields in Atr. cbn in Atr. apply attrs_fields in Atc. cbn in Atc.
      assert (NLs : forall t, t <> mid -> oname (hget h' t) = oname (hget h t) /\ oleaf (hget h' t) = oleaf (hget h t) /\ onorm (hget h' t) = onorm (hget h t)).
      { intros t Ht. assert (XX := OthA t Ht). apply attrs_fields in XX. destruct XX as (Z1 & Z2 & _ & _ & _ & Z3 & _).
        destruct (EdF t) as (_ & Y1 & Y2 & _ & Y3).
        destruct (Nat.eq_dec t e) as [->|He]; [|destruct (Nat.eq_dec t n) as [->|Hn]].
        - destruct Atr as (W1 & W2 & _ & _ & _ & W3 & _). rewrite W1, W2, W3. split; [|split]; congruence.
        - destruct Atc as (W1 & W2 & _ & _ & _ & W3 & _). rewrite W1, W2, W3. split; [|split]; congruence.
        - assert (XX := Oth t He Hn). apply attrs_fields in XX. destruct XX as (W1 & W2 & _ & _ & _ & W3 & _).
          rewrite W1, W2, W3. split; [|split]; congruence. }
      assert (Lfs : forall t, oacc (hget h t) <> [] -> oleaf (hget h' t) = oleaf (hget h t)).
      { intros t Ht. apply NLs. intros ->. apply Ht. rewrite hget_out by (unfold mid; lia). reflexivity. }
      exists hA, hB, h', m, u, s, v, k, c, c', x, y.
      split.
      { unfold unite_split. rewrite Lv. cbn [bind]. unfold dindex. rewrite (proj1 (points_get K h n i e j D) P). cbn [bind].
        fold nz'. rewrite E1. cbn [bind]. rewrite E2. cbn [bind].
        assert (Oe : order h e = ndim ae) by (unfold order; rewrite Lfe; auto). rewrite Oe.
        change (map (fun k0 => i + k0) (seq 0 (ndim ae - 1))) with (block i (ndim ae - 1)). rewrite E3. cbn [bind].
        rewrite (linkage_same h h' Links Lfs), Lv. cbn [bind]. now rewrite edges_eqb_refl. }
      split; [assumption|]. split; [assumption|]. split; [assumption|]. split; [assumption|]. split; [assumption|]. split; [assumption|].
      split; [assumption|]. split; [assumption|]. split; [assumption|]. split; [assumption|]. split; [assumption|]. split; [assumption|].
      split; [assumption|]. split; [apply Atr|]. split; [apply Atc|]. split; [apply Atc|]. split; [apply Atr|].
      split. { assert (length h <= length hA) by auto. lia. }
      split; [assumption|]. split; [assumption|]. split; [assumption|]. split; [assumption|]. split; [assumption|]. split; [assumption|].
      intros t H1 H2 H3. destruct (EdF t) as (_ & Y1 & Y2 & Y4 & Y3).
      assert (XX := Oth t H2 H1). apply attrs_fields in XX. destruct XX as (_ & _ & X1 & _ & X2 & _).
      assert (Y := OthA t H3). apply attrs_fields in Y. destruct Y as (_ & Y5 & Y6 & _ & Y7 & _).
      split; [congruence|]. intros Hl0. rewrite X1, EdA; auto. congruence.
Qed.
End Moves.



End MoveRoot.
