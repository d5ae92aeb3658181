(** Links between tensors. *)
From Coq Require Import List Arith Bool Lia Sorting.Sorted.
From Verif Require Import Py Alg ListX NdArray_Model Net_Model Link_Spec.
Import ListNotations.
Local Open Scope nat_scope.

(** Dicts. *)
Section Dict.
Context {V : Type}.
Implicit Type d : list (nat * V).
Definition dok d := Sorted lt (map fst d).

Lemma dok_cons k v d : dok ((k, v) :: d) -> dok d /\ forall k' v', In (k', v') d -> k < k'.
Proof.
  intros H. unfold dok in H. cbn [map fst] in H. apply Sorted_StronglySorted in H; [|intros x y z; lia].
  apply StronglySorted_inv in H. destruct H as (H & F). split.
  - now apply StronglySorted_Sorted.
  - intros k' v' Hi. rewrite Forall_forall in F. apply F. apply in_map_iff. now exists (k', v').
Qed.

Lemma dok_intro k v d : dok d -> (forall k' v', In (k', v') d -> k < k') -> dok ((k, v) :: d).
Proof.
  intros H F. unfold dok. cbn [map fst]. constructor; auto.
  destruct d as [|[k' v'] d]; constructor. cbn [fst]. apply (F k' v'). left; auto.
Qed.

Lemma dget_In d k v : dok d -> (dget d k = Some v <-> In (k, v) d).
Proof.
  induction d as [|[k' v'] d IH]; intros H; cbn [dget].
  - split; [discriminate|intros []].
  - apply dok_cons in H. destruct H as (H & F). destruct (Nat.eqb_spec k k') as [->|Hn].
    + split.
      * intros E; inversion E; left; auto.
      * intros [E|Hi]; [inversion E; auto|]. apply F in Hi. lia.
    + rewrite IH by auto. split; [right; auto|]. intros [E|Hi]; auto. inversion E; congruence.
Qed.

Lemma dget_None d k : dget d k = None <-> forall v, ~ In (k, v) d.
Proof.
  induction d as [|[k' v'] d IH]; cbn [dget].
  - split; auto.
  - destruct (Nat.eqb_spec k k') as [->|Hn].
    + split; [discriminate|]. intros H. exfalso. apply (H v'). left; auto.
    + rewrite IH. split; intros H v Hi; [destruct Hi as [E|Hi]; [inversion E; congruence|]; firstorder|].
      apply (H v). right; auto.
Qed.

Lemma dput_In d k v k' v' : dok d ->
  (In (k', v') (dput d k v) <-> (k' = k /\ v' = v) \/ (k' <> k /\ In (k', v') d)).
Proof.
  induction d as [|[k1 v1] d IH]; intros H; cbn [dput].
  - split; [intros [E|[]]; inversion E; auto|]. intros [(-> & ->)|(_ & [])]. left; auto.
  - apply dok_cons in H. destruct H as (H & F). destruct (Nat.eqb_spec k k1) as [->|Hn].
    + split.
      * intros [E|Hi]; [inversion E; auto|]. right. pose proof (F _ _ Hi). split; [lia|right; auto].
      * intros [(-> & ->)|(Hn & [E|Hi])]; [left; auto|inversion E; congruence|right; auto].
    + destruct (Nat.ltb_spec k k1).
      * split.
        -- intros [E|Hi]; [inversion E; auto|]. right. split; auto. destruct Hi as [E|Hi].
           ++ inversion E; subst. lia.
           ++ pose proof (F _ _ Hi). lia.
        -- intros [(-> & ->)|(Hn' & Hi)]; [left; auto|right; auto].
      * cbn [In]. rewrite IH by auto. split.
        -- intros [E|[E|(E & Hi)]]; [inversion E; subst; right|left|right]; auto.
        -- intros [E|(E & [Hi|Hi])]; auto.
Qed.

Lemma dput_ok d k v : dok d -> dok (dput d k v).
Proof.
  induction d as [|[k1 v1] d IH]; intros H; cbn [dput].
  - constructor; constructor.
  - pose proof (dok_cons _ _ _ H) as (H' & F). destruct (Nat.eqb_spec k k1) as [->|Hn].
    + apply dok_intro; auto.
    + destruct (Nat.ltb_spec k k1).
      * apply dok_intro; auto. intros k' v' [E|Hi]; [inversion E; subst; auto|].
        pose proof (F _ _ Hi). lia.
      * apply dok_intro; auto. intros k' v' Hi. apply dput_In in Hi; auto.
        destruct Hi as [(-> & ->)|(_ & Hi)]; [lia|]. eapply F; eauto.
Qed.

Lemma drop_In d k k' v' : dok d -> (In (k', v') (drop d k) <-> k' <> k /\ In (k', v') d).
Proof.
  induction d as [|[k1 v1] d IH]; intros H; cbn [drop].
  - split; [intros []|intros (_ & [])].
  - apply dok_cons in H. destruct H as (H & F). destruct (Nat.eqb_spec k k1) as [->|Hn].
    + split.
      * intros Hi. pose proof (F _ _ Hi). split; [lia|right; auto].
      * intros (Hn & [E|Hi]); auto. inversion E; congruence.
    + cbn [In]. rewrite IH by auto. split.
      * intros [E|(E & Hi)]; auto. inversion E; subst. split; auto.
      * intros (E & [Hi|Hi]); auto.
Qed.

Lemma drop_ok d k : dok d -> dok (drop d k).
Proof.
  induction d as [|[k1 v1] d IH]; intros H; cbn [drop]; auto.
  pose proof (dok_cons _ _ _ H) as (H' & F). destruct (Nat.eqb_spec k k1) as [->|Hn]; auto.
  apply dok_intro; auto. intros k' v' Hi. apply drop_In in Hi; auto. eapply F; apply Hi.
Qed.

(** Sorted dicts with the same entries are equal. *)
Lemma dok_ext d d' : dok d -> dok d' -> (forall k v, In (k, v) d <-> In (k, v) d') -> d = d'.
Proof.
  revert d'. induction d as [|[k v] d IH]; intros [|[k' v'] d'] H H' E; auto.
  - exfalso. apply (E k' v'). left; auto.
  - exfalso. apply (E k v). left; auto.
  - apply dok_cons in H. apply dok_cons in H'. destruct H as (H & F). destruct H' as (H' & F').
    assert (Ek : (k, v) = (k', v')).
    { assert (A : In (k, v) ((k', v') :: d')) by (apply E; left; auto).
      assert (B : In (k', v') ((k, v) :: d)) by (apply E; left; auto).
      destruct A as [A|A]; auto. destruct B as [B|B]; auto.
      apply F' in A. apply F in B. lia. }
    inversion Ek; subst k' v'. f_equal. apply IH; auto. intros k1 v1. split; intros Hi.
    + assert (A : In (k1, v1) ((k, v) :: d')) by (apply E; right; auto).
      destruct A as [A|A]; auto. inversion A; subst. apply F in Hi. lia.
    + assert (A : In (k1, v1) ((k, v) :: d)) by (apply E; right; auto).
      destruct A as [A|A]; auto. inversion A; subst. apply F' in Hi. lia.
Qed.

Lemma In_unique d k v v' : dok d -> In (k, v) d -> In (k, v') d -> v = v'.
Proof.
  intros H A B. apply dget_In in A; auto. apply dget_In in B; auto; congruence.
Qed.

Lemma dok_nodup d : dok d -> NoDup (map fst d).
Proof.
  induction d as [|[k v] d IH]; intros H; cbn; constructor.
  - apply dok_cons in H. destruct H as (_ & F). intros Hi. apply in_map_iff in Hi.
    destruct Hi as ([k' v'] & E & Hi). apply F in Hi. cbn in E. lia.
  - apply IH. now apply dok_cons in H.
Qed.
End Dict.

Section Link.
Variable K : StarRing.
Implicit Type h : heap K.

Lemma hget_modify_eq h n f : n < length h -> hget (modify h n f) n = f (hget h n).
Proof. intros H. unfold hget, modify. now rewrite nth_upd_eq. Qed.
Lemma hget_modify_neq h n m f : n <> m -> hget (modify h n f) m = hget h m.
Proof. intros H. unfold hget, modify. now rewrite nth_upd_neq. Qed.
Lemma length_modify h n f : length (modify h n f) = length h.
Proof. apply length_upd. Qed.
Lemma hget_out h n : length h <= n -> hget h n = no_obj.
Proof. intros H. unfold hget. now rewrite nth_overflow. Qed.
Lemma hget_app_l h h' n : n < length h -> hget (h ++ h') n = hget h n.
Proof. intros H. unfold hget. now rewrite app_nth1. Qed.
Lemma hget_app_last h o : hget (h ++ [o]) (length h) = o.
Proof. unfold hget. rewrite app_nth2, Nat.sub_diag; auto. Qed.
Lemma modify_out h n f : length h <= n -> modify h n f = h.
Proof. intros H. unfold modify, upd. apply Nat.ltb_ge in H. now rewrite H. Qed.

Lemma dicts_dok h n : dicts_ok h -> dok (oacc (hget h n)).
Proof. intros H. apply H. Qed.

(** Access dict after [modify] with [put_acc]. *)
Lemma oacc_put h n d m : n < length h ->
  oacc (hget (modify h n (put_acc d)) m) = if n =? m then d else oacc (hget h m).
Proof.
  intros H. destruct (Nat.eqb_spec n m) as [->|Hn].
  - now rewrite hget_modify_eq.
  - now rewrite hget_modify_neq.
Qed.

Lemma same_refl h : same_but_links h h.
Proof. split; auto. intros; repeat split. Qed.
Lemma same_trans h1 h2 h3 : same_but_links h1 h2 -> same_but_links h2 h3 -> same_but_links h1 h3.
Proof.
  intros (L1 & E1) (L2 & E2). split; [congruence|]. intros n. destruct (E1 n) as (?&?&?&?&?&?&?).
  destruct (E2 n) as (?&?&?&?&?&?&?). repeat split; congruence.
Qed.
Lemma same_put h n f : same_but_links h (modify h n (fun o => put_acc (f o) o)).
Proof.
  split; [apply length_modify|]. intros m. destruct (Nat.lt_ge_cases n (length h)).
  - destruct (Nat.eq_dec n m) as [->|Hn].
    + rewrite hget_modify_eq by auto. repeat split.
    + rewrite hget_modify_neq by auto. repeat split.
  - rewrite modify_out by auto. repeat split.
Qed.

Lemma link_same h a i b j : same_but_links h (link h a i b j).
Proof.
  unfold link. eapply same_trans; [apply (same_put h a (fun o => dput (oacc o) i (b, j)))|].
  apply (same_put _ b (fun o => dput (oacc o) j (a, i))).
Qed.

Lemma link_points h a i b j : dicts_ok h -> a < length h -> b < length h -> (a, i) <> (b, j) ->
  dicts_ok (link h a i b j) /\
  forall x k y l, points (link h a i b j) x k y l <->
    (x, k, y, l) = (a, i, b, j) \/ (x, k, y, l) = (b, j, a, i) \/
    ((x, k) <> (a, i) /\ (x, k) <> (b, j) /\ points h x k y l).
Proof.
  intros D Ha Hb Hne. set (h1 := modify h a (fun o => put_acc (dput (oacc o) i (b, j)) o)).
  assert (D1 : dicts_ok h1).
  { intros n. unfold h1. destruct (Nat.eq_dec a n) as [->|Hn].
    - rewrite hget_modify_eq by auto. apply dput_ok, D.
    - rewrite hget_modify_neq by auto. apply D. }
  assert (P1 : forall x k y l, points h1 x k y l <->
     (x, k, y, l) = (a, i, b, j) \/ ((x, k) <> (a, i) /\ points h x k y l)).
  { intros x k y l. unfold points, h1. destruct (Nat.eq_dec a x) as [->|Hn].
    - rewrite hget_modify_eq by auto. cbn [oacc put_acc]. rewrite dput_In by apply D. split.
      + intros [(-> & E)|(E & Hi)]; [inversion E; auto|]. right. split; auto; congruence.
      + intros [E|(E & Hi)]; [inversion E; auto|]. right. split; [congruence|auto].
    - rewrite hget_modify_neq by auto. split; [|intros [E|(E & Hi)]; [congruence|auto]].
      intros Hi. right. split; auto; congruence. }
  assert (Hb1 : b < length h1) by (unfold h1; rewrite length_modify; auto).
  change (link h a i b j) with (modify h1 b (fun o => put_acc (dput (oacc o) j (a, i)) o)). split.
  - intros n. destruct (Nat.eq_dec b n) as [->|Hn].
    + rewrite hget_modify_eq by auto. apply dput_ok, D1.
    + rewrite hget_modify_neq by auto. apply D1.
  - intros x k y l. unfold points at 1. destruct (Nat.eq_dec b x) as [->|Hn].
    + rewrite hget_modify_eq by auto. cbn [oacc put_acc]. rewrite dput_In by apply D1.
      fold (points h1 x k y l).
      change (In (k, (y, l)) (oacc (hget h1 x))) with (points h1 x k y l). rewrite P1. split.
      * intros [(-> & E)|(E & [Hi|(Hi & Hp)])]; [inversion E; auto|auto|].
        right; right. repeat split; auto; congruence.
      * intros [E|[E|(E1 & E2 & Hp)]].
        -- inversion E; subst. right. split; auto; congruence.
        -- inversion E; subst. left; auto.
        -- right. split; [congruence|]. right. auto.
    + rewrite hget_modify_neq by auto.
      change (In (k, (y, l)) (oacc (hget h1 x))) with (points h1 x k y l). rewrite P1. split.
      * intros [E|(E & Hp)]; auto. right; right. repeat split; auto; congruence.
      * intros [E|[E|(E1 & E2 & Hp)]]; auto. inversion E; congruence.
Qed.

Lemma half_eqb_eq x y : half_eqb x y = true <-> x = y.
Proof.
  destruct x as [a i], y as [b j]. unfold half_eqb; cbn [fst snd].
  rewrite andb_true_iff, !Nat.eqb_eq. split; [intros (-> & ->); auto|intros E; inversion E; auto].
Qed.

Lemma points_get h a i b j : dicts_ok h -> (points h a i b j <-> dget (oacc (hget h a)) i = Some (b, j)).
Proof. intros D. unfold points. now rewrite <- dget_In by apply D. Qed.

Lemma points_lt h a i b j : points h a i b j -> a < length h.
Proof.
  intros P. destruct (Nat.lt_ge_cases a (length h)); auto.
  unfold points in P. rewrite hget_out in P by auto. destruct P.
Qed.

Lemma unlink_unfold h a i b j : unlink h a i b j =
  (let! x := dindex (oacc (hget h a)) i in
   let! ok := (if half_eqb x (b, j)
               then let! y := dindex (oacc (hget h b)) j in Ok (half_eqb y (a, i))
               else Ok false) in
   if (ok : bool) then
     let! d := dpop (oacc (hget h a)) i in
     let h := modify h a (put_acc d) in
     let! d := dpop (oacc (hget h b)) j in
     Ok (modify h b (put_acc d))
   else Raise RuntimeError)%py.
Proof.
  unfold unlink, unlink_run. destruct (dindex (oacc (hget h a)) i) as [x|]; cbn [bind]; auto.
  destruct (half_eqb x (b, j)); cbn [bind]; auto.
  destruct (dindex (oacc (hget h b)) j) as [y|]; cbn [bind]; auto.
  destruct (half_eqb y (a, i)); auto.
  destruct (dpop (oacc (hget h a)) i) as [d|]; cbn [bind]; auto.
  destruct (dpop _ j) as [d'|]; reflexivity.
Qed.

(** A refused call changes nothing. *)
Lemma unlink_refused h a i b j e : dicts_ok h -> (a, i) <> (b, j) ->
  snd (unlink_run h a i b j) = Raise e -> fst (unlink_run h a i b j) = h.
Proof.
  intros D Hne. unfold unlink_run, dindex, dpop.
  destruct (dget (oacc (hget h a)) i) as [x|] eqn:P; cbn [bind]; [|auto].
  destruct (half_eqb x (b, j)) eqn:E1; cbn [bind]; [|auto]. apply half_eqb_eq in E1. subst x.
  destruct (dget (oacc (hget h b)) j) as [y|] eqn:Q; cbn [bind]; [|auto].
  destruct (half_eqb y (a, i)) eqn:E2; [|auto]. apply half_eqb_eq in E2. subst y.
  assert (Ha : a < length h). { apply points_lt with (i := i) (b := b) (j := j). now apply points_get. }
  rewrite oacc_put by auto. destruct (Nat.eqb_spec a b) as [->|Hn].
  - assert (G : dget (drop (oacc (hget h b)) i) j = Some (b, i)).
    { apply dget_In; [apply drop_ok; apply D|]. apply drop_In; [apply D|]. split; [congruence|].
      apply dget_In; auto; apply D. }
    rewrite G. cbn. discriminate.
  - rewrite Q. cbn. discriminate.
Qed.

Lemma unlink_ok h a i b j : dicts_ok h -> (a, i) <> (b, j) ->
  points h a i b j -> points h b j a i ->
  exists h', unlink h a i b j = Ok h' /\ dicts_ok h' /\ same_but_links h h' /\
    forall x k y l, points h' x k y l <-> (x, k) <> (a, i) /\ (x, k) <> (b, j) /\ points h x k y l.
Proof.
  intros D Hne P Q. pose proof (points_lt _ _ _ _ _ P) as Ha. pose proof (points_lt _ _ _ _ _ Q) as Hb.
  apply points_get in P; auto. apply points_get in Q; auto.
  rewrite unlink_unfold. unfold dindex. rewrite P. cbn [bind].
  replace (half_eqb (b, j) (b, j)) with true by (symmetry; now apply half_eqb_eq).
  rewrite Q. cbn [bind].
  replace (half_eqb (a, i) (a, i)) with true by (symmetry; now apply half_eqb_eq).
  unfold dpop. rewrite P. cbn [bind].
  set (h1 := modify h a (put_acc (drop (oacc (hget h a)) i))).
  assert (A1 : forall m, oacc (hget h1 m) = if a =? m then drop (oacc (hget h a)) i else oacc (hget h m))
    by (intros; apply oacc_put; auto).
  assert (D1 : dicts_ok h1).
  { intros n. rewrite A1. destruct (a =? n); [apply drop_ok|]; apply D. }
  assert (P1 : forall x k y l, points h1 x k y l <-> (x, k) <> (a, i) /\ points h x k y l).
  { intros x k y l. unfold points. rewrite A1. destruct (Nat.eqb_spec a x) as [->|Hn].
    - rewrite drop_In by apply D. split; intros (E & Hi); split; auto; congruence.
    - split; [|tauto]. intros Hi. split; auto; congruence. }
  assert (Q1 : dget (oacc (hget h1 b)) j = Some (a, i)).
  { apply points_get; auto. apply P1. split; [congruence|]. apply points_get; auto. }
  rewrite Q1. cbn [bind]. eexists. split; [reflexivity|].
  assert (Hb1 : b < length h1) by (unfold h1; rewrite length_modify; auto).
  assert (A2 : forall m, oacc (hget (modify h1 b (put_acc (drop (oacc (hget h1 b)) j))) m)
     = if b =? m then drop (oacc (hget h1 b)) j else oacc (hget h1 m)) by (intros; apply oacc_put; auto).
  split; [|split].
  - intros n. rewrite A2. destruct (b =? n); [apply drop_ok|]; apply D1.
  - eapply same_trans; [apply (same_put h a (fun _ => drop (oacc (hget h a)) i))|].
    apply (same_put _ b (fun _ => drop (oacc (hget h1 b)) j)).
  - intros x k y l. unfold points at 1. rewrite A2. destruct (Nat.eqb_spec b x) as [->|Hn].
    + rewrite drop_In by apply D1.
      change (In (k, (y, l)) (oacc (hget h1 x))) with (points h1 x k y l). rewrite P1.
      split; [intros (E & E2 & Hp)|intros (E & E2 & Hp)]; repeat split; auto; congruence.
    + change (In (k, (y, l)) (oacc (hget h1 x))) with (points h1 x k y l). rewrite P1.
      split; [intros (E2 & Hp)|intros (E & E2 & Hp)]; repeat split; auto; congruence.
Qed.

Lemma unlink_inv h a i b j h' : dicts_ok h -> unlink h a i b j = Ok h' ->
  points h a i b j /\ points h b j a i /\ (a, i) <> (b, j).
Proof.
  intros D H. rewrite unlink_unfold in H. unfold dindex in H.
  destruct (dget (oacc (hget h a)) i) as [x|] eqn:P; [|discriminate]. cbn [bind] in H.
  destruct (half_eqb x (b, j)) eqn:E1; cbn [bind] in H; [|discriminate].
  apply half_eqb_eq in E1. subst x.
  destruct (dget (oacc (hget h b)) j) as [y|] eqn:Q; [|discriminate]. cbn [bind] in H.
  destruct (half_eqb y (a, i)) eqn:E2; [|discriminate]. apply half_eqb_eq in E2. subst y.
  split; [now apply points_get|]. split; [now apply points_get|].
  intros E. inversion E; subst b j. unfold dpop in H. rewrite P in H. cbn [bind] in H.
  assert (Ha : a < length h) by (eapply points_lt; apply points_get; eauto).
  rewrite hget_modify_eq in H by auto. cbn [oacc put_acc] in H.
  replace (dget (drop (oacc (hget h a)) i) i) with (@None half) in H; [discriminate|].
  symmetry. apply dget_None. intros v Hv. apply drop_In in Hv; [|apply D]. tauto.
Qed.

Lemma unlink_absent h a i b j : dicts_ok h ->
  ~ (points h a i b j /\ points h b j a i) ->
  unlink h a i b j = Raise KeyError \/ unlink h a i b j = Raise RuntimeError.
Proof.
  intros D H. destruct (unlink h a i b j) as [h'|e] eqn:E.
  - apply unlink_inv in E; auto. tauto.
  - rewrite unlink_unfold in E. unfold dindex in E.
    destruct (dget (oacc (hget h a)) i) as [x|] eqn:P; cbn [bind] in E; [|inversion E; auto].
    destruct (half_eqb x (b, j)) eqn:E1; cbn [bind] in E; [|inversion E; auto].
    apply half_eqb_eq in E1. subst x.
    destruct (dget (oacc (hget h b)) j) as [y|] eqn:Q; cbn [bind] in E; [|inversion E; auto].
    destruct (half_eqb y (a, i)) eqn:E2; [|inversion E; auto].
    apply half_eqb_eq in E2. subst y. exfalso. apply H. split; now apply points_get.
Qed.

Lemma link_free_symmetric h a i b j : dicts_ok h -> symmetric h ->
  a < length h -> b < length h -> (a, i) <> (b, j) -> free h a i -> free h b j ->
  dicts_ok (link h a i b j) /\ symmetric (link h a i b j) /\ same_but_links h (link h a i b j) /\
  forall x k y l, points (link h a i b j) x k y l <->
    points h x k y l \/ (x, k, y, l) = (a, i, b, j) \/ (x, k, y, l) = (b, j, a, i).
Proof.
  intros D S Ha Hb Hne Fa Fb. destruct (link_points h a i b j D Ha Hb Hne) as (D' & P).
  assert (P' : forall x k y l, points (link h a i b j) x k y l <->
    points h x k y l \/ (x, k, y, l) = (a, i, b, j) \/ (x, k, y, l) = (b, j, a, i)).
  { intros x k y l. rewrite P. split; [tauto|]. intros [Hp|[E|E]]; auto.
    right; right. repeat split; auto; intros E; inversion E; subst; [apply (Fa y l)|apply (Fb y l)]; auto. }
  split; auto. split; [|split; [apply link_same|auto]].
  intros x k y l Hp. apply P'. apply P' in Hp. destruct Hp as [Hp|[E|E]].
  - left. now apply S.
  - inversion E; subst. auto.
  - inversion E; subst. auto.
Qed.

Lemma unlink_symmetric h a i b j h' : dicts_ok h -> symmetric h -> unlink h a i b j = Ok h' ->
  dicts_ok h' /\ symmetric h' /\ same_but_links h h' /\
  forall x k y l, points h' x k y l <->
     points h x k y l /\ (x, k, y, l) <> (a, i, b, j) /\ (x, k, y, l) <> (b, j, a, i).
Proof.
  intros D S E. destruct (unlink_inv h a i b j h' D E) as (P & Q & Hne).
  destruct (unlink_ok h a i b j D Hne P Q) as (h2 & E2 & D2 & M2 & P2).
  assert (h2 = h') by congruence. subst h2. split; auto.
  assert (P' : forall x k y l, points h' x k y l <->
     points h x k y l /\ (x, k, y, l) <> (a, i, b, j) /\ (x, k, y, l) <> (b, j, a, i)).
  { intros x k y l. rewrite P2. split.
    - intros (E1 & E3 & Hp). repeat split; auto; congruence.
    - intros (Hp & E1 & E3). repeat split; auto; intros Ex; inversion Ex; subst.
      + assert ((y, l) = (b, j)) by (eapply In_unique; [apply D| |]; eauto). congruence.
      + assert ((y, l) = (a, i)) by (eapply In_unique; [apply D| |]; eauto). congruence. }
  split; [|auto]. intros x k y l Hp. apply P'. apply P' in Hp. destruct Hp as (Hp & E1 & E3).
  split; [now apply S|]. split; intros Ex; inversion Ex; subst; congruence.
Qed.

Lemma history_symmetric h h' : history h h' -> dicts_ok h -> symmetric h -> dicts_ok h' /\ symmetric h'.
Proof.
  induction 1 as [h|h h1 a i b j H IH Ha Hb Hne Fa Fb|h h1 h2 a i b j H IH E]; intros D S; auto.
  - destruct (IH D S) as (D1 & S1).
    destruct (link_free_symmetric h1 a i b j D1 S1 Ha Hb Hne Fa Fb) as (A & B & _). auto.
  - destruct (IH D S) as (D1 & S1).
    destruct (unlink_symmetric h1 a i b j h2 D1 S1 E) as (A & B & _). auto.
Qed.

Lemma link_occupied h a i b j c k : dicts_ok h -> a < length h -> b < length h -> (a, i) <> (b, j) ->
  points h a i c k -> points h c k a i -> (c, k) <> (a, i) -> (c, k) <> (b, j) ->
  let h' := link h a i b j in
  points h' a i b j /\ points h' c k a i /\ ~ points h' a i c k /\ ~ symmetric h'.
Proof.
  intros D Ha Hb Hne P Q E1 E2 h'. destruct (link_points h a i b j D Ha Hb Hne) as (D' & P').
  fold h' in D', P'.
  assert (A : points h' c k a i) by (apply P'; right; right; auto).
  assert (B : ~ points h' a i c k).
  { intros X. apply P' in X. destruct X as [X|[X|(X & _)]]; congruence. }
  split; [apply P'; auto|]. split; auto.
Qed.

(** check_completness *)
Lemma forM_ok {A} (f : A -> res unit) l : forM f l = Ok tt <-> forall x, In x l -> f x = Ok tt.
Proof.
  induction l as [|x l IH]; cbn [forM].
  - split; [intros _ y []|auto].
  - split.
    + intros H. destruct (f x) as [[]|] eqn:E; [|discriminate]. cbn [bind] in H.
      intros y [<-|Hy]; auto. now apply IH.
    + intros H. rewrite (H x) by (left; auto). cbn [bind]. apply IH. intros; apply H; right; auto.
Qed.

Lemma check_linkage_ok h n i strict : dicts_ok h ->
  (check_linkage h n i strict = Ok tt <->
   exists c j, points h n i c j /\ points h c j n i /\ (strict = true -> ends_fit h n i c j)).
Proof.
  intros D. unfold check_linkage, dindex. split.
  - intros H. destruct (dget (oacc (hget h n)) i) as [[c j]|] eqn:P; [|discriminate].
    cbn [bind] in H. destruct (dget (oacc (hget h c)) j) as [y|] eqn:Q; [|discriminate].
    cbn [bind] in H. exists c, j. split; [now apply points_get|].
    destruct (half_eqb y (n, i)) eqn:E.
    2:{ rewrite andb_false_r in H. cbn in H. discriminate. }
    rewrite andb_true_r in H.
    apply half_eqb_eq in E. subst y. split; [now apply points_get|].
    intros ->. unfold ends_fit.
    destruct (oleaf (hget h n)) eqn:Ln; cbn [andb] in H.
    + destruct (oarr (hget h n)) as [a|] eqn:An; [|auto]. cbn [is_none] in H.
      destruct (oleaf (hget h c)) eqn:Lc; destruct (oarr (hget h c)) as [b|] eqn:Ac;
        cbn [andb is_none] in H; auto; try (cbn in H; discriminate).
      all: destruct (Nat.ltb_spec i (ndim a)), (Nat.ltb_spec j (ndim b)); cbn [andb negb bind] in H;
        try discriminate; destruct (Nat.eqb_spec (nth i (shape a) 0) (nth j (shape b) 0)); try discriminate.
      all: right; right; exists a, b; auto.
    + destruct (oarr (hget h n)) as [a|] eqn:An;
      destruct (oleaf (hget h c)) eqn:Lc; destruct (oarr (hget h c)) as [b|] eqn:Ac;
        cbn [andb is_none] in H; auto; try (cbn in H; discriminate).
      all: destruct (Nat.ltb_spec i (ndim a)), (Nat.ltb_spec j (ndim b)); cbn [andb negb bind] in H;
        try discriminate; destruct (Nat.eqb_spec (nth i (shape a) 0) (nth j (shape b) 0)); try discriminate.
      all: right; right; exists a, b; auto.
  - intros (c & j & P & Q & S). apply points_get in P; auto. apply points_get in Q; auto.
    rewrite P. cbn [bind]. rewrite Q. cbn [bind].
    replace (half_eqb (n, i) (n, i)) with true by (symmetry; now apply half_eqb_eq).
    destruct strict; cbn [andb bind]; [|reflexivity].
    destruct (S eq_refl) as [(L & A)|[(L & A)|(a & b & A & B & Hi & Hj & E)]].
    + rewrite L, A. reflexivity.
    + rewrite L, A. cbn [andb is_none]. destruct (oleaf (hget h n) && is_none (oarr (hget h n))); reflexivity.
    + rewrite A, B. cbn [is_none]. rewrite !andb_false_r.
      apply Nat.ltb_lt in Hi. apply Nat.ltb_lt in Hj. rewrite Hi, Hj, E, Nat.eqb_refl. reflexivity.
Qed.

Lemma memb_In k l : memb k l = true <-> In k l.
Proof.
  unfold memb. rewrite existsb_exists. split.
  - intros (x & Hx & E). apply Nat.eqb_eq in E. now subst.
  - intros H. exists k. split; auto. apply Nat.eqb_refl.
Qed.

Lemma check_completness_ok h n strict : dicts_ok h ->
  (check_completness h n strict = Ok tt <-> complete_at h n strict).
Proof.
  intros D. unfold check_completness, complete_at, order.
  set (o := if oleaf (hget h n) then 1 else length (oacc (hget h n))).
  assert (Kx : forall k, In k (map fst (oacc (hget h n))) <-> exists c j, points h n k c j).
  { intros k. rewrite in_map_iff. split.
    - intros ([k' [c j]] & <- & Hi). exists c, j. auto.
    - intros (c & j & Hp). exists (k, (c, j)). auto. }
  destruct (forallb (fun k => k <? o) (map fst (oacc (hget h n))) &&
            forallb (fun k => memb k (map fst (oacc (hget h n)))) (seq 0 o)) eqn:E.
  - apply andb_true_iff in E. destruct E as (E1 & E2). rewrite forallb_forall in E1, E2.
    assert (Ko : forall k, (exists c j, points h n k c j) <-> k < o).
    { intros k. rewrite <- Kx. split.
      - intros Hk. apply E1 in Hk. now apply Nat.ltb_lt in Hk.
      - intros Hk. apply memb_In. apply E2. apply in_seq. lia. }
    rewrite forM_ok. split.
    + intros H. split; [exact Ko|]. intros i c j Hp.
      assert (Hi : i < o) by (apply Ko; eauto).
      assert (C : check_linkage h n i strict = Ok tt) by (apply H, in_seq; lia).
      apply check_linkage_ok in C; auto. destruct C as (c' & j' & P & Q & S).
      assert (Ec : (c', j') = (c, j)) by (eapply In_unique; [apply D| |]; eauto).
      inversion Ec; subst. auto.
    + intros (_ & H) i Hi. apply in_seq in Hi. apply check_linkage_ok; auto.
      destruct (proj2 (Ko i)) as (c & j & Hp); [lia|]. exists c, j. destruct (H i c j Hp). auto.
  - split; [discriminate|]. intros (Ko & _). exfalso.
    assert (Et : true = false); [|discriminate]. rewrite <- E. symmetry. apply andb_true_iff. split.
    + apply forallb_forall. intros k Hk. apply Nat.ltb_lt. apply Ko. now apply Kx.
    + apply forallb_forall. intros k Hk. apply in_seq in Hk. apply memb_In, Kx, Ko. lia.
Qed.

Lemma unlink_to_fast_missing h n i fast : free h n i -> dicts_ok h ->
  unlink_to h n i fast = Raise (if fast then KeyError else UnboundLocalError).
Proof.
  intros F D. unfold unlink_to. assert (N : dget (oacc (hget h n)) i = None).
  { apply dget_None. intros [b j] Hi. now apply (F b j). }
  destruct fast.
  - unfold dindex. rewrite N. reflexivity.
  - unfold check_linkage, dindex. rewrite N. reflexivity.
Qed.
End Link.
