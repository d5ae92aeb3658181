(** Python list surgery used for axis bookkeeping: [l.insert(i, x)], deletion of
    position [i], replacement of position [i]; and facts about them. *)
From Coq Require Import List Arith Lia Permutation.
Import ListNotations.

(** [l.insert(i, x)] (appends when [i] is past the end, as Python does). *)
Definition ins {A} (i : nat) (x : A) (l : list A) : list A :=
  firstn i l ++ x :: skipn i l.

(** [l[:i] + l[i+1:]]. *)
Definition del {A} (i : nat) (l : list A) : list A :=
  firstn i l ++ skipn (S i) l.

(** [l[i] = x] (no effect when out of range). *)
Definition upd {A} (i : nat) (x : A) (l : list A) : list A :=
  if i <? length l then firstn i l ++ x :: skipn (S i) l else l.

Lemma ins_0 {A} (x : A) l : ins 0 x l = x :: l.
Proof. reflexivity. Qed.
Lemma ins_S {A} i (x y : A) l : ins (S i) x (y :: l) = y :: ins i x l.
Proof. reflexivity. Qed.
Lemma del_0 {A} (x : A) l : del 0 (x :: l) = l.
Proof. reflexivity. Qed.
Lemma del_S {A} i (x : A) l : del (S i) (x :: l) = x :: del i l.
Proof. reflexivity. Qed.
Lemma del_nil {A} i : del i (@nil A) = [].
Proof. unfold del. rewrite firstn_nil, skipn_nil. reflexivity. Qed.

Lemma length_ins {A} i (x : A) l : length (ins i x l) = S (length l).
Proof.
  unfold ins. rewrite app_length. cbn [length].
  rewrite firstn_length, skipn_length. lia.
Qed.

Lemma length_del {A} i (l : list A) : i < length l -> length (del i l) = length l - 1.
Proof.
  intros H. unfold del. rewrite app_length, firstn_length, skipn_length. lia.
Qed.

Lemma length_upd {A} i (x : A) l : length (upd i x l) = length l.
Proof.
  unfold upd. destruct (i <? length l) eqn:E; [|reflexivity].
  apply Nat.ltb_lt in E. rewrite app_length. cbn [length].
  rewrite firstn_length, skipn_length. lia.
Qed.

Lemma nth_ins_eq {A} i (x d : A) l : i <= length l -> nth i (ins i x l) d = x.
Proof.
  revert l; induction i as [|i IH]; intros l H; [reflexivity|].
  destruct l as [|y l]; cbn in H; [lia|]. rewrite ins_S. cbn. apply IH. lia.
Qed.

Lemma nth_ins_lt {A} i k (x d : A) l :
  k < i -> i <= length l -> nth k (ins i x l) d = nth k l d.
Proof.
  revert k l; induction i as [|i IH]; intros k l Hk H; [lia|].
  destruct l as [|y l]; cbn in H; [lia|]. rewrite ins_S.
  destruct k; [reflexivity|]. cbn. apply IH; lia.
Qed.

Lemma nth_ins_gt {A} i k (x d : A) l :
  i <= k -> i <= length l -> nth (S k) (ins i x l) d = nth k l d.
Proof.
  revert k l; induction i as [|i IH]; intros k l Hk H; [reflexivity|].
  destruct l as [|y l]; cbn in H; [lia|]. rewrite ins_S.
  destruct k; [lia|]. cbn. apply IH; lia.
Qed.

Lemma nth_del_lt {A} i k (d : A) l : k < i -> nth k (del i l) d = nth k l d.
Proof.
  revert k l; induction i as [|i IH]; intros k l Hk; [lia|].
  destruct l as [|y l]; [rewrite del_nil; destruct k; reflexivity|].
  rewrite del_S. destruct k; [reflexivity|]. cbn. apply IH; lia.
Qed.

Lemma nth_del_ge {A} i k (d : A) l : i <= k -> nth k (del i l) d = nth (S k) l d.
Proof.
  revert k l; induction i as [|i IH]; intros k l Hk.
  - destruct l as [|y l]; [rewrite del_nil; destruct k; reflexivity|reflexivity].
  - destruct l as [|y l]; [rewrite del_nil; destruct k; reflexivity|].
    rewrite del_S. destruct k; [lia|]. cbn [nth]. rewrite IH by lia.
    destruct l; reflexivity.
Qed.

Lemma del_ins {A} i (x : A) l : i <= length l -> del i (ins i x l) = l.
Proof.
  revert l; induction i as [|i IH]; intros l H; [reflexivity|].
  destruct l as [|y l]; cbn in H; [lia|]. rewrite ins_S, del_S, IH by lia. reflexivity.
Qed.

Lemma ins_del {A} i (d : A) l : i < length l -> ins i (nth i l d) (del i l) = l.
Proof.
  revert l; induction i as [|i IH]; intros l H.
  - destruct l; cbn in *; [lia|reflexivity].
  - destruct l as [|y l]; cbn in H; [lia|].
    rewrite del_S, ins_S. cbn [nth]. rewrite IH by lia. reflexivity.
Qed.

Lemma upd_eq {A} i (x : A) l : i < length l -> upd i x l = ins i x (del i l).
Proof.
  revert l; induction i as [|i IH]; intros l H.
  - destruct l; cbn in *; [lia|reflexivity].
  - destruct l as [|y l]; cbn in H; [lia|].
    rewrite del_S, ins_S, <- IH by lia. unfold upd. cbn [length].
    replace (S i <? S (length l)) with (i <? length l) by reflexivity.
    destruct (i <? length l) eqn:E; [reflexivity|apply Nat.ltb_ge in E; lia].
Qed.

Lemma nth_upd_eq {A} i (x d : A) l : i < length l -> nth i (upd i x l) d = x.
Proof.
  intros H. rewrite upd_eq by auto. apply nth_ins_eq.
  rewrite length_del by auto. lia.
Qed.

Lemma nth_upd_neq {A} i k (x d : A) l : i <> k -> nth k (upd i x l) d = nth k l d.
Proof.
  intros H. unfold upd. destruct (i <? length l) eqn:E; [|reflexivity].
  apply Nat.ltb_lt in E.
  revert k l H E; induction i as [|i IH]; intros k l H E.
  - destruct l; cbn in *; [lia|]. destruct k; [lia|reflexivity].
  - destruct l as [|y l]; cbn in E; [lia|]. cbn [firstn skipn app].
    destruct k; [reflexivity|]. cbn [nth]. apply IH; lia.
Qed.

Lemma ins_app_l {A} i (x : A) l1 l2 :
  i <= length l1 -> ins i x (l1 ++ l2) = ins i x l1 ++ l2.
Proof.
  revert l1; induction i as [|i IH]; intros l1 H; [reflexivity|].
  destruct l1 as [|y l1]; cbn in H; [lia|]. cbn [app]. rewrite !ins_S, IH by lia. reflexivity.
Qed.

Lemma ins_length {A} (x : A) l : ins (length l) x l = l ++ [x].
Proof. unfold ins. rewrite firstn_all, skipn_all. reflexivity. Qed.

Lemma ins_at {A} (x : A) l1 l2 : ins (length l1) x (l1 ++ l2) = l1 ++ x :: l2.
Proof. induction l1; [reflexivity|]. cbn [length app]. rewrite ins_S, IHl1. reflexivity. Qed.

Lemma del_at {A} (x : A) l1 l2 : del (length l1) (l1 ++ x :: l2) = l1 ++ l2.
Proof. induction l1; [reflexivity|]. cbn [length app]. rewrite del_S, IHl1. reflexivity. Qed.

Lemma split_nth {A} i (d : A) l :
  i < length l -> l = firstn i l ++ nth i l d :: skipn (S i) l.
Proof.
  revert l; induction i as [|i IH]; intros l H; (destruct l as [|y l]; cbn in H; [lia|]).
  - reflexivity.
  - change (y :: l = y :: (firstn i l ++ nth i l d :: skipn (S i) l)).
    f_equal. apply IH. lia.
Qed.

Lemma map_ins {A B} (f : A -> B) i x l : map f (ins i x l) = ins i (f x) (map f l).
Proof. unfold ins. rewrite map_app. cbn. rewrite firstn_map, skipn_map. reflexivity. Qed.

Lemma map_del {A B} (f : A -> B) i l : map f (del i l) = del i (map f l).
Proof. unfold del. rewrite map_app, firstn_map, skipn_map. reflexivity. Qed.

Lemma Forall2_ins {A B} (R : A -> B -> Prop) i x y l l' :
  R x y -> Forall2 R l l' -> Forall2 R (ins i x l) (ins i y l').
Proof.
  intros Hr. revert l l'; induction i as [|i IH]; intros l l' H.
  - constructor; auto.
  - inversion H; subst; [repeat constructor; auto|].
    rewrite !ins_S. constructor; auto.
Qed.

Lemma Forall2_del {A B} (R : A -> B -> Prop) i l l' :
  Forall2 R l l' -> Forall2 R (del i l) (del i l').
Proof.
  revert l l'; induction i as [|i IH]; intros l l' H.
  - inversion H; subst; [constructor|]. rewrite !del_0. auto.
  - inversion H; subst; [rewrite !del_nil; constructor|].
    rewrite !del_S. constructor; auto.
Qed.

Lemma Forall2_nth {A B} (R : A -> B -> Prop) l l' i d d' :
  Forall2 R l l' -> i < length l -> R (nth i l d) (nth i l' d').
Proof.
  intros H; revert i; induction H; intros i Hi; cbn in Hi; [lia|].
  destruct i; cbn; auto. apply IHForall2; lia.
Qed.

Lemma Forall2_len {A B} (R : A -> B -> Prop) l l' : Forall2 R l l' -> length l = length l'.
Proof. induction 1; cbn; auto. Qed.

Lemma nth_ext_d {A} (d : A) l l' :
  length l = length l' -> (forall i, i < length l -> nth i l d = nth i l' d) -> l = l'.
Proof. intros. apply (nth_ext l l' d d); auto. Qed.

Lemma Permutation_ins {A} i (x : A) l : Permutation (ins i x l) (x :: l).
Proof.
  unfold ins. rewrite <- Permutation_middle, firstn_skipn. reflexivity.
Qed.

Lemma upd_app {A} (x : A) l1 y l2 : upd (length l1) x (l1 ++ y :: l2) = l1 ++ x :: l2.
Proof.
  rewrite upd_eq by (rewrite app_length; cbn; lia). rewrite del_at, ins_at. reflexivity.
Qed.

Lemma upd_comm {A} i k (x y : A) l : i <> k -> upd i x (upd k y l) = upd k y (upd i x l).
Proof.
  intros H. destruct l as [|d l']; [unfold upd; cbn; reflexivity|].
  set (l := d :: l'). apply (nth_ext_d d); [rewrite !length_upd; reflexivity|].
  intros n Hn. rewrite !length_upd in Hn.
  destruct (Nat.eq_dec n i) as [->|Ni].
  - rewrite nth_upd_eq by (rewrite length_upd; auto).
    rewrite (nth_upd_neq k i) by auto. rewrite nth_upd_eq by auto. reflexivity.
  - rewrite nth_upd_neq by auto. destruct (Nat.eq_dec n k) as [->|Nk].
    + rewrite !nth_upd_eq by (rewrite ?length_upd; auto). reflexivity.
    + rewrite (nth_upd_neq k n y), (nth_upd_neq k n y), (nth_upd_neq i n) by auto. reflexivity.
Qed.

Lemma upd_upd {A} i (x y : A) l : upd i x (upd i y l) = upd i x l.
Proof.
  destruct l as [|d l']; [unfold upd; cbn; reflexivity|].
  set (l := d :: l'). apply (nth_ext_d d); [rewrite !length_upd; reflexivity|].
  intros n Hn. rewrite !length_upd in Hn. destruct (Nat.eq_dec n i) as [->|Ni].
  - rewrite !nth_upd_eq by (rewrite ?length_upd; auto). reflexivity.
  - rewrite !nth_upd_neq by auto. reflexivity.
Qed.

Lemma upd_same {A} i (d : A) l : upd i (nth i l d) l = l.
Proof.
  apply (nth_ext_d d); [apply length_upd|]. intros n Hn. rewrite length_upd in Hn.
  destruct (Nat.eq_dec n i) as [->|Ni].
  - rewrite nth_upd_eq; auto.
  - rewrite nth_upd_neq; auto.
Qed.

Lemma Forall2_upd {A B} (R : A -> B -> Prop) i x y l l' :
  R x y -> Forall2 R l l' -> Forall2 R (upd i x l) (upd i y l').
Proof.
  intros Hr H. pose proof (Forall2_len _ _ _ H) as E.
  unfold upd. rewrite <- E. destruct (i <? length l) eqn:Ei; auto.
  apply Nat.ltb_lt in Ei.
  pose proof (upd_eq i x l Ei) as Q. unfold upd in Q. apply Nat.ltb_lt in Ei as Ei'.
  rewrite Ei' in Q. rewrite Q.
  pose proof (upd_eq i y l') as Q'. unfold upd in Q'. rewrite <- E, Ei' in Q'. rewrite Q' by auto.
  apply Forall2_ins; auto. apply Forall2_del; auto.
Qed.

(** Decomposition around a valid position. *)
Lemma nth_decomp {A} i (d : A) l : i < length l ->
  exists l1 l2, l = l1 ++ nth i l d :: l2 /\ length l1 = i.
Proof.
  intros H. exists (firstn i l), (skipn (S i) l). split; [apply split_nth; auto|].
  rewrite firstn_length. lia.
Qed.
