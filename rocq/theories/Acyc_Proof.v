(** A finite unfolding of the links visits no object twice. *)
From Coq Require Import List Arith Bool Lia Permutation.
From Verif Require Import Py Alg ListX NdArray_Model Net_Model Net_Spec Trav_Proof.
Import ListNotations.
Local Open Scope nat_scope.

Inductive below : tree -> nat * half -> tree -> Prop :=
| below_kid n ks k : In k ks -> below (k_t k) (k_j k, (n, k_i k)) (Nd n ks)
| below_deep n ks k s u : In k ks -> below s u (k_t k) -> below s u (Nd n ks).

Lemma below_size s u t : below s u t -> length (ids s) < length (ids t).
Proof.
  induction 1 as [n ks k Hk|n ks k s u Hk B IH]; cbn [ids length]; apply Nat.lt_succ_r.
  - apply in_split in Hk. destruct Hk as (k1 & k2 & ->). rewrite flat_map_app. cbn [flat_map].
    rewrite !app_length. lia.
  - apply in_split in Hk. destruct Hk as (k1 & k2 & ->). rewrite flat_map_app. cbn [flat_map].
    rewrite !app_length. lia.
Qed.

Lemma below_parent s j p i t : below s (j, (p, i)) t ->
  exists ks, In (i, s, j) ks /\ (t = Nd p ks \/ exists u, below (Nd p ks) u t).
Proof.
  remember (j, (p, i)) as u eqn:E. induction 1 as [n ks k Hk|n ks k s u Hk B IH].
  - inversion E; subst. exists ks. split; auto. destruct k as [[a b] c]. exact Hk.
  - destruct (IH E) as (ks' & Hi & [Et|(u' & Hu)]).
    + exists ks'. split; auto. right. exists (k_j k, (n, k_i k)). rewrite <- Et. now constructor.
    + exists ks'. split; auto. right. exists u'. econstructor; eauto.
Qed.

Lemma in_nids_below x t : In x (nids t) -> t = Nd x (match t with Nd _ ks => ks | _ => [] end) \/
  exists ks u, below (Nd x ks) u t.
Proof.
  induction t as [n|n ks IH] using tree_ind'; [intros []|]. cbn [nids]. intros [->|H]; [auto|].
  right. apply in_flat_map in H. destruct H as (k & Hk & H). rewrite Forall_forall in IH.
  destruct (IH k Hk H) as [E|(ks' & u & B)].
  - exists (match k_t k with Nd _ ks => ks | _ => [] end), (k_j k, (n, k_i k)). rewrite <- E. now constructor.
  - exists ks', u. econstructor; eauto.
Qed.

Section Acyc.
Variable K : StarRing.
Implicit Type h : heap K.

Lemma below_hangs h s u t : below s u t -> forall up, hangs h up t -> hangs h (Some u) s.
Proof.
  induction 1 as [n ks k Hk|n ks k s u Hk B IH]; intros up H;
    destruct (hangs_kids _ _ _ _ _ H) as (_ & F & _); rewrite Forall_forall in F; eauto.
Qed.

Lemma hangs_acc h up n ks : hangs h up (Nd n ks) -> NoDup (map fst (oacc (hget h n))) /\
  (forall k, In k ks -> In (kid_half k) (oacc (hget h n)) /\ Some (k_i k) <> option_map fst up) /\
  (forall e, In e (oacc (hget h n)) -> (exists k, In k ks /\ e = kid_half k) \/ up = Some e) /\
  NoDup (map k_i ks) /\
  (forall u, up = Some u -> In u (oacc (hget h n))).
Proof.
  intros H. inversion H as [|? ? L A D F|? j p k1 k2 L A D F]; subst.
  - split; auto. split; [|split; [|split]].
    + intros k Hk. split; [|discriminate]. rewrite A. apply in_map_iff. exists k. auto.
    + intros e He. rewrite A in He. apply in_map_iff in He. destruct He as (k & <- & Hk).
      left. exists k. auto.
    + rewrite A, map_map in D. exact D.
    + discriminate.
  - split; auto. rewrite A, map_app in D. cbn [map] in D. rewrite !map_map in D. cbn [fst] in D.
    split; [|split; [|split]].
    + intros k Hk. rewrite A. split.
      * apply in_app_iff in Hk. apply in_app_iff. destruct Hk as [Hk|Hk]; [left|right; right];
          apply in_map_iff; exists k; auto.
      * cbn. intros E. inversion E; subst. apply NoDup_remove_2 in D. apply D.
        rewrite <- map_app. apply in_map_iff. exists k. auto.
    + intros e He. rewrite A in He. apply in_app_iff in He. destruct He as [He|[He|He]].
      * apply in_map_iff in He. destruct He as (k & <- & Hk). left. exists k. split; auto.
        apply in_app_iff; auto.
      * right. now rewrite He.
      * apply in_map_iff in He. destruct He as (k & <- & Hk). left. exists k. split; auto.
        apply in_app_iff; auto.
    + apply NoDup_remove_1 in D. now rewrite map_app.
    + intros u E. inversion E; subst. rewrite A. apply in_app_iff. right; left; auto.
Qed.

Lemma key_unique {V} (l : list (nat * V)) k v v' : NoDup (map fst l) -> In (k, v) l -> In (k, v') l -> v = v'.
Proof.
  induction l as [|[k0 v0] l IH]; [intros _ []|]. cbn [map fst]. intros D.
  apply NoDup_cons_iff in D. destruct D as (N & D). intros [E|H] [E'|H'].
  - congruence.
  - inversion E; subst. exfalso. apply N. apply in_map_iff. exists (k, v'). auto.
  - inversion E'; subst. exfalso. apply N. apply in_map_iff. exists (k, v). auto.
  - auto.
Qed.

(** The unfolding is determined by the object and the link towards the parent. *)
Lemma hangs_det h : forall t up t', hangs h up t -> hangs h up t' -> top t = top t' -> t = t'.
Proof.
  induction t as [n|n ks IH] using tree_ind'; intros up t' H H' E.
  - destruct t' as [m|m ks']; cbn [top] in E; subst; auto.
    apply hangs_leafness in H. apply hangs_leafness in H'. cbn in H, H'. congruence.
  - destruct t' as [m|m ks']; cbn [top] in E; subst.
    + apply hangs_leafness in H. apply hangs_leafness in H'. cbn in H, H'. congruence.
    + destruct (hangs_kids _ _ _ _ _ H) as (_ & F & A). destruct (hangs_kids _ _ _ _ _ H') as (_ & F' & A').
      f_equal. assert (M : map kid_half ks = map kid_half ks') by congruence. clear A A' H H'.
      revert ks' F' M. induction IH as [|k ks Hk _ IHk]; intros ks' F' M.
      * destruct ks'; [auto|discriminate].
      * destruct ks' as [|k' ks']; [discriminate|]. cbn [map] in M. inversion M as [[Ei Et Ej Er]].
        inversion F; subst. inversion F'; subst. f_equal; [|apply IHk; auto].
        destruct k as [[i t] j]. destruct k' as [[i' t'] j'].
        unfold k_i, k_t, k_j in *. cbn [fst snd] in *. subst. f_equal. f_equal. eapply Hk; eauto.
Qed.

Lemma no_return h : no_self_slot h -> forall t up s u, hangs h up t -> below s u t ->
  inner s = true -> top s <> top t.
Proof.
  intros NS t. remember (length (ids t)) as sz eqn:Sz. revert t Sz.
  induction sz as [sz IH] using lt_wf_ind. intros t Sz up s u H B Is Et.
  destruct s as [|x ss]; [discriminate|]. cbn [top] in Et. subst x.
  destruct t as [|n ks]; [inversion B|]. cbn [top] in B.
  pose proof (below_hangs h _ _ _ B _ H) as Hs.
  destruct (hangs_acc h _ _ _ H) as (D & Kin & Kout & KN & Uin).
  destruct (hangs_acc h _ _ _ Hs) as (_ & Kin2 & Kout2 & KN2 & Uin2).
  destruct (hangs_kids _ _ _ _ _ H) as (_ & F & _). rewrite Forall_forall in F.
  (* the child through which s is reached *)
  assert (C : exists k, In k ks /\ ((Nd n ss = k_t k /\ u = (k_j k, (n, k_i k))) \/ below (Nd n ss) u (k_t k))).
  { inversion B as [? ? k Hk E1 E2|? ? k ? ? Hk B']; subst; exists k; auto. }
  destruct C as (k & Hk & C).
  assert (Sk : length (ids (Nd n ss)) <= length (ids (k_t k))).
  { destruct C as [(<- & _)|C]; auto. apply below_size in C. lia. }
  assert (St : length (ids (k_t k)) < sz).
  { subst sz. apply (below_size _ (k_j k, (n, k_i k))). now constructor. }
  destruct (Kin k Hk) as (Ka & _).
  destruct (Kout2 _ Ka) as [(k' & Hk' & E)|E].
  - (* the same child again below s *)
    destruct (hangs_kids _ _ _ _ _ Hs) as (_ & F' & _). rewrite Forall_forall in F'.
    inversion E as [[Ei Etop Ej]].
    assert (Q : k_t k = k_t k').
    { apply (hangs_det h _ (Some (k_j k, (n, k_i k)))); auto.
      rewrite Ei, Ej. now apply F'. }
    assert (L : length (ids (k_t k')) < length (ids (Nd n ss))).
    { apply (below_size _ (k_j k', (n, k_i k'))). now constructor. }
    rewrite Q in Sk. lia.
  - (* s is entered through the same link: shrink the closed walk *)
    inversion E as [Eu]. unfold kid_half in Eu. subst u.
    destruct C as [(C1 & C2)|C].
    + inversion C2 as [[E1 E2 E3]]. apply (NS n (k_i k)). unfold kid_half in Ka.
      rewrite <- C1 in Ka. cbn [top] in Ka. rewrite E1 in Ka at 1. rewrite E1. 
      first [exact Ka | now rewrite <- E1 in Ka |- *].
    + destruct (below_parent _ _ _ _ _ C) as (ks3 & H3 & [Q|(u3 & B3)]).
      * pose proof (F k Hk) as Hkk. rewrite Q in Hkk.
        destruct (hangs_acc h _ _ _ Hkk) as (_ & Kin3 & _). destruct (Kin3 _ H3) as (_ & X).
        apply X. reflexivity.
      * assert (Hne : top (Nd (top (k_t k)) ks3) <> top (k_t k)).
        { eapply (IH (length (ids (k_t k))) St (k_t k) eq_refl); eauto. }
        apply Hne. reflexivity.
Qed.

Lemma nids_ids x t : In x (nids t) -> In x (ids t).
Proof.
  induction t as [n|n ks IH] using tree_ind'; [intros []|]. cbn [nids ids]. intros [->|H]; [left; auto|].
  right. apply in_flat_map in H. destruct H as (k & Hk & H). rewrite Forall_forall in IH.
  apply in_flat_map. exists k. auto.
Qed.
Lemma lids_ids x t : In x (lids t) -> In x (ids t).
Proof.
  induction t as [n|n ks IH] using tree_ind'; [auto|]. cbn [lids ids]. intros H.
  right. apply in_flat_map in H. destruct H as (k & Hk & H). rewrite Forall_forall in IH.
  apply in_flat_map. exists k. auto.
Qed.

Lemma ids_split t : Permutation (ids t) (nids t ++ lids t).
Proof.
  induction t as [n|n ks IH] using tree_ind'; [reflexivity|]. cbn [ids nids lids app]. constructor.
  induction IH as [|k ks Hk _ IHk]; [constructor|]. cbn [flat_map]. rewrite IHk, Hk.
  rewrite <- !app_assoc. apply Permutation_app_head. rewrite !app_assoc.
  apply Permutation_app_tail. apply Permutation_app_comm.
Qed.

Lemma nids_inner h t : forall up, hangs h up t -> forall x, In x (nids t) -> oleaf (hget h x) = false.
Proof.
  induction t as [n|n ks IH] using tree_ind'; intros up H x; [intros []|].
  destruct (hangs_kids _ _ _ _ _ H) as (L & F & _). cbn [nids]. intros [->|Hx]; auto.
  apply in_flat_map in Hx. destruct Hx as (k & Hk & Hx). rewrite Forall_forall in IH, F. eauto.
Qed.
Lemma lids_leaf h t : forall up, hangs h up t -> forall x, In x (lids t) -> oleaf (hget h x) = true.
Proof.
  induction t as [n|n ks IH] using tree_ind'; intros up H x.
  - intros [->|[]]. apply hangs_leafness in H. exact H.
  - destruct (hangs_kids _ _ _ _ _ H) as (L & F & _). cbn [lids]. intros Hx.
    apply in_flat_map in Hx. destruct Hx as (k & Hk & Hx). rewrite Forall_forall in IH, F. eauto.
Qed.

Lemma filter_perm {A} (f : A -> bool) l l' : Permutation l l' -> Permutation (filter f l) (filter f l').
Proof.
  induction 1; cbn; auto.
  - destruct (f x); auto.
  - destruct (f x), (f y); auto. constructor.
  - etransitivity; eauto.
Qed.
Lemma filter_none {A} (f : A -> bool) l : (forall x, In x l -> f x = false) -> filter f l = [].
Proof.
  induction l as [|x l IH]; intros H; auto. cbn. rewrite (H x) by (left; auto).
  apply IH. intros; apply H; right; auto.
Qed.

Lemma nids_filter h t up : hangs h up t ->
  Permutation (filter (fun x => negb (oleaf (hget h x))) (ids t)) (nids t).
Proof.
  intros H. rewrite (filter_perm _ _ _ (ids_split t)), filter_app.
  rewrite filter_all, (filter_none _ (lids t)).
  - now rewrite app_nil_r.
  - intros x Hx. now rewrite (lids_leaf h t up H x Hx).
  - intros x Hx. now rewrite (nids_inner h t up H x Hx).
Qed.

Lemma NoDup_intro {A} (l : list A) : (forall a l1 l2, l = l1 ++ a :: l2 -> ~ In a (l1 ++ l2)) -> NoDup l.
Proof.
  induction l as [|x l IH]; intros H; constructor.
  - apply (H x [] l). reflexivity.
  - apply IH. intros a l1 l2 E Hi. apply (H a (x :: l1) l2); [now rewrite E|]. right. exact Hi.
Qed.

Lemma nids_nodup h t : no_self_slot h -> hangs h None t -> NoDup (nids t).
Proof.
  intros NS H. apply NoDup_intro. intros a l1 l2 E Hi.
  assert (Ha : In a (nids t)) by (rewrite E; apply in_app_iff; right; left; auto).
  destruct (in_at_depth a t Ha) as (d & Hd). destruct (reroot_any _ h a d t Hd H) as (t' & Et & H' & P).
  assert (Pn : Permutation (nids t) (nids t')).
  { rewrite <- (nids_filter h t None H), <- (nids_filter h t' None H'). now apply filter_perm. }
  destruct t' as [m|m ks].
  - cbn [nids] in Pn. apply Permutation_sym, Permutation_nil in Pn. rewrite Pn in Ha. destruct Ha.
  - cbn [top] in Et. subst m. rewrite E in Pn. cbn [nids] in Pn.
    apply Permutation_sym, Permutation_cons_app_inv in Pn.
    assert (Hk : In a (flat_map (fun k => nids (k_t k)) ks)).
    { eapply Permutation_in; [apply Permutation_sym, Pn|exact Hi]. }
    apply in_flat_map in Hk. destruct Hk as (k & Hk & Hn).
    assert (B : exists s u, below s u (Nd a ks) /\ inner s = true /\ top s = a).
    { destruct (in_nids_below a (k_t k) Hn) as [E1|(ks' & u & B)].
      - exists (k_t k), (k_j k, (a, k_i k)). split; [now constructor|]. rewrite E1. auto.
      - exists (Nd a ks'), u. split; [econstructor; eauto|auto]. }
    destruct B as (s & u & B & Is & Ts).
    apply (no_return h NS _ _ _ _ H' B Is). exact Ts.
Qed.

Lemma leaf_parent h t : forall up x, hangs h up t -> In x (lids t) ->
  (t = Lf x /\ exists j p, up = Some (j, p) /\ oacc (hget h x) = [(j, p)]) \/
  exists j p i, In p (nids t) /\ oacc (hget h x) = [(j, (p, i))].
Proof.
  induction t as [n|n ks IH] using tree_ind'; intros up x H Hx.
  - left. destruct Hx as [->|[]]. inversion H; subst. eauto.
  - right. destruct (hangs_kids _ _ _ _ _ H) as (L & F & _). cbn [lids] in Hx.
    apply in_flat_map in Hx. destruct Hx as (k & Hk & Hx). rewrite Forall_forall in IH, F.
    destruct (IH k Hk _ x (F k Hk) Hx) as [(E & j & p & Eu & A)|(j & p & i & Hp & A)].
    + inversion Eu; subst. exists (k_j k), n, (k_i k). split; [left; auto|auto].
    + exists j, p, i. split; auto. right. apply in_flat_map. eauto.
Qed.

Lemma NoDup_app {A} (l l' : list A) : NoDup l -> NoDup l' -> (forall x, In x l -> ~ In x l') -> NoDup (l ++ l').
Proof.
  induction 1 as [|x l Hx D IH]; intros D' X; auto. cbn. constructor.
  - intros Hi. apply in_app_iff in Hi. destruct Hi; [auto|]. apply (X x); [left; auto|auto].
  - apply IH; auto. intros y Hy. apply X. right; auto.
Qed.

Lemma lids_nodup h t : forall up, hangs h up t -> NoDup (nids t) -> NoDup (lids t).
Proof.
  induction t as [n|n ks IH] using tree_ind'; intros up H D.
  - repeat constructor. intros [].
  - destruct (hangs_kids _ _ _ _ _ H) as (L & F & _).
    destruct (hangs_acc h _ _ _ H) as (_ & _ & _ & KN & _). clear H L.
    cbn [nids lids] in *. apply NoDup_cons_iff in D. destruct D as (Nn & D).
    revert F KN Nn D. induction IH as [|k ks Hk _ IHk]; intros F KN Nn D; [constructor|].
    cbn [flat_map map] in *. inversion F as [|? ? Fk F']; subst.
    apply NoDup_cons_iff in KN. destruct KN as (Nk & KN).
    apply NoDup_app.
    + eapply Hk; eauto. eapply NoDup_app_l; eauto.
    + apply IHk; auto.
      * intros Hi. apply Nn, in_app_iff. auto.
      * eapply NoDup_app_r; eauto.
    + intros x Hx Hx'. apply in_flat_map in Hx'. destruct Hx' as (k' & Hk' & Hx').
      rewrite Forall_forall in F'. pose proof (F' k' Hk') as Fk'.
      destruct (leaf_parent h _ _ x Fk Hx) as [(E1 & j1 & p1 & U1 & A1)|(j1 & p1 & i1 & P1 & A1)];
      destruct (leaf_parent h _ _ x Fk' Hx') as [(E2 & j2 & p2 & U2 & A2)|(j2 & p2 & i2 & P2 & A2)];
      rewrite A1 in A2; inversion A2; subst.
      * inversion U1; inversion U2; subst. apply Nk. apply in_map_iff. exists k'. split; auto. congruence.
      * inversion U1; subst. apply Nn, in_app_iff. right. apply in_flat_map. eauto.
      * inversion U2; subst. apply Nn, in_app_iff. left. auto.
      * eapply NoDup_app_disj; [exact D|exact P1|]. apply in_flat_map. eauto.
Qed.

Lemma hangs_nodup h t : no_self_slot h -> hangs h None t -> NoDup (ids t).
Proof.
  intros NS H. eapply Permutation_NoDup; [symmetry; apply ids_split|].
  pose proof (nids_nodup h t NS H) as D. apply NoDup_app; auto.
  - eapply lids_nodup; eauto.
  - intros x Hx Hl. pose proof (nids_inner h t _ H x Hx). pose proof (lids_leaf h t _ H x Hl). congruence.
Qed.

End Acyc.
