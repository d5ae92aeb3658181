From Coq Require Import String List Arith Bool Lia Permutation.
From Verif Require Import Py Alg ListX NdArray_Model Net_Model Net_Spec Link_Spec Gen_Spec Trav_Proof Acyc_Proof Link_Proof.
Import ListNotations.
Local Open Scope nat_scope.
Local Open Scope list_scope.

Lemma stree_ind' (P : stree -> Prop) :
  (forall s, P (SLf s)) -> (forall s l, Forall P l -> P (SNd s l)) -> forall t, P t.
Proof.
  intros HL HN. fix IH 1. intros [s|s l]; [apply HL|]. apply HN. induction l as [|t l IHl]; constructor; auto.
Qed.

Lemma nth_error_Some_lt {A} (l : list A) k x : nth_error l k = Some x -> k < length l.
Proof. intros H. apply nth_error_Some. congruence. Qed.
Lemma nth_error_nth' {A} (l : list A) k x d : nth_error l k = Some x -> nth k l d = x.
Proof. revert l. induction k as [|k IH]; intros [|y l] H; try discriminate; cbn in *; [congruence|auto]. Qed.

Lemma dput_last {V} (d : list (nat * V)) k v : (forall x, In x (map fst d) -> x < k) -> dput d k v = d ++ [(k, v)].
Proof.
  induction d as [|[k' v'] d IH]; intros H; [reflexivity|]. cbn [dput].
  pose proof (H k' ltac:(left; auto)).
  destruct (Nat.eqb_spec k k'); [lia|]. destruct (Nat.ltb_spec k k'); [lia|]. rewrite IH; [reflexivity|].
  intros x Hx. apply H. right; auto.
Qed.

Section Gen.
Variable K : StarRing.
Variable graph : string -> option (list string).
Implicit Types h : heap K.

Definition newobj (T : stree) (p : half) : obj K :=
  mkObj (Some (sname T)) (negb (sinner T)) None None (if sinner T then Some 0 else None) false [(0, p)] [].

Lemma known_inner T : unfolds graph T -> negb (is_none (graph (sname T))) = sinner T.
Proof. intros H. inversion H as [s E|s l E F]; subst; cbn; now rewrite E. Qed.

Lemma gen_children_ok sr r : forall l h ord stack o,
  Forall (unfolds graph) l -> ~ In sr (map sname l) ->
  r < length h -> ord sr = Some o -> (forall x, In x (map fst (oacc (hget h r))) -> x < o) ->
  exists h1 ord1, gen_children graph h ord stack sr r (map sname l) =
      Ok (h1, ord1, rev (map (fun p => (sname (fst p), snd p)) (filter (fun p => sinner (fst p)) (combine l (seq (length h) (length l))))) ++ stack) /\
    length h1 = length h + length l /\
    hget h1 r = put_acc (oacc (hget h r) ++ map (fun k => (o + k, (length h + k, 0))) (seq 0 (length l))) (hget h r) /\
    (forall n, n < length h -> n <> r -> hget h1 n = hget h n) /\
    (forall k T, nth_error l k = Some T -> hget h1 (length h + k) = newobj T (r, o + k)) /\
    (forall x, x <> sr -> ~ In x (map sname l) -> ord1 x = ord x) /\
    (forall T, In T l -> ord1 (sname T) = Some 1).
Proof.
  induction l as [|T l IH]; intros h ord stack o F Ns Hr Ho Ha.
  - exists h, ord. cbn. rewrite Nat.add_0_r, app_nil_r. split; [reflexivity|]. split; [reflexivity|].
    split. { destruct (hget h r); reflexivity. }
    split; auto. split. { intros [|k] T E; discriminate. } split; auto. intros T [].
  - inversion F as [|? ? F1 F2]; subst. cbn [map gen_children]. rewrite (known_inner T F1), Ho.
    set (h0 := link (h ++ [if sinner T then new_tensor (Some (sname T)) None (Some 0) false else new_leaf (Some (sname T)) None]) r o (length h) 0).
    assert (L0 : length h0 = S (length h)).
    { unfold h0, link. rewrite !length_modify, app_length. cbn. lia. }
    assert (Rn : r <> length h) by lia.
    assert (Gr : hget h0 r = put_acc (oacc (hget h r) ++ [(o, (length h, 0))]) (hget h r)).
    { unfold h0, link. rewrite hget_modify_neq by auto. rewrite hget_modify_eq by (rewrite app_length; cbn; lia).
      rewrite hget_app_l by auto. now rewrite dput_last. }
    assert (Gc : hget h0 (length h) = newobj T (r, o)).
    { unfold h0, link. rewrite hget_modify_eq by (rewrite length_modify, app_length; cbn; lia).
      rewrite hget_modify_neq by auto. rewrite hget_app_last. destruct T; reflexivity. }
    assert (Go : forall n, n < length h -> n <> r -> hget h0 n = hget h n).
    { intros n Hn Nn. unfold h0, link. rewrite !hget_modify_neq by lia. now apply hget_app_l. }
    cbn in Ns.
    assert (Nsr : sname T <> sr) by tauto.
    destruct (IH h0 (fun x => if String.eqb x (sname T) then Some 1 else if String.eqb x sr then Some (o + 1) else ord x)
      (if sinner T then (sname T, length h) :: stack else stack) (o + 1)) as (h1 & ord1 & E & L1 & R1 & O1 & C1 & D1 & D2).
    + auto.
    + tauto.
    + lia.
    + destruct (String.eqb_spec sr (sname T)); [congruence|]. now rewrite String.eqb_refl.
    + rewrite Gr. cbn [oacc put_acc]. rewrite map_app. intros x Hx. apply in_app_iff in Hx. destruct Hx as [Hx|[<-|[]]].
      * specialize (Ha x Hx). lia.
      * cbn. lia.
    + exists h1, ord1. split; [|split; [|split; [|split; [|split; [|split]]]]].
      * etransitivity; [exact E|]. f_equal. f_equal. rewrite L0. cbn [length seq combine filter fst].
        destruct (sinner T); [|reflexivity]. cbn [map rev fst snd]. now rewrite <- app_assoc.
      * rewrite L1, L0. cbn. lia.
      * rewrite R1, Gr, L0. cbn [length seq map oacc put_acc]. unfold put_acc at 1 3. cbn. f_equal.
        rewrite <- app_assoc. cbn. rewrite !Nat.add_0_r. f_equal. f_equal.
        rewrite <- seq_shift, map_map. apply map_ext. intros k. f_equal; [lia|]. f_equal. lia.
      * intros n Hn Nn. rewrite O1 by lia. auto.
      * intros [|k] T' Ek; cbn in Ek.
        -- inversion Ek; subst. rewrite !Nat.add_0_r, O1 by lia. exact Gc.
        -- specialize (C1 k T' Ek). rewrite L0 in C1. replace (length h + S k) with (S (length h) + k) by lia.
           replace (o + S k) with (o + 1 + k) by lia. exact C1.
      * intros x Nx Hx. cbn in Hx. rewrite D1 by tauto. destruct (String.eqb_spec x (sname T)) as [->|]; [tauto|].
        destruct (String.eqb_spec x sr); [tauto|reflexivity].
      * intros T' [<-|HT]; [|now apply D2].
        destruct (in_dec String.string_dec (sname T) (map sname l)) as [Hi|Hi].
        -- apply in_map_iff in Hi. destruct Hi as (T2 & <- & H2). now apply D2.
        -- rewrite D1 by auto. now rewrite String.eqb_refl.
Qed.

(** A node that waits on the stack. *)
Definition pending h (ord : string -> option nat) (p : stree * id) : Prop :=
  let '(T, c) := p in
  unfolds graph T /\ sinner T = true /\ c < length h /\
  exists up, ord (sname T) = Some (length (up_links up)) /\
    hget h c = mkObj (Some (sname T)) false None None (match up with None => None | Some _ => Some 0 end) false (up_links up) [].

Definition finished h h' (p : stree * id) : Prop :=
  let '(T, c) := p in
  exists t up, oacc (hget h c) = up_links up /\ top t = c /\ realises h' up T t /\
    forall x, In x (ids t) -> x = c \/ length h <= x < length h'.

Lemma choose {A B} (Q : A -> B -> Prop) l : Forall (fun a => exists b, Q a b) l -> exists bs, Forall2 Q l bs.
Proof.
  induction 1 as [|a l (b & Hb) _ (bs & IH)]; [exists []; constructor|]. exists (b :: bs). constructor; auto.
Qed.

Lemma Forall2_combine_seq {A B} (Q : A * nat -> B -> Prop) : forall (l : list A) a bs,
  Forall2 Q (combine l (seq a (length l))) bs -> length bs = length l /\
  forall k x, nth_error l k = Some x -> exists y, nth_error bs k = Some y /\ Q (x, a + k) y.
Proof.
  induction l as [|x l IH]; intros a bs H; cbn in H; inversion H as [|? ? ? ? H1 H2]; subst.
  - split; auto. intros [|k] x E; discriminate.
  - destruct (IH (S a) _ H2) as (L & G). split; [cbn; lia|]. intros [|k] x' E; cbn in E.
    + inversion E; subst. rewrite Nat.add_0_r. eexists. split; [reflexivity|auto].
    + destruct (G k x' E) as (z & Ez & Qz). exists z. split; auto. now rewrite Nat.add_succ_r.
Qed.

Lemma nth_error_Forall2 {A B} (Q : A -> B -> Prop) : forall l l', length l = length l' ->
  (forall k x y, nth_error l k = Some x -> nth_error l' k = Some y -> Q x y) -> Forall2 Q l l'.
Proof.
  induction l as [|x l IH]; intros [|y l'] L H; try discriminate; constructor.
  - now apply (H 0).
  - apply IH; [cbn in L; lia|]. intros k. apply (H (S k)).
Qed.

Lemma in_combine_seq {A} (l : list A) a x c : In (x, c) (combine l (seq a (length l))) ->
  exists k, c = a + k /\ nth_error l k = Some x.
Proof.
  revert a. induction l as [|y l IH]; intros a H; [destruct H|]. cbn in H. destruct H as [E|H].
  - inversion E; subst. exists 0. split; [lia|reflexivity].
  - destruct (IH _ H) as (k & -> & E). exists (S k). split; [lia|exact E].
Qed.

Definition weight (P : list (stree * id)) : nat := list_sum (map (fun p => skeys (fst p)) P).

Lemma list_sum_app' l l' : list_sum (l ++ l') = list_sum l + list_sum l'.
Proof. apply list_sum_app. Qed.

Lemma weight_rev P : weight (rev P) = weight P.
Proof.
  unfold weight. rewrite map_rev. induction (map (fun p => skeys (fst p)) P) as [|x l IH]; [reflexivity|].
  cbn [rev]. rewrite list_sum_app, IH. unfold list_sum. cbn [fold_right]. lia.
Qed.
Lemma weight_app P Q : weight (P ++ Q) = weight P + weight Q.
Proof. unfold weight. now rewrite map_app, list_sum_app. Qed.
Lemma weight_children l a : weight (filter (fun p => sinner (fst p)) (combine l (seq a (length l)))) = list_sum (map skeys l).
Proof.
  revert a. induction l as [|T l IH]; intros a; [reflexivity|]. cbn [length seq combine filter fst map list_sum fold_right].
  specialize (IH (S a)). destruct T; cbn [sinner]; [exact IH|]. unfold weight in *. cbn [map list_sum fold_right fst]. 
  unfold list_sum in *. lia.
Qed.

Definition extra (P : list (stree * id)) : nat := list_sum (map (fun p => length (snames (fst p)) - 1) P).
Lemma extra_app P Q : extra (P ++ Q) = extra P + extra Q.
Proof. unfold extra. now rewrite map_app, list_sum_app. Qed.
Lemma extra_rev P : extra (rev P) = extra P.
Proof.
  unfold extra. rewrite map_rev. induction (map _ P) as [|x l IH]; [reflexivity|].
  cbn [rev]. rewrite list_sum_app, IH. unfold list_sum. cbn [fold_right]. lia.
Qed.
Lemma snames_pos T : 1 <= length (snames T).
Proof. destruct T; cbn; lia. Qed.
Lemma extra_children l a :
  length l + extra (filter (fun p => sinner (fst p)) (combine l (seq a (length l)))) = length (flat_map snames l).
Proof.
  revert a. induction l as [|T l IH]; intros a; [reflexivity|].
  cbn [length seq combine filter fst flat_map]. specialize (IH (S a)). rewrite app_length.
  pose proof (snames_pos T). destruct T as [s|s l']; cbn [sinner].
  - cbn [snames length]. lia.
  - unfold extra in *. cbn [map list_sum fold_right fst] in *. unfold list_sum in *. lia.
Qed.

Lemma sname_in T : In (sname T) (snames T).
Proof. destruct T; cbn; auto. Qed.

Lemma filter_combine_names l a x : In x (flat_map (fun p => snames (fst p)) (filter (fun p => sinner (fst p)) (combine l (seq a (length l))))) ->
  In x (flat_map snames l).
Proof.
  intros H. apply in_flat_map in H. destruct H as ([T c] & H & Hx). apply filter_In in H. destruct H as (H & _).
  apply in_combine_l in H. apply in_flat_map. eauto.
Qed.
Lemma filter_combine_nodup l a : NoDup (flat_map snames l) ->
  NoDup (flat_map (fun p => snames (fst p)) (filter (fun p => sinner (fst p)) (combine l (seq a (length l))))).
Proof.
  revert a. induction l as [|T l IH]; intros a H; [constructor|]. cbn [length seq combine filter fst flat_map] in *.
  destruct (sinner T); [|apply IH; eapply NoDup_app_r; eauto]. cbn [flat_map fst]. apply NoDup_app.
  - eapply NoDup_app_l; eauto.
  - apply IH. eapply NoDup_app_r; eauto.
  - intros x Hx Hx'. apply filter_combine_names in Hx'. eapply NoDup_app_disj; eauto.
Qed.
Lemma flat_map_perm {A B} (f : A -> list B) l l' : Permutation l l' -> Permutation (flat_map f l) (flat_map f l').
Proof.
  induction 1; cbn; auto.
  - now apply Permutation_app_head.
  - rewrite !app_assoc. apply Permutation_app_tail, Permutation_app_comm.
  - eapply Permutation_trans; eauto.
Qed.

Lemma realises_ext h h' : forall T t up, realises h up T t -> (forall x, In x (ids t) -> hget h' x = hget h x) -> realises h' up T t.
Proof.
  induction T as [s|s l IH] using stree_ind'; intros t up R H; inversion R as [? ? ? E|? ? ? ? ks E Ki Kj F]; subst.
  - constructor. rewrite H; auto. left; auto.
  - econstructor; eauto.
    + rewrite H; auto. left; auto.
    + clear -IH F H. assert (Q : forall x, In x (flat_map (fun k => ids (k_t k)) ks) -> hget h' x = hget h x).
      { intros x Hx. apply H. right; auto. } clear H.
      revert ks F Q. induction IH as [|T l HT _ IHl]; intros ks F Q; inversion F as [|? k ? ks' F1 F2]; subst; constructor.
      * apply HT; auto. intros x Hx. apply Q. cbn. apply in_app_iff. auto.
      * apply IHl; auto. intros x Hx. apply Q. cbn. apply in_app_iff. auto.
Qed.

Lemma gen_loop_ok : forall fuel P h ord,
  Forall (pending h ord) P -> NoDup (map snd P) -> NoDup (flat_map (fun p => snames (fst p)) P) -> weight P <= fuel ->
  exists h', gen_loop graph fuel h ord (map (fun p => (sname (fst p), snd p)) P) = Ok h' /\
    length h' = length h + extra P /\
    (forall n, n < length h -> ~ In n (map snd P) -> hget h' n = hget h n) /\
    Forall (finished h h') P.
Proof.
  induction fuel as [|fuel IH]; intros P h ord HP ND NN W.
  { destruct P as [|[T c] P].
    - exists h. cbn. repeat split; auto.
    - pose proof (Forall_inv HP) as (_ & Hi & _). unfold weight in W. destruct T; cbn in Hi, W; [discriminate|lia]. }
  destruct P as [|[T c] P].
  { exists h. cbn. repeat split; auto. }
  pose proof (Forall_inv HP) as (HU & Hi & Hc & up & Ho & Hg). pose proof (Forall_inv_tail HP) as HP'.
  destruct T as [s|s l]; [discriminate|]. inversion HU as [|? ? Eg FU]; subst.
  cbn [map fst snd sname gen_loop]. rewrite Eg.
  cbn [flat_map fst snames] in NN. inversion NN as [|? ? Ns NN']; subst.
  assert (Nsl : ~ In s (map sname l)).
  { intros H. apply Ns. apply in_map_iff in H. destruct H as (T & <- & HT). apply in_app_iff. left.
    apply in_flat_map. exists T. split; auto. apply sname_in. }
  cbn [map snd] in ND. inversion ND as [|? ? Nc ND']; subst.
  set (o := length (up_links up)) in *.
  destruct (gen_children_ok s c l h ord (map (fun p => (sname (fst p), snd p)) P) o FU Nsl Hc Ho) as
    (h1 & ord1 & E & L1 & R1 & O1 & C1 & D1 & D2).
  { rewrite Hg. cbn [oacc]. unfold o. destruct up as [u|]; cbn; intros x Hx; [destruct Hx as [<-|[]]; lia|destruct Hx]. }
  rewrite E. cbn [bind]. clear E.
  set (C := combine l (seq (length h) (length l))) in *.
  set (P1 := rev (filter (fun p => sinner (fst p)) C) ++ P).
  assert (PP : Permutation P1 (filter (fun p => sinner (fst p)) C ++ P)).
  { apply Permutation_app_tail. symmetry. apply Permutation_rev. }
  replace (rev (map (fun p => (sname (fst p), snd p)) (filter (fun p => sinner (fst p)) C)) ++ map (fun p => (sname (fst p), snd p)) P)
    with (map (fun p => (sname (fst p), snd p)) P1) by (unfold P1; now rewrite map_app, map_rev).
  assert (CB : forall T' c', In (T', c') C -> exists k, c' = length h + k /\ nth_error l k = Some T').
  { intros T' c' HC. now apply in_combine_seq. }
  assert (HP1 : Forall (pending h1 ord1) P1).
  { eapply Permutation_Forall; [symmetry; exact PP|]. apply Forall_app. split; apply Forall_forall.
    - intros [T' c'] HC. apply filter_In in HC. destruct HC as (HC & Hi'). destruct (CB T' c' HC) as (k & -> & Ek).
      pose proof (nth_error_In _ _ Ek) as HT. rewrite Forall_forall in FU. split; [now apply FU|]. split; auto.
      split. { rewrite L1. apply nth_error_Some_lt in Ek. lia. }
      exists (Some (c, o + k)). split; [cbn; now apply D2|]. rewrite (C1 k T' Ek). unfold newobj. cbn [fst] in Hi'.
      now rewrite Hi'.
    - intros [T' c'] HC. rewrite Forall_forall in HP'. destruct (HP' _ HC) as (U' & I' & Hc' & up' & Ho' & Hg').
      split; auto. split; auto. split; [lia|]. exists up'.
      assert (c' <> c). { intros ->. apply Nc. apply in_map_iff. exists (T', c). auto. }
      rewrite O1 by auto. split; auto.
      rewrite D1; auto.
      + intros Es. apply Ns. apply in_app_iff. right. apply in_flat_map. exists (T', c'). split; auto. rewrite <- Es. apply sname_in.
      + intros Hn. apply in_map_iff in Hn. destruct Hn as (T2 & E2 & H2).
        eapply (NoDup_app_disj _ _ (sname T2) NN').
        * apply in_flat_map. exists T2. split; auto. apply sname_in.
        * rewrite E2. apply in_flat_map. exists (T', c'). split; auto. apply sname_in. }
  assert (ND1 : NoDup (map snd P1)).
  { eapply Permutation_NoDup; [apply Permutation_map; symmetry; exact PP|]. rewrite map_app. apply NoDup_app; auto.
    - unfold C. clear. generalize (length h) as a. induction l as [|T l IH]; intros a; [constructor|].
      cbn [length seq combine filter fst]. destruct (sinner T); [|apply IH]. cbn [map snd]. constructor; [|apply IH].
      intros H. apply in_map_iff in H. destruct H as ([T' c'] & Ec & H). cbn in Ec. subst. apply filter_In in H. destruct H as (H & _).
      apply in_combine_r in H. apply in_seq in H. lia.
    - intros x Hx Hx'. apply in_map_iff in Hx. destruct Hx as ([T' c'] & <- & HC). apply filter_In in HC. destruct HC as (HC & _).
      destruct (CB _ _ HC) as (k & -> & _). apply in_map_iff in Hx'. destruct Hx' as ([T2 c2] & E2 & H2). cbn in E2. subst.
      rewrite Forall_forall in HP'. destruct (HP' _ H2) as (_ & _ & Hl & _). lia. }
  assert (NN1 : NoDup (flat_map (fun p => snames (fst p)) P1)).
  { eapply Permutation_NoDup; [apply flat_map_perm; symmetry; exact PP|]. rewrite flat_map_app. apply NoDup_app.
    - apply filter_combine_nodup. eapply NoDup_app_l; eauto.
    - eapply NoDup_app_r; eauto.
    - intros x Hx Hx'. apply filter_combine_names in Hx. eapply NoDup_app_disj; eauto. }
  assert (W1 : weight P1 <= fuel).
  { unfold P1. rewrite weight_app, weight_rev. unfold C. rewrite weight_children. unfold weight in *. cbn [map list_sum fold_right fst skeys] in W.
    unfold list_sum in *. lia. }
  destruct (IH P1 h1 ord1 HP1 ND1 NN1 W1) as (h' & E & L' & O' & F').
  exists h'. split; [exact E|].
  assert (EX : length h' = length h + extra ((SNd s l, c) :: P)).
  { rewrite L', L1. unfold P1. rewrite extra_app, extra_rev. unfold C.
    pose proof (extra_children l (length h)). unfold extra at 3. cbn [map fst snames length list_sum fold_right].
    fold (list_sum (map (fun p => length (snames (fst p)) - 1) P)). fold (extra P). lia. }
  split; [exact EX|].
  assert (CP : forall x, In x (map snd (filter (fun p => sinner (fst p)) C)) -> length h <= x).
  { intros x Hx. apply in_map_iff in Hx. destruct Hx as ([T' c'] & <- & HC). apply filter_In in HC. destruct HC as (HC & _).
    destruct (CB _ _ HC) as (k & -> & _). cbn. lia. }
  assert (InP1 : forall x, In x (map snd P1) -> length h <= x \/ In x (map snd P)).
  { intros x Hx. apply (Permutation_in _ (Permutation_map snd PP)) in Hx. rewrite map_app in Hx. apply in_app_iff in Hx.
    destruct Hx as [Hx|Hx]; auto. }
  split.
  { intros n Hn Nn. cbn [map snd] in Nn. cbn in Nn. rewrite O', O1; auto; try lia.
    intros Hx. apply InP1 in Hx. destruct Hx; [lia|tauto]. }
  rewrite Forall_forall in F'.
  constructor.
  - (* the popped node *)
    assert (Hch : Forall (fun p => exists t, top t = snd p /\ realises h' (Some (c, o + (snd p - length h))) (fst p) t /\
        forall x, In x (ids t) -> length h <= x < length h') C).
    { apply Forall_forall. intros [T' c'] HC. cbn [fst snd]. destruct (CB _ _ HC) as (k & -> & Ek).
      pose proof (nth_error_Some_lt _ _ _ Ek) as Lk.
      replace (length h + k - length h) with k by lia.
      pose proof (C1 k T' Ek) as G1.
      destruct (sinner T') eqn:Ei.
      - destruct (F' (T', length h + k)) as (t & up' & Eu & Et & Rt & Bt).
        { apply (Permutation_in _ (Permutation_sym PP)). apply in_app_iff. left. apply filter_In. auto. }
        rewrite G1 in Eu. cbn [oacc newobj] in Eu.
        exists t. split; auto. split.
        + destruct up' as [u|]; [|discriminate]. cbn in Eu. inversion Eu; subst. exact Rt.
        + intros x Hx. destruct (Bt x Hx) as [->|B]; lia.
      - destruct T' as [s'|]; [|discriminate]. exists (Lf (length h + k)). split; [reflexivity|]. split.
        + constructor. rewrite O'; [exact G1|lia|]. intros Hx. apply (Permutation_in _ (Permutation_map snd PP)) in Hx.
          rewrite map_app in Hx. apply in_app_iff in Hx. destruct Hx as [Hx|Hx].
          * apply in_map_iff in Hx. destruct Hx as ([T2 c2] & E2 & H2). cbn in E2. subst c2. apply filter_In in H2. destruct H2 as (H2 & I2).
            destruct (CB _ _ H2) as (k2 & Ek2 & En2). assert (k2 = k) by lia. subst. rewrite Ek in En2. inversion En2; subst. discriminate.
          * apply in_map_iff in Hx. destruct Hx as ([T2 c2] & E2 & H2). cbn in E2. subst.
            rewrite Forall_forall in HP'. destruct (HP' _ H2) as (_ & _ & Hl & _). lia.
        + intros x [<-|[]]. lia. }
    apply choose in Hch. destruct Hch as (ts & Hts). apply Forall2_combine_seq in Hts. destruct Hts as (Lt & Gt).
    set (ks := map (fun t => (o + (top t - length h), t, 0)) ts : list kid).
    assert (Tt : forall k t, nth_error ts k = Some t -> top t = length h + k).
    { intros k t Et. pose proof (nth_error_Some_lt _ _ _ Et) as Lk. rewrite Lt in Lk.
      destruct (nth_error l k) as [T'|] eqn:Ek; [|apply nth_error_None in Ek; lia].
      destruct (Gt k T' Ek) as (t2 & Et2 & Q & _). rewrite Et in Et2. inversion Et2; subst. exact Q. }
    exists (Nd c ks), up. split; [now rewrite Hg|]. split; [reflexivity|]. split.
    + constructor.
      * rewrite O', R1, Hg; [|lia|].
        -- unfold put_acc. cbn. f_equal. f_equal. unfold ks. rewrite map_map. cbn [k_i k_t fst snd].
           apply (nth_ext_d (0, (0, 0))).
           ++ now rewrite !map_length, seq_length.
           ++ intros k Hk. rewrite map_length, seq_length in Hk.
              rewrite (nth_indep _ _ (o + 0, (length h + 0, 0))) by (rewrite map_length, seq_length; auto).
              rewrite (map_nth (fun k => (o + k, (length h + k, 0)))), seq_nth by auto. cbn [Nat.add].
              destruct (nth_error ts k) as [t|] eqn:Et; [|apply nth_error_None in Et; lia].
              rewrite (nth_error_nth' _ _ _ _ (map_nth_error (fun x => (k_i (o + (top x - length h), x, 0), (top (k_t (o + (top x - length h), x, 0)), 0))) k ts Et)).
              unfold k_i, k_t. cbn. rewrite (Tt k t Et). f_equal. lia.
        -- intros Hx. apply InP1 in Hx. destruct Hx; [lia|tauto].
      * unfold ks. rewrite map_map. cbn [k_i fst]. fold o.
        apply (nth_ext_d 0).
        -- now rewrite map_length, seq_length.
        -- intros k Hk. rewrite map_length in Hk. rewrite seq_nth by lia.
           destruct (nth_error ts k) as [t|] eqn:Et; [|apply nth_error_None in Et; lia].
           rewrite (nth_error_nth' _ _ _ _ (map_nth_error (fun x => o + (top x - length h)) k ts Et)). rewrite (Tt k t Et). lia.
      * unfold ks. apply Forall_forall. intros k Hk. apply in_map_iff in Hk. destruct Hk as (t & <- & _). reflexivity.
      * apply nth_error_Forall2; [unfold ks; rewrite map_length; auto|].
        intros k T' kk Ek Ekk. unfold ks in Ekk. destruct (Gt k T' Ek) as (t & Et & Q & Rt & _). cbn [fst snd] in *.
        rewrite (map_nth_error _ k ts Et) in Ekk. inversion Ekk; subst. unfold k_i, k_t. cbn. rewrite Q. exact Rt.
    + intros x Hx. cbn [ids] in Hx. destruct Hx as [<-|Hx]; [auto|]. right.
      apply in_flat_map in Hx. destruct Hx as (kk & Hkk & Hx). unfold ks in Hkk. apply in_map_iff in Hkk. destruct Hkk as (t & <- & Ht).
      apply In_nth_error in Ht. destruct Ht as (k & Et). pose proof (nth_error_Some_lt _ _ _ Et) as Lk.
      destruct (nth_error l k) as [T'|] eqn:Ek; [|apply nth_error_None in Ek; lia].
      destruct (Gt k T' Ek) as (t2 & Et2 & _ & _ & B). rewrite Et in Et2. inversion Et2; subst. apply B. exact Hx.
  - (* the others *)
    apply Forall_forall. intros [T' c'] HC. rewrite Forall_forall in HP'. destruct (HP' _ HC) as (_ & _ & Hc' & _).
    destruct (F' (T', c')) as (t & up' & Eu & Et & Rt & Bt).
    { apply (Permutation_in _ (Permutation_sym PP)). apply in_app_iff. auto. }
    exists t, up'. rewrite O1 in Eu; auto.
    2:{ intros ->. apply Nc. apply in_map_iff. exists (T', c). auto. }
    split; auto. split; auto. split; auto. intros x Hx. destruct (Bt x Hx) as [->|]; [auto|]. right. lia.
Qed.

Lemma generate_ok fuel h root l : unfolds graph (SNd root l) -> NoDup (snames (SNd root l)) -> skeys (SNd root l) <= fuel ->
  exists h' t, generate graph fuel h root = Ok (h', length h) /\ top t = length h /\
    realises h' None (SNd root l) t /\ length h' = length h + length (snames (SNd root l)) /\
    (forall n, n < length h -> hget h' n = hget h n) /\
    (forall x, In x (ids t) -> length h <= x < length h').
Proof.
  intros U ND W. unfold generate. set (h0 := h ++ [new_tensor (Some root) None None false]).
  assert (L0 : length h0 = S (length h)) by (unfold h0; rewrite app_length; cbn; lia).
  set (ord := fun x => if String.eqb x root then Some 0 else None).
  destruct (gen_loop_ok fuel [(SNd root l, length h)] h0 ord) as (h' & E & L & O & F).
  - constructor; [|constructor]. split; auto. split; auto. split; [lia|]. exists None. cbn [sname up_links length]. unfold ord. rewrite String.eqb_refl. split; auto.
    unfold h0. now rewrite hget_app_last.
  - constructor; [intros []|constructor].
  - cbn [flat_map fst]. now rewrite app_nil_r.
  - unfold weight. cbn [map fst list_sum fold_right]. lia.
  - cbn [map fst snd sname] in E. rewrite E. cbn [bind]. pose proof (Forall_inv F) as (t & up & Eu & Et & R & B).
    unfold h0 in Eu. rewrite hget_app_last in Eu. destruct up; [discriminate|].
    exists h', t. split; auto. split; auto. split; auto.
    assert (length h' = length h + length (snames (SNd root l))).
    { rewrite L, L0. unfold extra. cbn [map fst list_sum fold_right snames length]. lia. }
    split; auto. split.
    + intros n Hn. rewrite O; [unfold h0; now apply hget_app_l|lia|]. cbn. intros [|[]]. lia.
    + intros x Hx. destruct (B x Hx) as [->|]; [|lia]. cbn [snames length] in *. lia.
Qed.

Lemma realises_hangs h : forall T t up, realises h up T t -> hangs h (option_map (fun p => (0, p)) up) t.
Proof.
  induction T as [s|s l IH] using stree_ind'; intros t up R; inversion R as [? ? ? E|? ? ? ? ks E Ki Kj F]; subst.
  - cbn. constructor; now rewrite E.
  - assert (Ek : map (fun k => (k_i k, (top (k_t k), 0))) ks = map (fun k => (k_i k, (top (k_t k), k_j k))) ks).
    { apply map_ext_in. intros k Hk. rewrite Forall_forall in Kj. now rewrite Kj. }
    assert (Fk : Forall (fun k => hangs h (Some (k_j k, (n, k_i k))) (k_t k)) ks).
    { clear -IH F Kj. revert ks F Kj. induction IH as [|T l HT _ IHl]; intros ks F Kj; inversion F as [|? k ? ks' F1 F2]; subst; constructor.
      - pose proof (Forall_inv Kj) as K0. cbn in K0. rewrite K0. exact (HT _ _ F1).
      - apply IHl; auto. now apply Forall_inv_tail in Kj. }
    assert (NDk : NoDup (map fst (oacc (hget h n)))).
    { rewrite E. cbn [oacc]. rewrite map_app, map_map. cbn [fst]. change (map (fun x => k_i x) ks) with (map k_i ks). rewrite Ki.
      destruct up as [u|]; cbn [up_links map length app fst]; [|apply seq_NoDup].
      constructor; [|apply seq_NoDup]. rewrite in_seq. lia. }
    destruct up as [u|]; cbn [option_map].
    + apply (hangs_node K h n 0 u [] ks); auto.
      * now rewrite E.
      * rewrite E. cbn [oacc up_links app map]. now rewrite Ek.
    + apply hangs_root; auto.
      * now rewrite E.
      * rewrite E. cbn [oacc up_links app]. exact Ek.
Qed.

(** Every object below bears the right name, flags and default values. *)
Lemma realises_names h : forall T t up, realises h up T t -> map (fun n => oname (hget h n)) (ids t) = map Some (snames T).
Proof.
  induction T as [s|s l IH] using stree_ind'; intros t up R; inversion R as [? ? ? E|? ? ? ? ks E Ki Kj F]; subst.
  - cbn. now rewrite E.
  - cbn [ids snames map]. rewrite E. cbn [oname]. f_equal. clear -IH F.
    revert ks F. induction IH as [|T l HT _ IHl]; intros ks F; inversion F as [|? k ? ks' F1 F2]; subst; [reflexivity|].
    cbn [flat_map]. rewrite !map_app, (HT _ _ F1), (IHl _ F2). reflexivity.
Qed.

Lemma realises_leaf_iff h : forall T t up, unfolds graph T -> realises h up T t ->
  forall n s, In n (ids t) -> oname (hget h n) = Some s -> (oleaf (hget h n) = true <-> graph s = None).
Proof.
  induction T as [s|s l IH] using stree_ind'; intros t up U R m s' Hm Es; inversion R as [? ? ? E|? ? ? ? ks E Ki Kj F]; subst;
    inversion U as [? Eg|? ? Eg FU]; subst.
  - destruct Hm as [<-|[]]. rewrite E in *. cbn in *. inversion Es; subst. tauto.
  - cbn [ids] in Hm. destruct Hm as [<-|Hm].
    + rewrite E in *. cbn in *. inversion Es; subst. rewrite Eg. split; discriminate.
    + clear -IH F FU Hm Es. revert ks F Hm. induction IH as [|T l HT _ IHl]; intros ks F Hm; inversion F as [|? k ? ks' F1 F2]; subst; [destruct Hm|].
      cbn [flat_map] in Hm. inversion FU; subst. apply in_app_iff in Hm. destruct Hm as [Hm|Hm]; [eapply HT; eauto|eapply IHl; eauto].
Qed.

Lemma dget_nodup {V} (d : list (nat * V)) k v : NoDup (map fst d) -> In (k, v) d -> dget d k = Some v.
Proof.
  induction d as [|[k' v'] d IH]; intros ND H; [destruct H|]. inversion ND as [|? ? N1 N2]; subst. cbn [dget].
  destruct H as [H|H].
  - inversion H; subst. now rewrite Nat.eqb_refl.
  - destruct (Nat.eqb_spec k k') as [->|]; [|auto]. exfalso. apply N1. apply in_map_iff. exists (k', v). auto.
Qed.

Lemma realises_top_back h p T t : realises h (Some p) T t -> dget (oacc (hget h (top t))) 0 = Some p.
Proof. intros R. inversion R as [? ? ? E|? ? ? ? ks E Ki Kj F]; subst; cbn [top]; now rewrite E. Qed.

Lemma realises_complete h : forall T t up, realises h up T t ->
  (forall p, up = Some p -> dget (oacc (hget h (fst p))) (snd p) = Some (top t, 0)) ->
  forall x, In x (ids t) -> check_completness h x false = Ok tt.
Proof.
  induction T as [s|s l IH] using stree_ind'; intros t up R Hup x Hx; inversion R as [? ? ? E|? ? ? ? ks E Ki Kj F]; subst.
  - destruct Hx as [<-|[]]. unfold check_completness, order. rewrite E. cbn [oleaf oacc map fst seq forallb memb existsb Nat.ltb Nat.leb Nat.eqb andb orb].
    cbn [forM bind]. unfold check_linkage. rewrite E. cbn [oacc dindex dget Nat.eqb]. unfold dindex. cbn [dget Nat.eqb bind].
    destruct p as [p i]. cbn [bind]. specialize (Hup (p, i) eq_refl). cbn [fst snd top] in Hup. rewrite Hup. cbn [bind andb].
    unfold half_eqb. cbn [fst snd]. now rewrite !Nat.eqb_refl.
  - cbn [ids] in Hx. destruct Hx as [<-|Hx].
    + set (acc := up_links up ++ map (fun k => (k_i k, (top (k_t k), 0))) ks).
      assert (Ka : map fst acc = seq 0 (length acc)).
      { unfold acc. rewrite map_app, map_map, app_length, map_length. cbn [fst]. change (map (fun x => k_i x) ks) with (map k_i ks).
        assert (Lk : length l = length ks) by (rewrite <- (map_length k_i ks), Ki, seq_length; reflexivity).
        rewrite Ki, Lk. destruct up; reflexivity. }
      unfold check_completness, order. rewrite E. cbn [oleaf oacc]. fold acc. rewrite Ka.
      replace (forallb (fun k => k <? length acc) (seq 0 (length acc))) with true.
      2:{ symmetry. apply forallb_forall. intros k Hk. apply in_seq in Hk. apply Nat.ltb_lt. lia. }
      replace (forallb (fun k => memb k (seq 0 (length acc))) (seq 0 (length acc))) with true.
      2:{ symmetry. apply forallb_forall. intros k Hk. now apply memb_In. }
      cbn [andb]. apply forM_ok. intros i Hi.
      assert (exists v, In (i, v) acc) as (v & Hv).
      { rewrite <- Ka in Hi. apply in_map_iff in Hi. destruct Hi as ([i' v] & <- & H). eauto. }
      assert (Dg : dget acc i = Some v) by (apply dget_nodup; auto; rewrite Ka; apply seq_NoDup).
      unfold check_linkage, dindex. rewrite E. cbn [oacc]. fold acc. rewrite Dg. cbn [bind]. destruct v as [c j].
      assert (Dc : dget (oacc (hget h c)) j = Some (n, i)).
      { unfold acc in Hv. apply in_app_iff in Hv. destruct Hv as [Hv|Hv].
        - destruct up as [[p k]|]; [|destruct Hv]. destruct Hv as [Hv|[]]. inversion Hv; subst. exact (Hup _ eq_refl).
        - apply in_map_iff in Hv. destruct Hv as (k & Ek & Hk). inversion Ek; subst.
          assert (exists T', realises h (Some (n, k_i k)) T' (k_t k)) as (T' & RT).
          { clear -F Hk. induction F; [destruct Hk|]. destruct Hk as [->|]; eauto. }
          exact (realises_top_back _ _ _ _ RT). }
      rewrite Dc. cbn [bind andb]. unfold half_eqb. cbn [fst snd]. now rewrite !Nat.eqb_refl.
    + assert (Hback : forall k, In k ks -> dget (oacc (hget h n)) (k_i k) = Some (top (k_t k), 0)).
      { intros k Hk. pose proof (realises_hangs _ _ _ _ R) as Hg. destruct (hangs_acc _ _ _ _ _ Hg) as (ND & _).
        apply dget_nodup; auto. rewrite E. cbn [oacc]. apply in_app_iff. right. apply in_map_iff. eauto. }
      clear -IH F Hx Hback. revert ks F Hx Hback.
      induction IH as [|T l HT _ IHl]; intros ks F Hx Hb; inversion F as [|? k ? ks' F1 F2]; subst; [destruct Hx|].
      cbn [flat_map] in Hx. apply in_app_iff in Hx. destruct Hx as [Hx|Hx].
      * eapply HT; eauto. intros p Ep. inversion Ep; subst. cbn [fst snd]. apply Hb. left; auto.
      * eapply IHl; eauto. intros k' Hk'. apply Hb. right; auto.
Qed.

Lemma names_NoDup h l (ss : list string) : map (fun n => oname (hget h n)) l = map Some ss -> NoDup ss -> NoDup l.
Proof.
  revert ss. induction l as [|x l IH]; intros [|s ss] E ND; cbn in E; try discriminate; constructor; inversion ND; subst; inversion E.
  - intros Hx. apply (in_map (fun n => oname (hget h n))) in Hx.
    match goal with H : map _ l = map Some ss |- _ => rewrite H in Hx end.
    apply in_map_iff in Hx. destruct Hx as (s' & Es & Hs). assert (s' = s) by congruence. now subst.
  - eapply IH; eauto.
Qed.

Lemma generate_bijection h h' T t : realises h' None T t -> NoDup (snames T) -> length h' = length h + length (snames T) ->
  (forall x, In x (ids t) -> length h <= x < length h') -> Permutation (ids t) (seq (length h) (length (snames T))).
Proof.
  intros R ND L B. pose proof (realises_names _ _ _ _ R) as EN. pose proof (names_NoDup _ _ _ EN ND) as NI.
  apply NoDup_Permutation_bis; auto.
  - rewrite seq_length. apply (f_equal (@length _)) in EN. rewrite !map_length in EN. lia.
  - intros x Hx. apply in_seq. specialize (B x Hx). lia.
Qed.
End Gen.
