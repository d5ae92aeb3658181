(** Splitting a tensor and uniting the two parts. *)
From Coq Require Import String List Arith Bool Lia Permutation Sorting.Sorted.
From Verif Require Import Py Alg ListX NdArray_Model NdArray_Proof Contract_Model Contract_Spec Contract_Proof
  Net_Model Net_Spec Sweep_Spec Sweep_Proof Trav_Proof Acyc_Proof Link_Spec Link_Proof Move_Spec Split_Proof Relink_Proof Move_Proof
  MoveRoot_Proof Pair_Proof.
Import ListNotations.
Local Open Scope nat_scope.
Local Open Scope list_scope.

Lemma ninsert_perm x l : Permutation (ninsert x l) (x :: l).
Proof.
  induction l as [|y l IH]; cbn [ninsert]; auto. destruct (x <=? y); auto.
  rewrite IH. apply perm_swap.
Qed.
Lemma nsort_perm l : Permutation (nsort l) l.
Proof. induction l as [|x l IH]; cbn [nsort]; auto. rewrite ninsert_perm. now constructor. Qed.
Lemma ninsert_sorted x l : StronglySorted lt l -> ~ In x l -> StronglySorted lt (ninsert x l).
Proof.
  induction 1 as [|y l H IH F]; intros Hx; cbn [ninsert].
  - repeat constructor.
  - destruct (Nat.leb_spec x y) as [L|L].
    + assert (x <> y) by (intros ->; apply Hx; left; auto). constructor; [constructor; auto|].
      constructor; [lia|]. rewrite Forall_forall in *. intros z Hz. specialize (F z Hz). lia.
    + constructor; [apply IH; intros Y; apply Hx; right; auto|].
      rewrite Forall_forall in *. intros z Hz. eapply Permutation_in in Hz; [|apply ninsert_perm]. destruct Hz as [<-|Hz]; auto.
Qed.
Lemma nsort_strict l : NoDup l -> Sorted lt (nsort l).
Proof.
  intros H. apply StronglySorted_Sorted. induction H as [|x l Hx _ IH]; cbn [nsort]; [constructor|].
  apply ninsert_sorted; auto. intros Y. apply Hx. eapply Permutation_in; [apply nsort_perm|auto].
Qed.

Section Round.
Variable K : StarRing.
Add Ring Kr : (r_theory K).
Implicit Types h : heap K.

Lemma gather_firstn (s : list nat) i P : firstn i (gather s P) = gather s (firstn i P).
Proof. unfold gather. apply firstn_map. Qed.
Lemma gather_skipn (s : list nat) i P : skipn i (gather s P) = gather s (skipn i P).
Proof. unfold gather. apply skipn_map. Qed.

Lemma skipn_ins {X} i (x : X) l : i <= length l -> skipn (S i) (ins i x l) = skipn i l.
Proof.
  intros H. assert (E : length (firstn i l) = i) by (rewrite firstn_length; lia).
  unfold ins. rewrite skipn_app, E. rewrite skipn_all2 by lia. replace (S i - i) with 1 by lia. reflexivity.
Qed.
Lemma firstn_ins {X} i (x : X) l : i <= length l -> firstn i (ins i x l) = firstn i l.
Proof.
  intros H. assert (E : length (firstn i l) = i) by (rewrite firstn_length; lia).
  unfold ins. rewrite firstn_app, E, Nat.sub_diag, firstn_O, app_nil_r. apply firstn_all2. lia.
Qed.

Lemma join_arr (a : arr K) P Q i1 i2 r x y z :
  shape x = ins i1 r (gather (shape a) P) -> shape y = ins i2 r (gather (shape a) Q) ->
  i1 <= length P -> i2 <= length Q -> Forall (fun k => k < ndim a) P -> Forall (fun k => k < ndim a) Q ->
  (forall idx, in_range idx (shape a) -> sumn r (fun b => rmul (get x (ins i1 b (gather idx P))) (get y (ins i2 b (gather idx Q)))) = get a idx) ->
  contracts x i1 y i2 z -> permuted a (firstn i1 P ++ Q ++ skipn i1 P) z.
Proof.
  intros Sx Sy H1 H2 FP FQ G (Wz & Sz & Gz).
  assert (LP : forall s, length (gather s P) = length P) by (intros; apply map_length).
  assert (LQ : forall s, length (gather s Q) = length Q) by (intros; apply map_length).
  rewrite Sx, Sy in Sz, Gz.
  rewrite firstn_ins, skipn_ins, del_ins in Sz by (rewrite ?LP, ?LQ; auto).
  split; auto. split.
  { rewrite Sz, !gather_app, gather_firstn, gather_skipn. reflexivity. }
  intros idx Hi. rewrite <- G by auto. rewrite !gather_app.
  rewrite Gz.
  - rewrite nth_ins_eq by (rewrite LP; auto). apply sumn_ext. intros b _. f_equal.
    f_equal. unfold ins. now rewrite gather_firstn, gather_skipn.
  - rewrite firstn_ins by (rewrite LP; auto). rewrite gather_firstn. apply gather_in_range; auto.
    apply Forall_forall. intros k Hk. rewrite Forall_forall in FP. apply FP. rewrite <- (firstn_skipn i1 P). apply in_app_iff; auto.
  - rewrite del_ins by (rewrite LQ; auto). apply gather_in_range; auto.
  - rewrite skipn_ins by (rewrite LP; auto). rewrite gather_skipn. apply gather_in_range; auto.
    apply Forall_forall. intros k Hk. rewrite Forall_forall in FP. apply FP. rewrite <- (firstn_skipn i1 P). apply in_app_iff; auto.
Qed.

Lemma split_round csvd h n ax indice root child nz a nm :
  let l := axes_of ax in let l' := rest (ndim a) l in
  let i1 := fst (indice_of ax indice) in let i2 := snd (indice_of ax indice) in
  let r := root_of K h root in let c := child_of K h root child in
  dicts_ok h -> symmetric h -> sound h n a nm -> oaxis (hget h n) = None ->
  (forall i t l, points h n i t l -> t <> n) -> count_ascii plus nm <= 1 ->
  Sorted lt l -> Forall (fun k => k < ndim a) l -> i1 <= length l -> i2 <= length l' ->
  (forall m, matricized a l m -> exists u s v k, csvd m = Ok (u, s, v) /\ triple m u s v k /\ exact m u s v k) ->
  (root = None \/ root = Some n) -> (child = None \/ child = Some n) -> r <> c ->
  exists h' m u s v k x y, split csvd h n ax indice root child nz = Ok (r, c, h') /\
    matricized a l m /\ csvd m = Ok (u, s, v) /\ triple m u s v k /\
    left_part a l i1 k u s x /\ right_part a l i2 k v y /\ parts a l i1 i2 k x y /\
    dicts_ok h' /\ symmetric h' /\
    oarr (hget h' r) = Some x /\ oarr (hget h' c) = Some y /\ oaxis (hget h' r) = None /\ oaxis (hget h' c) = Some i2 /\
    numbered h' r /\ targets h' r = ins i1 (c, i2) (map (fun i => nth i (targets h n) (0, 0)) l) /\
    numbered h' c /\ targets h' c = ins i2 (r, i1) (map (fun i => nth i (targets h n) (0, 0)) l') /\
    forall nz' rt, (rt = None \/ rt = Some r \/ rt = Some c) ->
      (exists h'' z, let w := root_of K h' rt in unite h' r i1 rt nz' = Ok (w, h'') /\ oarr (hget h'' w) = Some z /\ oaxis (hget h'' w) = None /\
         numbered h'' w /\ (let o := firstn i1 l ++ l' ++ skipn i1 l in permuted a o z /\
         targets h'' w = map (fun i => nth i (targets h n) (0, 0)) o)) /\
      (exists h'' z, let w := root_of K h' rt in unite h' c i2 rt nz' = Ok (w, h'') /\ oarr (hget h'' w) = Some z /\ oaxis (hget h'' w) = None /\
         numbered h'' w /\ (let o := firstn i2 l' ++ l ++ skipn i2 l' in permuted a o z /\
         targets h'' w = map (fun i => nth i (targets h n) (0, 0)) o)).
Proof.
  intros l l' i1 i2 r c D Sy (Ln & Lf & Nu & An & W & Pos & Nd & Nm) Ax O Pl So Fl B1 B2 Sv Rt Ct Hrc.
  pose proof (sorted_nodup _ So) as Dl.
  assert (Hout : oacc (hget h (length h)) = [] /\ oacc (hget h (S (length h))) = []) by (rewrite !hget_out by lia; auto).
  destruct (split_ok K csvd h n ax indice root child nz a nm D Sy Lf Ax O Nu An W Pos Nd Nm Pl So Fl B1 B2) as
    (h' & m & u & s & v & k & x & y & E & Mm & Es & Tr & Lp & Rp & D' & S' & Hl & Hr' & Hc' & Oth & Ar & Ac & Q); auto.
  { intros m Mm. destruct (Sv m Mm) as (u & s & v & k & Y1 & Y2 & _). eauto 6. }
  { destruct Rt as [->| ->]; [auto|]. right. exists n. auto. }
  { destruct Ct as [->| ->]; [auto|]. right. exists n. auto. }
  fold l in Mm, Lp, Rp, Q. fold l' in Q. fold i1 in Lp, Q. fold i2 in Rp, Q, Ac. fold r in E, Q, Hr', Oth, Ar. fold c in E, Q, Hc', Oth, Ac.
  assert (Exk : exact m u s v k).
  { destruct (Sv m Mm) as (u' & s' & v' & k' & Y1 & Y2 & Y3). rewrite Es in Y1. injection Y1 as <- <- <-.
    destruct Tr as (p & q & _ & _ & (_ & Z) & _). destruct Y2 as (p' & q' & _ & _ & (_ & Z') & _). rewrite Z in Z'. injection Z' as -> _. auto. }
  pose proof (parts_ok K a l i1 i2 k u s v m x y Fl Mm Tr Exk Lp Rp) as Pp.
  assert (Fl' : Forall (fun k => k < ndim a) l') by (apply Forall_forall; intros q Hq; apply in_rest in Hq; apply Hq).
  assert (Free : forall t : option id, (t = None \/ t = Some n) -> True) by auto.
  assert (Hr0 : r = n \/ oacc (hget h r) = []).
  { unfold r. destruct Rt as [->| ->]; cbn; auto. right. apply Hout. }
  assert (Hc0 : c = n \/ oacc (hget h c) = []).
  { unfold c, child_of. destruct Ct as [->| ->]; auto. right. destruct Rt as [->| ->]; apply Hout. }
  destruct (split_links K h h' n r c i1 i2 l) as (Lr & Lc & _ & _); auto; rewrite <- ?Nd; auto.
  cbn zeta in Lr, Lc. rewrite <- Nd in Lc. fold l' in Lc.
  destruct (acc_numbered K _ _ _ Lr) as (Nr & Tr'). destruct (acc_numbered K _ _ _ Lc) as (Nc & Tc').
  apply attrs_fields in Ar. apply attrs_fields in Ac.
  assert (Fr : oarr (hget h' r) = Some x /\ oaxis (hget h' r) = None /\ oleaf (hget h' r) = false /\ exists sr, oname (hget h' r) = Some sr).
  { destruct Ar as (Y1 & Y2 & Y3 & Y4 & Y5 & _). rewrite Y1, Y2, Y3, Y5. destruct Rt as [->| ->]; cbn; rewrite ?Lf, ?Nm; eauto 6. }
  assert (Fc : oarr (hget h' c) = Some y /\ oaxis (hget h' c) = Some i2 /\ oleaf (hget h' c) = false /\ exists sr, oname (hget h' c) = Some sr).
  { destruct Ac as (Y1 & Y2 & Y3 & Y4 & Y5 & _). rewrite Y1, Y2, Y3, Y5. destruct Ct as [->| ->]; cbn; rewrite ?Lf, ?Nm; eauto 6. }
  destruct Fr as (Xr & Axr & Lfr & sr & Nmr). destruct Fc as (Xc & Axc & Lfc & sc & Nmc).
  exists h', m, u, s, v, k, x, y. do 17 (split; [solve [auto]|]).
  set (T := targets h n) in *. set (g := fun i => nth i T (0, 0)) in *.
  assert (Prc : points h' r i1 c i2).
  { apply numbered_points; auto. rewrite Tr'. apply nth_error_ins_eq. rewrite map_length. auto. }
  assert (Pcr : points h' c i2 r i1) by (apply S'; auto).
  assert (Ob : forall i, i < ndim a -> fst (g i) <> r /\ fst (g i) <> c).
  { intros i Hi. assert (Hg : nth_error T i = Some (g i)).
    { unfold g. apply nth_error_nth'. unfold T. rewrite targets_length. lia. }
    destruct (g i) as (t, p) eqn:Eg. apply numbered_points in Hg; auto. cbn [fst]. pose proof (O _ _ _ Hg) as Ht. apply Sy in Hg.
    split; intros ->; [destruct Hr0 as [Y|Y]|destruct Hc0 as [Y|Y]]; try (rewrite Y in Ht; congruence); unfold points in Hg; rewrite Y in Hg; destruct Hg. }
  assert (O1 : forall i t q, points h' r i t q -> t = r \/ t = c -> i = i1).
  { intros i t q Hp Ht. apply numbered_points in Hp; auto. rewrite Tr' in Hp.
    destruct (Nat.eq_dec i i1) as [|Hi]; auto. exfalso.
    assert (Y : In (t, q) (map g l)).
    { destruct (shifted_onto i1 i Hi) as (p & ->). rewrite nth_error_ins_shifted in Hp by (rewrite ?map_length; auto). eapply nth_error_In; eauto. }
    apply in_map_iff in Y. destruct Y as (p & E' & Hp'). rewrite Forall_forall in Fl. destruct (Ob p (Fl p Hp')) as (Y1 & Y2). rewrite E' in Y1, Y2. cbn in *. tauto. }
  assert (O2 : forall i t q, points h' c i t q -> t = r \/ t = c -> i = i2).
  { intros i t q Hp Ht. apply numbered_points in Hp; auto. rewrite Tc' in Hp.
    destruct (Nat.eq_dec i i2) as [|Hi]; auto. exfalso.
    assert (Y : In (t, q) (map g l')).
    { destruct (shifted_onto i2 i Hi) as (p & ->). rewrite nth_error_ins_shifted in Hp by (rewrite ?map_length; auto). eapply nth_error_In; eauto. }
    apply in_map_iff in Y. destruct Y as (p & E' & Hp'). rewrite Forall_forall in Fl'. destruct (Ob p (Fl' p Hp')) as (Y1 & Y2). rewrite E' in Y1, Y2. cbn in *. tauto. }
  pose proof Pp as (Wx & Sx & Wy & Sy' & Gp).
  assert (Gl : forall (P : list nat), length (gather (shape a) P) = length P) by (intros; apply map_length).
  assert (Hi1 : i1 < ndim x) by (unfold ndim; rewrite Sx, length_ins, Gl; lia).
  assert (Hi2 : i2 < ndim y) by (unfold ndim; rewrite Sy', length_ins; unfold l' in *; rewrite Gl; lia).
  assert (Ek : nth i1 (shape x) 0 = nth i2 (shape y) 0).
  { rewrite Sx, Sy', !nth_ins_eq; auto; rewrite Gl; auto. }
  assert (Jd : forall P Q i j, i <= length P -> j <= length Q -> forall p q : half,
     firstn i (del i (ins i p (map g P))) ++ del j (ins j q (map g Q)) ++ skipn i (del i (ins i p (map g P))) = map g (firstn i P ++ Q ++ skipn i P)).
  { intros P Q0 i j HP HQ p q. rewrite !del_ins by (rewrite map_length; auto). rewrite !map_app, firstn_map, skipn_map. reflexivity. }
  intros nz' rt Hrt. split.
  - destruct (unite_ok K h' r i1 c i2 rt nz' x y sr sc) as (h'' & z & nm' & E' & Cz & _ & D'' & S'' & Hl' & Hw & Oth' & Aw & Q'); auto.
    exists h'', z. cbn zeta. split; auto. apply attrs_fields in Aw.
    assert (Fw : oarr (hget h'' (root_of K h' rt)) = Some z /\ oaxis (hget h'' (root_of K h' rt)) = None).
    { destruct Aw as (Y1 & Y2 & Y3 & Y4 & Y5 & _). rewrite Y3, Y5. destruct Hrt as [->|[->| ->]]; cbn; auto. }
    destruct Fw as (F1 & F2). split; auto. split; auto.
    destruct (unite_links K h' h'' r i1 c i2 (root_of K h' rt)) as (Lw & _); auto.
    { destruct Hrt as [->|[->| ->]]; cbn; auto. right. right. intros t q p. split; [intros Y; apply S' in Y|intros Y]; unfold points in Y; rewrite hget_out in Y by lia; destruct Y. }
    apply acc_numbered in Lw. destruct Lw as (Nw & Tw). split; auto. split.
    + eapply join_arr; eauto.
    + rewrite Tw. unfold joined. rewrite Tr', Tc'. apply Jd; auto.
  - destruct (unite_ok K h' c i2 r i1 rt nz' y x sc sr) as (h'' & z & nm' & E' & Cz & _ & D'' & S'' & Hl' & Hw & Oth' & Aw & Q'); auto; try tauto.
    { intros i t q Hp Ht. apply (O2 i t q Hp). tauto. }
    { intros i t q Hp Ht. apply (O1 i t q Hp). tauto. }
    exists h'', z. cbn zeta. split; auto. apply attrs_fields in Aw.
    assert (Fw : oarr (hget h'' (root_of K h' rt)) = Some z /\ oaxis (hget h'' (root_of K h' rt)) = None).
    { destruct Aw as (Y1 & Y2 & Y3 & Y4 & Y5 & _). rewrite Y3, Y5. destruct Hrt as [->|[->| ->]]; cbn; auto. }
    destruct Fw as (F1 & F2). split; auto. split; auto.
    destruct (unite_links K h' h'' c i2 r i1 (root_of K h' rt)) as (Lw & _); auto.
    { destruct Hrt as [->|[->| ->]]; cbn; auto. right. right. intros t q p. split; [intros Y; apply S' in Y|intros Y]; unfold points in Y; rewrite hget_out in Y by lia; destruct Y. }
    { intros i t q Hp Ht. apply (O2 i t q Hp). tauto. }
    { intros i t q Hp Ht. apply (O1 i t q Hp). tauto. }
    apply acc_numbered in Lw. destruct Lw as (Nw & Tw). split; auto. split.
    + eapply (join_arr a l' l i2 i1 k y x z); eauto. intros idx Hi. rewrite <- Gp by auto. apply sumn_ext. intros b _. fold l'. ring.
    + rewrite Tw. unfold joined. rewrite Tr', Tc'. apply Jd; auto.
Qed.
End Round.
