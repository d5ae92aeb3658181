(** [split], [unite] and the moves built from them. *)
From Coq Require Import String List Arith Bool Lia Permutation Sorting.Sorted.
From Verif Require Import Py Alg ListX NdArray_Model NdArray_Proof Contract_Model Contract_Spec Contract_Proof
  Net_Model Net_Spec Trav_Proof Link_Spec Link_Proof Move_Spec Split_Proof Relink_Proof.
Import ListNotations.
Local Open Scope nat_scope.
Local Open Scope list_scope.
Local Open Scope py_scope.

Section Move.
Variable K : StarRing.
Implicit Types h : heap K.

Lemma attrs_refl (o : obj K) : attrs o o.
Proof. reflexivity. Qed.
Lemma attrs_trans (o o' o'' : obj K) : attrs o o' -> attrs o' o'' -> attrs o o''.
Proof. unfold attrs. congruence. Qed.
Lemma attrs_fields (o o' : obj K) : attrs o o' -> oname o' = oname o /\ oleaf o' = oleaf o /\ oarr o' = oarr o /\ oaux o' = oaux o /\
  oaxis o' = oaxis o /\ onorm o' = onorm o /\ ocache o' = ocache o.
Proof. destruct o, o'. unfold attrs, put_acc. cbn. intros E. inversion E. auto 10. Qed.
Lemma same_attrs h h' n : same_but_links h h' -> attrs (hget h n) (hget h' n).
Proof.
  intros (_ & H). destruct (H n) as (E1 & E2 & E3 & E4 & E5 & E6 & E7). unfold attrs, put_acc. congruence.
Qed.

Lemma put_attr_links h n f : (forall o, oacc (f o) = oacc o) -> forall m, oacc (hget (modify h n f) m) = oacc (hget h m).
Proof.
  intros F m. destruct (Nat.lt_ge_cases n (length h)) as [Hl|Hl].
  - destruct (Nat.eq_dec n m) as [->|Hn]; [rewrite hget_modify_eq by auto; auto|now rewrite hget_modify_neq].
  - now rewrite modify_out.
Qed.
Lemma add_links h o : oacc o = [] -> forall m, oacc (hget (h ++ [o]) m) = oacc (hget h m).
Proof.
  intros E m. destruct (Nat.lt_trichotomy m (length h)) as [H|[->|H]].
  - now rewrite hget_app_l.
  - rewrite hget_app_last, hget_out by lia. auto.
  - rewrite !hget_out by (rewrite ?app_length; cbn; lia). reflexivity.
Qed.
Lemma links_points h h' : (forall m, oacc (hget h' m) = oacc (hget h m)) -> forall a i b j, points h' a i b j <-> points h a i b j.
Proof. intros H a i b j. unfold points. now rewrite H. Qed.
Lemma links_dicts h h' : (forall m, oacc (hget h' m) = oacc (hget h m)) -> dicts_ok h -> dicts_ok h'.
Proof. intros H D n. rewrite H. apply D. Qed.
Lemma links_symmetric h h' : (forall m, oacc (hget h' m) = oacc (hget h m)) -> symmetric h -> symmetric h'.
Proof. intros H S a i b j P. apply (links_points h h' H). apply S. apply (links_points h h' H). auto. Qed.

(** Create a tensor or overwrite array and axis of an existing one. *)
Definition place h (t : option id) (o : obj K) (a : arr K) (ax : option nat) : id * heap K :=
  match t with
  | None => (length h, h ++ [o])
  | Some r => (r, modify h r (fun o => put_arr (Some a) (put_axis ax o)))
  end.
Definition placed h (t : option id) (o : obj K) (a : arr K) (ax : option nat) : obj K :=
  match t with None => o | Some r => put_arr (Some a) (put_axis ax (hget h r)) end.

Lemma place_ok h t o a ax : oacc o = [] -> (forall r, t = Some r -> r < length h) ->
  let '(r, h') := place h t o a ax in
  r < length h' /\ length h <= length h' /\ (forall m, oacc (hget h' m) = oacc (hget h m)) /\
  (forall m, m <> r -> hget h' m = hget h m) /\ attrs (placed h t o a ax) (hget h' r).
Proof.
  intros Eo Ht. destruct t as [r|]; cbn [place placed].
  - specialize (Ht r eq_refl). rewrite length_modify. split; auto. split; auto. split; [|split].
    + apply put_attr_links. reflexivity.
    + intros m Hm. apply hget_modify_neq. auto.
    + rewrite hget_modify_eq by auto. apply attrs_refl.
  - rewrite app_length. cbn [length]. split; [lia|]. split; [lia|]. split; [|split].
    + apply add_links. auto.
    + intros m Hm. destruct (Nat.lt_ge_cases m (length h)) as [H|H]; [now rewrite hget_app_l|].
      rewrite !hget_out by (rewrite ?app_length; cbn; lia). reflexivity.
    + rewrite hget_app_last. apply attrs_refl.
Qed.

(** ** unite *)
Definition root_of h (root : option id) : id := match root with None => length h | Some r => r end.

Lemma unite_ok h t1 axis t2 j root nz a1 a2 nm1 nm2 :
  dicts_ok h -> symmetric h -> points h t1 axis t2 j -> t1 <> t2 ->
  (forall i c l, points h t1 i c l -> c = t1 \/ c = t2 -> i = axis) ->
  (forall i c l, points h t2 i c l -> c = t1 \/ c = t2 -> i = j) ->
  numbered h t1 -> numbered h t2 -> oleaf (hget h t1) = false -> oleaf (hget h t2) = false ->
  oarr (hget h t1) = Some a1 -> oarr (hget h t2) = Some a2 ->
  axis < ndim a1 -> j < ndim a2 -> nth axis (shape a1) 0 = nth j (shape a2) 0 ->
  oname (hget h t1) = Some nm1 -> oname (hget h t2) = Some nm2 ->
  (oaxis (hget h t1) = None \/ oaxis (hget h t2) = None) ->
  (root = None \/ root = Some t1 \/ root = Some t2) ->
  exists h' c nm, unite h t1 axis root nz = Ok (root_of h root, h') /\ contracts a1 axis a2 j c /\
    unite_name (Some nm1) (Some nm2) = Ok nm /\
    dicts_ok h' /\ symmetric h' /\ length h <= length h' /\ root_of h root < length h' /\
    (forall x, x <> root_of h root -> attrs (hget h x) (hget h' x)) /\
    attrs (placed h root (new_tensor nm (Some c) None nz) c None) (hget h' (root_of h root)) /\
    forall x k y l, points h' x k y l <->
      (points h x k y l /\ x <> t1 /\ x <> t2 /\ y <> t1 /\ y <> t2) \/
      (x = root_of h root /\ nth_error (joined K h t1 axis t2 j) k = Some (y, l)) \/
      (y = root_of h root /\ nth_error (joined K h t1 axis t2 j) l = Some (x, k)).
Proof.
  intros D Sy P Hne O1 O2 N1 N2 L1 L2 A1 A2 Hi Hj Hs M1 M2 Ax Rt.
  assert (Lt1 : t1 < length h) by (eapply points_lt; eauto).
  assert (Lt2 : t2 < length h) by (apply Sy in P; eapply points_lt; eauto).
  destruct (partial_product_arr_ok K a1 axis a2 j Hi Hj Hs) as (c & Ec & Cc).
  assert (Nm : exists nm, unite_name (Some nm1) (Some nm2) = Ok nm).
  { unfold unite_name. destruct (0 <? _); [eauto|]. destruct (0 <? _); eauto. }
  destruct Nm as (nm & Enm).
  assert (Pl := place_ok h root (new_tensor nm (Some c) None nz) c None eq_refl).
  assert (Hr : forall r, root = Some r -> r < length h).
  { intros r E. destruct Rt as [Rt|[Rt|Rt]]; congruence. }
  specialize (Pl Hr). destruct (place h root _ c None) as [r h1] eqn:Ep.
  destruct Pl as (Hrl & Hll & Hacc & Hoth & Hat).
  assert (Er : r = root_of h root) by (destruct root; cbn in Ep; inversion Ep; auto).
  assert (Lf : forall t, t = t1 \/ t = t2 -> oleaf (hget h1 t) = false).
  { intros t Ht. destruct (Nat.eq_dec t r) as [->|Hn].
    - apply attrs_fields in Hat. destruct Hat as (_ & -> & _). destruct root as [r'|]; cbn; auto.
      cbn in Er. subst r'. destruct Ht as [->| ->]; auto.
    - rewrite Hoth by auto. destruct Ht as [->| ->]; auto. }
  assert (Nb : forall t, numbered h t -> numbered h1 t).
  { intros t. unfold numbered. now rewrite Hacc. }
  destruct (unite_tail_ok K h1 t1 axis t2 j r) as (h' & E' & D' & S' & M' & Q').
  - eapply links_dicts; eauto.
  - eapply links_symmetric; eauto.
  - apply (links_points h h1 Hacc). auto.
  - auto.
  - intros i d l H. apply (links_points h h1 Hacc) in H. eauto.
  - intros i d l H. apply (links_points h h1 Hacc) in H. eauto.
  - auto.
  - auto.
  - auto.
  - auto.
  - auto.
  - destruct Rt as [->|[->| ->]]; cbn in Er; auto. right. right. subst r. rewrite Hacc, hget_out by lia. reflexivity.
  - exists h', c, nm. rewrite <- Er. split.
    { unfold unite. unfold dindex. rewrite (proj1 (points_get K h t1 axis t2 j D) P). cbn [bind].
      replace (negb (is_none (oaxis (hget h t1))) && negb (is_none (oaxis (hget h t2)))) with false
        by (destruct Ax as [-> | ->]; cbn; rewrite ?andb_false_r; auto).
      rewrite A1, A2. apply Nat.ltb_lt in Hi as Hi', Hj as Hj'. rewrite Hi', Hj'. cbn [andb negb].
      cbn [partial_product]. rewrite Ec. cbn [bind]. rewrite M1, M2, Enm. cbn [bind].
      change (match root with None => (length h, h ++ [new_tensor nm (Some c) None nz])
        | Some r => (r, modify h r (fun o => put_arr (Some c) (put_axis None o))) end)
        with (place h root (new_tensor nm (Some c) None nz) c None). rewrite Ep.
      unfold unite_tail in E'. destruct (unlink h1 t1 axis t2 j) as [h2|e]; cbn [bind] in E' |- *; [|discriminate].
      match goal with |- context [unlinkM h2 ?l] => destruct (unlinkM h2 l) as [h3|e] end; cbn [bind] in E' |- *; [|discriminate].
      inversion E'. reflexivity. }
    split; auto. split; auto. split; auto. split; auto.
    assert (Ll : length h' = length h1) by apply M'. split; [lia|]. split; [lia|].
    split; [|split].
    + intros x Hx. rewrite <- (Hoth x Hx). apply same_attrs. auto.
    + eapply attrs_trans; [exact Hat|]. apply same_attrs. auto.
    + intros x k y l. rewrite Q'. rewrite (links_points h h1 Hacc).
      assert (Ej : joined K h1 t1 axis t2 j = joined K h t1 axis t2 j) by (unfold joined, targets; now rewrite !Hacc).
      rewrite Ej. reflexivity.
Qed.

(** ** split *)
Section Split.
Variable csvd : arr K -> res (arr K * arr K * arr K).
Definition axes_of (ax : axis_arg) : list nat := match ax with AxInt i => [i] | AxList l => nsort l end.
Definition default_of (ax : axis_arg) : nat * nat := match ax with AxInt i => (0, i) | AxList _ => (0, 0) end.
Definition indice_of (ax : axis_arg) (indice : option (nat * nat)) : nat * nat :=
  match indice with Some p => p | None => default_of ax end.
Definition child_of h (root child : option id) : id :=
  match child with Some c => c | None => match root with None => S (length h) | Some _ => length h end end.

Lemma split_ok h n ax indice root child nz a nm :
  let l := axes_of ax in let l' := rest (ndim a) l in
  let i1 := fst (indice_of ax indice) in let i2 := snd (indice_of ax indice) in
  let r := root_of h root in let c := child_of h root child in
  dicts_ok h -> symmetric h -> oleaf (hget h n) = false -> oaxis (hget h n) = None ->
  (forall i t l, points h n i t l -> t <> n) -> numbered h n ->
  oarr (hget h n) = Some a -> wf a -> Forall (fun d => 0 < d) (shape a) -> ndim a = length (oacc (hget h n)) ->
  oname (hget h n) = Some nm -> count_ascii plus nm <= 1 ->
  Sorted lt l -> Forall (fun k => k < ndim a) l -> i1 <= length l -> i2 <= length l' ->
  (forall m, matricized a l m -> exists u s v k, csvd m = Ok (u, s, v) /\ triple m u s v k) ->
  n < length h ->
  (root = None \/ exists r, root = Some r /\ r < length h /\ (r = n \/ oacc (hget h r) = [])) ->
  (child = None \/ exists c, child = Some c /\ c < length h /\ (c = n \/ oacc (hget h c) = [])) ->
  r <> c ->
  exists h' m u s v k x y, split csvd h n ax indice root child nz = Ok (r, c, h') /\
    matricized a l m /\ csvd m = Ok (u, s, v) /\ triple m u s v k /\
    left_part a l i1 k u s x /\ right_part a l i2 k v y /\
    dicts_ok h' /\ symmetric h' /\ length h <= length h' /\ r < length h' /\ c < length h' /\
    (forall z, z <> r -> z <> c -> attrs (hget h z) (hget h' z)) /\
    attrs (placed h root (new_tensor (Some (name1_of nm)) (Some x) None nz) x None) (hget h' r) /\
    attrs (placed h child (new_tensor (Some (name2_of nm)) (Some y) (Some i2) nz) y (Some i2)) (hget h' c) /\
    forall z k y l0, points h' z k y l0 <->
      (points h z k y l0 /\ z <> n /\ y <> n) \/
      In (z, k, y, l0) (split_info (children h n None true) r i1 c i2 l l') \/
      In (y, l0, z, k) (split_info (children h n None true) r i1 c i2 l l').
Proof.
  intros l l' i1 i2 r c D Sy Lf Ax O N A W Pos Nd Nm Pl So Fl B1 B2 Sv Hn Rt Ct Hrc.
  pose proof (sorted_nodup _ So) as Dl.
  destruct (move_front_ok K a W l [] a So Fl) as (a1 & E1 & P1).
  { cbn [app]. replace (rest (ndim a) []) with (seq 0 (ndim a)); [apply permuted_refl; auto|].
    unfold rest. symmetry. apply filter_all_id. reflexivity. }
  cbn [app length] in E1, P1.
  destruct (permuted_matrix K a l a1 Fl P1) as (m & E2 & Mm).
  destruct (Sv m Mm) as (u & s & v & k & E3 & T).
  pose proof T as T0. destruct T as (p & q & Sm & Mu & Ms & Mv).
  destruct Mm as (Wm & Sm' & Gm). rewrite Sm in Sm'. injection Sm' as -> ->.
  destruct (left_part_ok K a l i1 u s k Dl Fl Pos B1 Mu Ms) as (us & x0 & x & E4 & E5 & E6 & Lx).
  destruct (right_part_ok K a l i2 v k Dl Fl Pos B2 Mv) as (y0 & y & E7 & E8 & Ry).
  set (o1 := new_tensor (Some (name1_of nm)) (Some x) None nz).
  set (o2 := new_tensor (Some (name2_of nm)) (Some y) (Some i2) nz).
  assert (Pr := place_ok h root o1 x None eq_refl).
  assert (Hr : forall r, root = Some r -> r < length h).
  { intros r0 E. destruct Rt as [Rt|(r1 & Rt & X & _)]; rewrite Rt in E; inversion E; subst; auto. }
  specialize (Pr Hr). destruct (place h root o1 x None) as [r1 h1] eqn:Ep1.
  assert (Er : r1 = r) by (unfold r; destruct root; cbn in Ep1; inversion Ep1; auto). subst r1.
  destruct Pr as (Hrl & Hll & Hacc & Hoth & Hat).
  assert (Pc := place_ok h1 child o2 y (Some i2) eq_refl).
  assert (Hc : forall c, child = Some c -> c < length h1).
  { intros c0 E. destruct Ct as [Ct|(c1 & Ct & X & _)]; [congruence|]. rewrite Ct in E. inversion E; subst. lia. }
  specialize (Pc Hc). destruct (place h1 child o2 y (Some i2)) as [c1 h2] eqn:Ep2.
  assert (Ec : c1 = c).
  { unfold c, child_of. destruct child; cbn in Ep2; inversion Ep2; auto. destruct root; cbn in Ep1; inversion Ep1.
    - now rewrite length_modify.
    - rewrite app_length. cbn. lia. }
  subst c1. destruct Pc as (Hcl & Hll2 & Hacc2 & Hoth2 & Hat2).
  assert (HA : forall z, oacc (hget h2 z) = oacc (hget h z)) by (intros z; now rewrite Hacc2, Hacc).
  assert (Lf2 : oleaf (hget h2 n) = false).
  { destruct (Nat.eq_dec n c) as [Ec|Nc].
    - rewrite Ec. apply attrs_fields in Hat2. destruct Hat2 as (_ & -> & _). destruct child as [c'|]; cbn; auto.
      cbn in Ec. rewrite <- Ec. destruct (Nat.eq_dec n r) as [En|Nr]; [exfalso; apply Hrc; rewrite <- En; exact Ec|]. rewrite Hoth; auto.
    - rewrite Hoth2 by auto. destruct (Nat.eq_dec n r) as [En|Nr]; [|rewrite Hoth; auto].
      rewrite En. apply attrs_fields in Hat. destruct Hat as (_ & -> & _). destruct root as [r'|]; cbn; auto.
      unfold r in En. cbn in En. now rewrite <- En. }
  assert (Kids : children h2 n None true = children h n None true).
  { rewrite !children_all by auto. now rewrite HA. }
  destruct (split_tail_ok K h2 n r i1 c i2 l l') as (h' & E' & D' & S' & M' & Q').
  - eapply links_dicts; eauto.
  - eapply links_symmetric; eauto.
  - auto.
  - intros i t l0 H. apply (links_points h h2 HA) in H. eauto.
  - intros i t l0 H. apply (links_points h h2 HA) in H. apply (numbered_points K h n i t l0 N) in H.
    assert (Hi : i < ndim a). { rewrite Nd, <- (targets_length K h n). apply nth_error_Some. congruence. }
    destruct (in_dec Nat.eq_dec i l); [auto|]. right. apply in_rest. auto.
  - auto.
  - auto.
  - auto.
  - lia.
  - lia.
  - destruct Rt as [Rt|(r' & Rt & X & Y)].
    + right. unfold r. rewrite HA, Rt. cbn. rewrite hget_out by lia. reflexivity.
    + unfold r. rewrite Rt. cbn [root_of]. rewrite HA. auto.
  - destruct Ct as [Ct|(c' & Ct & X & Y)].
    + right. rewrite HA. assert (Hge : length h <= c) by (unfold c; rewrite Ct; cbn; destruct root; lia).
      rewrite hget_out by lia. reflexivity.
    + unfold c. rewrite Ct. cbn [child_of]. rewrite HA. auto.
  - exists h', m, u, s, v, k, x, y. split.
    { unfold split. rewrite Ax. cbn [is_none negb].
      assert (Eord : order h n = ndim a) by (unfold order; rewrite Lf; auto).
      rewrite Eord. fold (rest (ndim a) (axes_of ax)). change (axes_of ax) with l.
      change (match ax with AxInt i => [i] | AxList l0 => nsort l0 end) with l.
      change (match ax with AxInt i => (0, i) | AxList _ => (0, 0) end) with (default_of ax).
      change (match indice with Some p => p | None => default_of ax end) with (indice_of ax indice).
      destruct (indice_of ax indice) as [j1 j2] eqn:Ei. cbn [fst snd] in i1, i2.
      rewrite A. cbn zeta.
      change (filter (fun i : nat => negb (memb i l)) (seq 0 (ndim a))) with l'.
      replace (forallb (fun i => i <? ndim a) (l ++ l')) with true.
      2:{ symmetry. apply forallb_forall. intros z Hz. apply Nat.ltb_lt. apply in_app_iff in Hz. destruct Hz as [Hz|Hz].
          - rewrite Forall_forall in Fl. auto.
          - apply in_rest in Hz. tauto. }
      cbn [negb]. rewrite Nm. apply Nat.leb_le in Pl as Pl'. rewrite Pl'. cbn [negb].
      change (map (fun i => nth i (shape a) 0) l) with (gather (shape a) l).
      change (map (fun i => nth i (shape a) 0) l') with (gather (shape a) l').
      rewrite E1. cbn [bind prod]. rewrite !Nat.mul_1_l. fold l' in E2. cbn [Nat.mul]. rewrite ?Nat.add_0_r. rewrite E2. cbn [bind].
      rewrite E3. cbn [bind]. rewrite E4. cbn [bind]. rewrite E5. cbn [bind]. change j1 with i1. change j2 with i2.
      rewrite E6. cbn [bind]. fold l' in E7. rewrite E7. cbn [bind]. rewrite E8. cbn [bind].
      change (match root with None => (length h, h ++ [new_tensor (Some (name1_of nm)) (Some x) None nz])
        | Some r => (r, modify h r (fun o => put_arr (Some x) (put_axis None o))) end) with (place h root o1 x None).
      rewrite Ep1.
      change (match child with None => (length h1, h1 ++ [new_tensor (Some (name2_of nm)) (Some y) (Some i2) nz])
        | Some c => (c, modify h1 c (fun o => put_arr (Some y) (put_axis (Some i2) o))) end) with (place h1 child o2 y (Some i2)).
      rewrite Ep2. rewrite Kids in E'. unfold split_tail in E'.
      match goal with |- context [unlinkM h2 ?l] => destruct (unlinkM h2 l) as [h3|e] end; cbn [bind] in E' |- *; [|discriminate].
      inversion E'. reflexivity. }
    split; [split; [auto|split; auto]|]. split; auto. split; auto. split; auto. split; auto. split; auto. split; auto.
    assert (Ll : length h' = length h2) by apply M'. split; [lia|]. split; [lia|]. split; [lia|].
    split; [|split; [|split]].
    + intros z Hz1 Hz2. rewrite <- (Hoth z Hz1), <- (Hoth2 z Hz2). apply same_attrs. auto.
    + eapply attrs_trans; [exact Hat|]. rewrite <- (Hoth2 r Hrc). apply same_attrs. auto.
    + eapply attrs_trans; [|apply same_attrs; exact M'].
      destruct child as [c'|]; cbn [placed] in Hat2 |- *; auto.
      rewrite (Hoth c') in Hat2 by (intros E; apply Hrc; symmetry; exact E). auto.
    + intros z k0 y1 l0. rewrite Q', Kids. rewrite (links_points h h2 HA). reflexivity.
Qed.
End Split.
End Move.
