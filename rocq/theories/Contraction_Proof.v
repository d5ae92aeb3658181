(** Contracting a network into one tensor. *)
From Coq Require Import String List Arith Bool Lia Permutation Sorting.Sorted.
From Verif Require Import Py Alg ListX NdArray_Model NdArray_Proof Contract_Model Contract_Spec Contract_Proof
  Net_Model Net_Spec Sweep_Spec Sweep_Proof Trav_Proof Acyc_Proof Env_Proof EnvThm_Proof Link_Spec Link_Proof Move_Spec Split_Proof Relink_Proof Move_Proof
  MoveRoot_Proof Pair_Proof State_Spec State_Proof.
Import ListNotations.
Local Open Scope nat_scope.
Local Open Scope list_scope.

(** Kids with axes numbered from [o]. *)
Fixpoint renum (o : nat) (ks : list kid) : list kid :=
  match ks with [] => [] | (_, t, j) :: ks => (o, t, j) :: renum (S o) ks end.

Lemma renum_length o ks : length (renum o ks) = length ks.
Proof. revert o; induction ks as [|((i, t), j) ks IH]; intros o; cbn; auto. Qed.
Lemma renum_axes o ks : map k_i (renum o ks) = seq o (length ks).
Proof. revert o; induction ks as [|((i, t), j) ks IH]; intros o; cbn [renum map length seq]; auto. f_equal. apply IH. Qed.
Lemma renum_map {X} (f : tree -> nat -> X) o ks : map (fun k => f (k_t k) (k_j k)) (renum o ks) = map (fun k => f (k_t k) (k_j k)) ks.
Proof. revert o; induction ks as [|((i, t), j) ks IH]; intros o; cbn [renum map]; auto. f_equal. apply IH. Qed.
Lemma renum_flat {X} (f : tree -> list X) o ks : flat_map (fun k => f (k_t k)) (renum o ks) = flat_map (fun k => f (k_t k)) ks.
Proof. revert o; induction ks as [|((i, t), j) ks IH]; intros o; cbn [renum flat_map]; auto. f_equal. apply IH. Qed.
Lemma renum_app o k1 k2 : renum o (k1 ++ k2) = renum o k1 ++ renum (o + length k1) k2.
Proof.
  revert o; induction k1 as [|((i, t), j) k1 IH]; intros o; cbn [renum app length]; [f_equal; lia|].
  f_equal. rewrite IH. f_equal. f_equal. lia.
Qed.
Lemma renum_id o ks : map k_i ks = seq o (length ks) -> renum o ks = ks.
Proof.
  revert o; induction ks as [|((i, t), j) ks IH]; intros o H; cbn [renum]; auto. cbn [map length seq] in H.
  injection H as E H. unfold k_i in E. cbn in E. subst. f_equal. auto.
Qed.
Lemma renum_renum o o' ks : renum o (renum o' ks) = renum o ks.
Proof. revert o o'; induction ks as [|((i, t), j) ks IH]; intros o o'; cbn [renum]; auto. f_equal. apply IH. Qed.
Lemma renum_half o ks : map kid_half (renum o ks) = combine (seq o (length ks)) (map (fun k => (top (k_t k), k_j k)) ks).
Proof. revert o; induction ks as [|((i, t), j) ks IH]; intros o; cbn [renum map length seq combine]; auto. f_equal. apply IH. Qed.
Lemma renum_in o ks k : In k (renum o ks) -> exists p k0, nth_error ks p = Some k0 /\ k = (o + p, k_t k0, k_j k0).
Proof.
  revert o; induction ks as [|((i, t), j) ks IH]; intros o H; [destruct H|]. cbn [renum] in H. destruct H as [<-|H].
  - exists 0, (i, t, j). rewrite Nat.add_0_r. auto.
  - destruct (IH _ H) as (p & k0 & E & ->). exists (S p), k0. split; auto. f_equal. f_equal. lia.
Qed.

Lemma Forall2_renum {Y} (R : tree -> nat -> Y -> Prop) o ks ms :
  Forall2 (fun k m => R (k_t k) (k_j k) m) ks ms -> Forall2 (fun k m => R (k_t k) (k_j k) m) (renum o ks) ms.
Proof.
  intros H. revert o. induction H as [|((i, t), j) m ks ms Hk H IH]; intros o; cbn [renum]; constructor; auto.
Qed.

Section Contraction.
Variable K : StarRing.
Add Ring Kr : (r_theory K).
Implicit Types h : heap K.
Implicit Types A : id -> arr K.

Lemma zprod_app (f1 : list (nat -> K)) f2 x1 x2 : length f1 = length x1 -> zprod (f1 ++ f2) (x1 ++ x2) = rmul (zprod f1 x1) (zprod f2 x2).
Proof.
  revert x1; induction f1 as [|f f1 IH]; intros [|v x1] H; try discriminate; cbn [app zprod]; [ring|].
  rewrite IH by (cbn in H; lia). ring.
Qed.

(** The parent of a subtree is replaced. *)
Lemma repoint h h' b p p' s : hangs h (Some (b, p)) s -> NoDup (ids s) ->
  (forall x, In x (ids s) -> oleaf (hget h' x) = oleaf (hget h x)) ->
  (forall x, In x (ids s) -> x <> top s -> oacc (hget h' x) = oacc (hget h x)) ->
  oacc (hget h' (top s)) = map (fun e => if fst e =? b then (b, p') else e) (oacc (hget h (top s))) ->
  hangs h' (Some (b, p')) s.
Proof.
  intros H ND L O T. inversion H as [n ? ? Ln An| |n ? ? ks ks' Ln An Dn F]; subst.
  - cbn in T. rewrite An in T. cbn in T. rewrite Nat.eqb_refl in T. constructor; auto. rewrite L; auto. left. auto.
  - cbn [top] in T, O. cbn [ids] in ND, L, O. rewrite An in T.
    assert (Ki : forall k, In k (ks ++ ks') -> k_i k <> b).
    { intros k Hk E. rewrite An, map_app in Dn. cbn [map fst] in Dn. apply NoDup_remove_2 in Dn. apply Dn.
      rewrite !map_map. cbn [fst]. rewrite <- map_app. apply in_map_iff. exists k. auto. }
    rewrite map_app in T. cbn [map fst] in T. rewrite Nat.eqb_refl in T. rewrite !map_map in T. cbn [fst] in T.
    assert (Idk : forall l, incl l (ks ++ ks') -> map (fun x => if k_i x =? b then (b, p') else (k_i x, (top (k_t x), k_j x))) l
       = map (fun k => (k_i k, (top (k_t k), k_j k))) l).
    { intros l Hl. apply map_ext_in. intros k Hk. destruct (Nat.eqb_spec (k_i k) b) as [E|]; auto. destruct (Ki k (Hl k Hk) E). }
    rewrite !Idk in T by (intros k Hk; apply in_app_iff; auto).
    apply hangs_node; auto.
    + rewrite L; auto. left. auto.
    + rewrite T. rewrite An in Dn. rewrite !map_app in *. cbn [map fst] in *. exact Dn.
    + rewrite Forall_forall in F |- *. intros k Hk. apply (hangs_on K h); auto. intros x Hx.
      assert (Hin : In x (flat_map (fun k => ids (k_t k)) (ks ++ ks'))) by (apply in_flat_map; eauto).
      split; [apply L; right; auto|]. apply O; [right; auto|].
      intros ->. apply (proj1 (proj1 (NoDup_cons_iff _ _) ND)). auto.
Qed.

Definition upd A (n : id) (a : arr K) : id -> arr K := fun x => if x =? n then a else A x.

Lemma amp_unite A s n k1 k2 i e c1 c2 j c :
  length k1 = i -> i < ndim (A n) -> j < ndim (A e) -> nth i (shape (A n)) 0 = nth j (shape (A e)) 0 ->
  length (k1 ++ k2) = ndim (A n) - 1 -> length (c1 ++ c2) = ndim (A e) - 1 ->
  contracts (A n) i (A e) j c ->
  (forall m, In m (flat_map (fun k => nids (k_t k)) (k1 ++ (c1 ++ c2) ++ k2)) -> m <> n) ->
  amp (upd A n c) s None (Nd n (renum 0 (k1 ++ (c1 ++ c2) ++ k2))) 0
  = amp A s None (Nd n (k1 ++ (i, Nd e (c1 ++ c2), j) :: k2)) 0.
Proof.
  intros L Hi Hj Hd Lk Lc (Wc & Sc & Gc) Away. rewrite amp_pair by auto. cbn [amp others full].
  assert (En : upd A n c n = c) by (unfold upd; now rewrite Nat.eqb_refl). rewrite En.
  rewrite (renum_map (fun t j => amp (upd A n c) s (Some j) t)).
  assert (Zk : forall x, zprod (map (fun k => amp (upd A n c) s (Some (k_j k)) (k_t k)) (k1 ++ (c1 ++ c2) ++ k2)) x
    = zprod (map (kidf K A s) (k1 ++ (c1 ++ c2) ++ k2)) x).
  { intros x. apply zprod_ext. clear - Away. induction (k1 ++ (c1 ++ c2) ++ k2) as [|k ks IH]; constructor.
    - intros v. apply amp_agree. intros m Hm. unfold upd. destruct (Nat.eqb_spec m n) as [->|]; auto.
      exfalso. apply (Away n); auto. cbn [flat_map]. apply in_app_iff. auto.
    - apply IH. intros m Hm. apply Away. cbn [flat_map]. apply in_app_iff. auto. }
  rewrite Sc. rewrite !sum_indices_app. unfold del at 2. rewrite sum_indices_app.
  apply sumL_ext_in. intros x1 H1. apply in_indices in H1. rewrite sum_indices_app.
  assert (L1 : length x1 = i) by (rewrite (in_range_len _ _ H1), firstn_length; unfold ndim in *; lia).
  rewrite sumL_swap. apply sumL_ext_in. intros x2 H2. apply in_indices in H2.
  apply sumL_ext_in. intros y Hy. apply in_indices in Hy.
  assert (Ly : length y = length (c1 ++ c2)) by (rewrite (in_range_len _ _ Hy), length_del by auto; unfold ndim in *; lia).
  rewrite Gc, Zk by auto. rewrite !map_app. rewrite <- (map_app (kidf K A s) c1 c2). rewrite !zprod_app by (rewrite !map_length; lia).
  unfold pair_val. match goal with |- rmul ?a ?b = rmul ?c ?d => assert (E : d = a) end.
  { apply sumn_ext. intros d _. rewrite <- L1 at 1. rewrite ins_at. reflexivity. }
  rewrite E. ring.
Qed.

Lemma flat_in (ks : list kid) k x : In k ks -> In x (ids (k_t k)) -> In x (flat_map (fun k => ids (k_t k)) ks).
Proof. intros. apply in_flat_map. eauto. Qed.
Lemma top_ids t : In (top t) (ids t).
Proof. destruct t; left; auto. Qed.

(** Positions of distinct subtrees. *)
Lemma flat_pos (ks : list kid) p q k l x : NoDup (flat_map (fun k => ids (k_t k)) ks) ->
  nth_error ks p = Some k -> nth_error ks q = Some l -> In x (ids (k_t k)) -> In x (ids (k_t l)) -> p = q.
Proof.
  revert p q; induction ks as [|a ks IH]; intros p q ND Hp Hq Hk Hl; [destruct p; discriminate|].
  cbn [flat_map] in ND. destruct p as [|p], q as [|q]; cbn in Hp, Hq; auto.
  - injection Hp as ->. apply nth_error_In in Hq. exfalso. eapply NoDup_app_disjoint; eauto. eapply flat_in; eauto.
  - injection Hq as ->. apply nth_error_In in Hp. exfalso. eapply NoDup_app_disjoint; eauto. eapply flat_in; eauto.
  - f_equal. eapply IH; eauto. eapply NoDup_app_r; eauto.
Qed.

Lemma NoDup_flat_kid (ks : list kid) k : NoDup (flat_map (fun k => ids (k_t k)) ks) -> In k ks -> NoDup (ids (k_t k)).
Proof.
  induction ks as [|a ks IH]; intros ND Hk; [destruct Hk|]. cbn [flat_map] in ND. destruct Hk as [->|Hk].
  - clear - ND. induction (ids (k_t k)) as [|x l IH]; constructor; inversion ND; subst; auto. intros Hx. apply H1. apply in_app_iff; auto.
  - apply IH; auto. eapply NoDup_app_r; eauto.
Qed.

Lemma Forall2_fits_agree A A' ks ms : (forall m, In m (flat_map (fun k => nids (k_t k)) ks) -> A' m = A m) ->
  Forall2 (fun k m => fits A (Some (k_j k)) m (k_t k)) ks ms -> Forall2 (fun k m => fits A' (Some (k_j k)) m (k_t k)) ks ms.
Proof.
  intros E F. induction F as [|k m ks ms Hk F IH]; constructor.
  - eapply fits_agree; [|exact Hk]. intros x Hx. apply E. cbn [flat_map]. apply in_app_iff. auto.
  - apply IH. intros x Hx. apply E. cbn [flat_map]. apply in_app_iff. auto.
Qed.

Lemma gdims_app A k1 k2 m1 m2 : length k1 = length m1 -> gdims K A (k1 ++ k2) (m1 ++ m2) = gdims K A k1 m1 ++ gdims K A k2 m2.
Proof.
  revert m1; induction k1 as [|k k1 IH]; intros [|m m1] H; try discriminate; auto. cbn [app gdims].
  rewrite IH by (cbn in H; lia). apply app_assoc.
Qed.
Lemma gdims_renum A o ks ms : gdims K A (renum o ks) ms = gdims K A ks ms.
Proof.
  revert o ms; induction ks as [|((i, t), j) ks IH]; intros o ms; auto. cbn [renum]. destruct ms as [|m ms]; auto.
  cbn [gdims]. rewrite IH. reflexivity.
Qed.
Lemma gdims_agree A A' ks : Forall (fun k => forall ax d, (forall n, In n (nids (k_t k)) -> A' n = A n) -> ldims A' ax d (k_t k) = ldims A ax d (k_t k)) ks ->
  forall ms, (forall m, In m (flat_map (fun k => nids (k_t k)) ks) -> A' m = A m) -> gdims K A' ks ms = gdims K A ks ms.
Proof.
  induction 1 as [|k ks Hk _ IH]; intros ms E; auto. destruct ms as [|m ms]; auto. cbn [gdims]. f_equal.
  - apply Hk. intros x Hx. apply E. cbn [flat_map]. apply in_app_iff. auto.
  - apply IH. intros x Hx. apply E. cbn [flat_map]. apply in_app_iff. auto.
Qed.
Lemma ldims_agree A A' : forall t ax d, (forall n, In n (nids t) -> A' n = A n) -> ldims A' ax d t = ldims A ax d t.
Proof.
  induction t as [n|n ks IH] using tree_ind'; intros ax d E; auto. rewrite !ldims_node. rewrite (E n) by (left; auto).
  apply gdims_agree; auto. intros m Hm. apply E. right. auto.
Qed.

Lemma unite_step h A n k1 k2 i e cks j : let t := Nd n (k1 ++ (i, Nd e cks, j) :: k2) in
  shaped h t A -> oaxis (hget h n) = None ->
  exists h' c, let t' := Nd n (renum 0 (k1 ++ cks ++ k2)) in let A' := upd A n c in
    unite h n i (Some n) false = Ok (n, h') /\ contracts (A n) i (A e) j c /\
    shaped h' t' A' /\ oaxis (hget h' n) = None /\ oacc (hget h' e) = [] /\
    (forall x, x <> n -> attrs (hget h x) (hget h' x)) /\
    (forall x, x <> n -> oacc (hget h x) = [] -> oacc (hget h' x) = []) /\
    (forall s, amp A' s None t' 0 = amp A s None t 0) /\
    ldims A' None 0 t' = ldims A None 0 t.
Proof.
  intros t Sh Ax. pose proof Sh as (D & Sy & NS & H & F & At).
  destruct (shaped_joint K h A n k1 k2 i e cks j Sh) as (nn & ne & c1 & c2 & -> & J & Li & Lj & Hi & Hj & H' & Ke & Kn & Fn & Fe).
  pose proof J as (_ & _ & Sn & Se & Hne & P & Only & Sfn & Sfe & Hd).
  destruct Sn as (Ln & Lfn & Nun & An & Wn & Pn & Dn & Nmn). destruct Se as (Le & Lfe & Nue & Ae & We & Pe & De & Nme).
  assert (Pj : points h e j n i) by (apply Sy; auto).
  destruct (unite_ok K h n i e j (Some n) false (A n) (A e) nn ne) as
    (h' & c & nm & E & C & _ & D' & S' & Hl & _ & Oth & Aw & Q); auto.
  { intros i0 c0 l0 Hp [->| ->]; [destruct (Sfn _ _ Hp)|]. eapply Only; eauto. }
  { intros i0 c0 l0 Hp [->| ->]; [|destruct (Sfe _ _ Hp)]. assert (Hp' : points h n l0 e i0) by (apply Sy; exact Hp).
    pose proof (Only _ _ Hp'). subst l0. unfold points in P, Hp'. pose proof (dok_nodup _ (dicts_dok K h n D)) as Dk.
    apply (points_get K h n i e j D) in P. apply (points_get K h n i e i0 D) in Hp'. congruence. }
  cbn [root_of] in *.
  set (KS := k1 ++ (c1 ++ c2) ++ k2).
  inversion H as [|? ? _ AA DA FA|]; subst. inversion H' as [|? ? _ AA' DA' FA'|]; subst.
  set (i := length k1) in *. set (j := length c1) in *.
  assert (ND : NoDup (n :: flat_map (fun k => ids (k_t k)) (k1 ++ (i, Nd e (c1 ++ c2), j) :: k2))) by apply (hangs_nodup K h _ NS H).
  assert (NDK : NoDup (n :: e :: flat_map (fun k => ids (k_t k)) KS)).
  { eapply Permutation_NoDup; [|exact ND]. constructor. unfold KS. rewrite !flat_map_app. cbn [flat_map].
    change (ids (k_t (i, Nd e (c1 ++ c2), j))) with (e :: flat_map (fun k => ids (k_t k)) (c1 ++ c2)).
    rewrite flat_map_app. cbn [app]. symmetry. apply Permutation_middle. }
  assert (NK : NoDup (flat_map (fun k => ids (k_t k)) KS)) by (inversion NDK as [|? ? _ X]; inversion X; auto).
  assert (Nin : forall k x, In k KS -> In x (ids (k_t k)) -> x <> n /\ x <> e).
  { intros k x Hk Hx. pose proof (flat_in KS k x Hk Hx) as Y. split; intros ->.
    - apply (proj1 (proj1 (NoDup_cons_iff _ _) NDK)). right. auto.
    - pose proof (proj2 (proj1 (NoDup_cons_iff _ _) NDK)) as Z. apply (proj1 (proj1 (NoDup_cons_iff _ _) Z)). auto. }
  set (L := map (fun k => (top (k_t k), k_j k)) KS).
  assert (EL : joined K h n i e j = L).
  { unfold joined, targets. rewrite AA, AA', !map_map. cbn [snd]. rewrite !map_app. cbn [map]. unfold L, KS, i, j.
    rewrite <- (map_length (fun k => (top (k_t k), k_j k)) k1), <- (map_length (fun k => (top (k_t k), k_j k)) c1).
    rewrite !del_at. rewrite firstn_app, Nat.sub_diag, firstn_O, app_nil_r, firstn_all.
    rewrite skipn_app, skipn_all, Nat.sub_diag. cbn [app skipn]. rewrite !map_app. reflexivity. }
  rewrite EL in Q.
  assert (KidIn : forall x k l, nth_error L l = Some (x, k) <-> exists kd, nth_error KS l = Some kd /\ top (k_t kd) = x /\ k_j kd = k).
  { intros x k l. unfold L. rewrite nth_error_map. destruct (nth_error KS l) as [kd|]; cbn [option_map].
    - split; [intros X; injection X as <- <-; eauto|]. intros (kd' & X & <- & <-). injection X as ->. auto.
    - split; [discriminate|]. intros (kd' & X & _). discriminate. }
  (* links of the old parents *)
  assert (Up : forall x k y l, y = n \/ y = e -> x <> n -> x <> e -> points h x k y l -> exists kd, In kd KS /\ top (k_t kd) = x /\ k_j kd = k).
  { intros x k y l Hy Xn Xe Hp. apply Sy in Hp. unfold points in Hp. destruct Hy as [->| ->].
    - rewrite AA in Hp. apply in_map_iff in Hp. destruct Hp as (kd & X & Hk). injection X as _ X1 X2. exists kd. split; auto.
      apply in_app_iff in Hk. unfold KS. rewrite !in_app_iff. destruct Hk as [Hk|[<-|Hk]]; auto. cbn in X1. congruence.
    - rewrite AA' in Hp. apply in_map_iff in Hp. destruct Hp as (kd & X & Hk). injection X as _ X1 X2. exists kd. split; auto.
      apply in_app_iff in Hk. unfold KS. rewrite !in_app_iff. destruct Hk as [Hk|[<-|Hk]]; auto. cbn in X1. congruence. }
  assert (Hang : forall kd, In kd KS -> exists q, hangs h (Some (k_j kd, q)) (k_t kd)).
  { intros kd Hk. rewrite Forall_forall in FA, FA'. unfold KS in Hk. rewrite !in_app_iff in Hk.
    destruct Hk as [Hk|[[Hk|Hk]|Hk]]; eexists; [apply FA|apply FA'|apply FA'|apply FA]; apply in_app_iff; cbn; auto. }
  (* inner objects of the subtrees keep their links *)
  assert (Inn : forall kd x, In kd KS -> In x (ids (k_t kd)) -> x <> top (k_t kd) -> oacc (hget h' x) = oacc (hget h x)).
  { intros kd x Hk Hx Ht. destruct (Nin kd x Hk Hx) as (Xn & Xe). apply dok_ext; try (apply dicts_dok; auto).
    assert (NoTop : forall kd', In kd' KS -> top (k_t kd') <> x).
    { intros kd' Hk' <-. apply In_nth_error in Hk. destruct Hk as (p & Hp). apply In_nth_error in Hk'. destruct Hk' as (q & Hq).
      pose proof (flat_pos KS p q kd kd' _ NK Hp Hq Hx (top_ids _)). subst q. rewrite Hp in Hq. injection Hq as <-. auto. }
    intros k (y, l). change (points h' x k y l <-> points h x k y l). rewrite Q. split.
    - intros [(X & _)|[(-> & _)|(-> & X)]]; auto; [tauto|]. apply KidIn in X. destruct X as (kd' & X1 & X2 & _).
      apply nth_error_In in X1. destruct (NoTop kd' X1 X2).
    - intros Hp. left. split; auto. split; auto. split; auto.
      split; intros ->; [destruct (Up x k n l) as (kd' & X1 & X2 & _)|destruct (Up x k e l) as (kd' & X1 & X2 & _)]; auto; destruct (NoTop kd' X1 X2). }
  assert (Tops : forall p kd, nth_error KS p = Some kd -> oacc (hget h' (top (k_t kd)))
     = map (fun e => if fst e =? k_j kd then (k_j kd, (n, p)) else e) (oacc (hget h (top (k_t kd))))).
  { intros p kd Hp. pose proof (nth_error_In _ _ Hp) as Hk. destruct (Nin kd _ Hk (top_ids _)) as (Xn & Xe).
    set (x := top (k_t kd)) in *. set (b := k_j kd) in *.
    assert (Only1 : forall q kd', nth_error KS q = Some kd' -> top (k_t kd') = x -> q = p /\ kd' = kd).
    { intros q kd' Hq Ht. assert (q = p).
      { symmetry. eapply (flat_pos KS p q kd kd' x); eauto; [apply top_ids|rewrite <- Ht; apply top_ids]. }
      subst q. split; auto. congruence. }
    assert (Hb : exists q, In (b, q) (oacc (hget h x))).
    { destruct (Hang kd Hk) as (q & Hq). exists q. unfold x, b. inversion Hq as [? ? ? _ X E1 E2| |? ? ? ? ? _ X _ _ E1 E2]; subst.
      - cbn [top]. rewrite X. left. auto.
      - cbn [top]. rewrite X. apply in_app_iff. right. left. auto. }
    apply dok_ext.
    - apply dicts_dok; auto.
    - unfold dok. rewrite map_map. rewrite map_ext with (g := fst); [apply (D x)|]. intros (a0, q0). cbn. destruct (Nat.eqb_spec a0 b); auto.
    - intros k (y, l). rewrite in_map_iff. change (In (k, (y, l)) (oacc (hget h' x))) with (points h' x k y l). rewrite Q. split.
      + intros [(X & _ & _ & Y1 & Y2)|[(-> & _)|(-> & X)]]; [|tauto|].
        * exists (k, (y, l)). split; auto. cbn [fst]. destruct (Nat.eqb_spec k b) as [->|]; auto. exfalso.
          destruct (Hang kd Hk) as (q & Hq). unfold points in X. fold b in Hq.
          assert (Eq : q = (y, l)).
          { pose proof (dok_nodup _ (dicts_dok K h x D)) as Dk. destruct Hb as (q' & Hq').
            assert (In (b, q) (oacc (hget h x))).
            { unfold x. inversion Hq as [? ? ? _ Z E1 E2| |? ? ? ? ? _ Z _ _ E1 E2]; subst; cbn [top]; rewrite Z; [left|apply in_app_iff; right; left]; auto. }
            eapply key_unique; eauto. }
          subst q. rewrite Forall_forall in FA, FA'. unfold KS in Hk. rewrite !in_app_iff in Hk.
          assert (Hq2 : exists a0, hangs h (Some (b, (n, a0))) (k_t kd) \/ hangs h (Some (b, (e, a0))) (k_t kd)).
          { exists (k_i kd). destruct Hk as [Hk|[[Hk|Hk]|Hk]]; [left; apply FA|right; apply FA'|right; apply FA'|left; apply FA]; apply in_app_iff; cbn; auto. }
          destruct Hq2 as (a0 & [Hq2|Hq2]);
          (assert (Z : In (b, (y, l)) (oacc (hget h x)) /\ exists q, In (b, q) (oacc (hget h x)) /\ (fst q = n \/ fst q = e));
           [split; auto; inversion Hq2 as [? ? ? _ Z E1 E2| |? ? ? ? ? _ Z _ _ E1 E2]; subst; unfold x; rewrite <- ?E2; cbn [top]; rewrite Z;
             eexists; (split; [first [left; reflexivity|apply in_app_iff; right; left; reflexivity]|cbn; auto])|]);
          destruct Z as (Z1 & q & Z2 & Z3); pose proof (dok_nodup _ (dicts_dok K h x D)) as Dk;
          pose proof (key_unique _ _ _ _ Dk Z1 Z2) as Eq; rewrite <- Eq in Z3; cbn in Z3; tauto.
        * apply KidIn in X. destruct X as (kd' & X1 & X2 & X3). destruct (Only1 _ _ X1 X2) as (-> & ->). fold b in X3. subst k.
          destruct Hb as (q & Hb). exists (b, q). cbn [fst]. rewrite Nat.eqb_refl. auto.
      + intros ((k0, q0) & X & Hin). cbn [fst] in X. destruct (Nat.eqb_spec k0 b) as [->|Hk0].
        * injection X as <- <- <-. right. right. split; auto. apply KidIn. exists kd. auto.
        * injection X as -> ->. left. split; auto. split; auto. split; auto.
          split; intros ->; [destruct (Up x k n l) as (kd' & X1 & X2 & X3)|destruct (Up x k e l) as (kd' & X1 & X2 & X3)]; auto;
            apply In_nth_error in X1; destruct X1 as (q & X1); destruct (Only1 _ _ X1 X2) as (-> & ->); fold b in X3; congruence. }
  assert (Lfs : forall x, x <> n -> oleaf (hget h' x) = oleaf (hget h x)) by (intros x Hx; apply (attrs_fields K _ _ (Oth x Hx))).
  apply attrs_fields in Aw. cbn in Aw. destruct Aw as (W1 & W2 & W3 & W4 & W5 & _).
  destruct (unite_links K h h' n i e j n) as (Lw & Le' & _); auto.
  { intros i0 c0 l0 Hp [->| ->]; [destruct (Sfn _ _ Hp)|]. eapply Only; eauto. }
  { intros i0 c0 l0 Hp [->| ->]; [|destruct (Sfe _ _ Hp)]. assert (Hp' : points h n l0 e i0) by (apply Sy; exact Hp).
    pose proof (Only _ _ Hp'). subst l0.
    apply (points_get K h n i e j D) in P. apply (points_get K h n i e i0 D) in Hp'. congruence. }
  { rewrite EL. exact Q. }
  rewrite EL in Lw. cbn zeta in Lw. unfold L in Lw. rewrite map_length in Lw. rewrite <- renum_half in Lw.
  exists h', c. cbn zeta. fold KS. split; auto. split; auto.
  assert (Ec : upd A n c n = c) by (unfold upd; now rewrite Nat.eqb_refl).
  assert (Eo : forall m, m <> n -> upd A n c m = A m) by (intros m Hm; unfold upd; destruct (Nat.eqb_spec m n); tauto).
  pose proof C as (Wc & Sc & _).
  assert (Lk : length (k1 ++ k2) = ndim (A n) - 1).
  { rewrite (Forall2_len _ _ _ Fn). rewrite length_del by auto. reflexivity. }
  assert (Lc : length (c1 ++ c2) = ndim (A e) - 1).
  { rewrite (Forall2_len _ _ _ Fe). rewrite length_del by auto. reflexivity. }
  assert (FKS : Forall2 (fun k m => fits A (Some (k_j k)) m (k_t k)) KS (shape c)).
  { rewrite Sc. unfold del in Fn. apply Forall2_app_inv_l in Fn. destruct Fn as (m1 & m2 & F1 & F2 & Em).
    assert (L1 : length m1 = length (firstn i (shape (A n)))).
    { rewrite <- (Forall2_len _ _ _ F1), firstn_length. unfold i, ndim in *. lia. }
    assert (X : m1 = firstn i (shape (A n)) /\ m2 = skipn (S i) (shape (A n))).
    { clear - Em L1. revert L1 Em. generalize (firstn i (shape (A n))) as u. revert m2.
      induction m1 as [|x m1 IH]; intros m2 [|v u] L1 E; cbn in *; try lia; auto. injection E as -> E. destruct (IH m2 u) as (-> & ->); auto. }
    destruct X as (-> & ->). unfold KS. apply Forall2_app; auto. apply Forall2_app; auto. }
  assert (NKn : forall m, In m (flat_map (fun k => nids (k_t k)) KS) -> m <> n /\ m <> e).
  { intros m Hm. apply in_flat_map in Hm. destruct Hm as (k & Hk & Hm). apply (Nin k m Hk). apply nids_ids. auto. }
  split; [|split; [auto|split; [apply Le'; auto|split; [auto|split; [|split]]]]].
  - split; auto. split; auto. split; [|split; [|split]].
    + intros m k Hp. change (points h' m k m k) in Hp. apply Q in Hp. destruct Hp as [(X & _)|[(-> & X)|(-> & X)]]; [destruct (NS m k X)| |];
      apply KidIn in X; destruct X as (kd & X1 & X2 & _); apply nth_error_In in X1; destruct (Nin kd n X1) as (Y & _); try tauto; rewrite <- X2; apply top_ids.
    + apply hangs_root.
      * rewrite W2. auto.
      * exact Lw.
      * rewrite Lw. rewrite map_map. change (fun x => fst (kid_half x)) with k_i. rewrite renum_axes. apply seq_NoDup.
      * apply Forall_forall. intros k Hk. apply renum_in in Hk. destruct Hk as (p & k0 & Hp & ->).
        change (hangs h' (Some (k_j k0, (n, p))) (k_t k0)). pose proof (nth_error_In _ _ Hp) as Hk. destruct (Hang k0 Hk) as (q & Hq).
        eapply repoint; [exact Hq| | | |].
        -- eapply NoDup_flat_kid; eauto.
        -- intros x Hx. apply Lfs. eapply Nin; eauto.
        -- intros x Hx Ht. eapply Inn; eauto.
        -- apply Tops. auto.
    + apply fits_node; rewrite ?Ec; auto.
      * rewrite Sc. rewrite Forall_forall in *. intros d Hd'. rewrite !in_app_iff in Hd'. destruct Hd' as [Y|[Y|Y]].
        -- apply Pn. rewrite <- (firstn_skipn i (shape (A n))). apply in_app_iff; auto.
        -- apply Pe. unfold del in Y. apply in_app_iff in Y. destruct Y as [Y|Y].
           ++ rewrite <- (firstn_skipn j (shape (A e))). apply in_app_iff; auto.
           ++ rewrite <- (firstn_skipn (S j) (shape (A e))). apply in_app_iff; auto.
        -- apply Pn. rewrite <- (firstn_skipn (S i) (shape (A n))). apply in_app_iff; auto.
      * cbn [others]. rewrite renum_axes. f_equal. apply (Forall2_len _ _ _ FKS).
      * cbn [others]. apply (Forall2_renum (fun t j m => fits (upd A n c) (Some j) m t)).
        eapply Forall2_fits_agree; [|exact FKS]. intros m Hm. apply Eo. apply NKn. auto.
    + intros m Hm. cbn [nids] in Hm. rewrite (renum_flat nids) in Hm. destruct Hm as [<-|Hm].
      * rewrite Ec. split; auto. exists nn. congruence.
      * destruct (NKn m Hm) as (Y & _). rewrite Eo by auto. pose proof (attrs_fields K _ _ (Oth m Y)) as (Z1 & _ & Z3 & _). rewrite Z1, Z3.
        apply At. cbn [nids]. right. unfold KS in Hm. rewrite !flat_map_app in *. cbn [flat_map].
        change (nids (k_t (i, Nd e (c1 ++ c2), j))) with (e :: flat_map (fun k => nids (k_t k)) (c1 ++ c2)). rewrite flat_map_app. rewrite !in_app_iff in *. cbn [In]. rewrite in_app_iff. tauto.
  - intros x Hx Ex. destruct (oacc (hget h' x)) as [|(k, (y, l)) d] eqn:E0; auto. exfalso.
    assert (Hp : points h' x k y l) by (unfold points; rewrite E0; left; auto). apply Q in Hp.
    destruct Hp as [(X & _)|[(-> & _)|(-> & X)]]; [unfold points in X; rewrite Ex in X; destruct X|tauto|].
    apply KidIn in X. destruct X as (kd & X1 & X2 & _). apply nth_error_In in X1. destruct (Hang kd X1) as (q & Hq).
    destruct (k_t kd) as [z|z zs]; cbn [top] in X2; subst z; [inversion Hq as [? ? ? _ X| |]|inversion Hq as [| |? ? ? ks1 ? _ X]]; subst;
      rewrite Ex in X; [discriminate|destruct (map _ ks1); discriminate].
  - intros s. apply amp_unite; auto. intros m Hm. apply NKn. auto.
  - unfold t. rewrite !ldims_node. cbn [others]. rewrite Ec, gdims_renum.
    rewrite (gdims_agree A).
    2:{ apply Forall_forall. intros k _ ax d Hx. apply ldims_agree. auto. }
    2:{ intros m Hm. apply Eo. apply NKn. auto. }
    assert (Es : shape (A n) = firstn i (shape (A n)) ++ nth i (shape (A n)) 0 :: skipn (S i) (shape (A n))).
    { rewrite <- (ins_del i 0 (shape (A n))) at 1 by exact Hi. unfold ins, del.
      assert (Lfi : length (firstn i (shape (A n))) = i) by (rewrite firstn_length; unfold ndim in *; lia).
      rewrite firstn_app, Lfi, Nat.sub_diag, firstn_O, app_nil_r, firstn_all2 by lia.
      rewrite skipn_app, Lfi, Nat.sub_diag, skipn_all2 by lia. reflexivity. }
    rewrite Es at 1. rewrite Sc. unfold KS. rewrite !gdims_app.
    + cbn [gdims]. change (k_t (i, Nd e (c1 ++ c2), j)) with (Nd e (c1 ++ c2)). rewrite ldims_node. reflexivity.
    + rewrite firstn_length. unfold i, ndim in *. lia.
    + rewrite length_del by exact Hj. exact Lc.
    + rewrite firstn_length. unfold i, ndim in *. lia.
Qed.

Definition expand (k : kid) : list kid := match k_t k with Lf _ => [k] | Nd _ cs => cs end.

Lemma renum_inner P C R a b : renum 0 (renum a P ++ C ++ renum b R) = renum 0 (P ++ C ++ R).
Proof. rewrite !renum_app, !renum_renum, !renum_length. reflexivity. Qed.

Lemma pass h A n P R : shaped h (Nd n (renum 0 (P ++ R))) A -> oaxis (hget h n) = None ->
  exists h' A', let t' := Nd n (renum 0 (P ++ flat_map expand R)) in
    contract_children h n (map kid3 (filter (fun k => inner (k_t k)) R)) = Ok h' /\
    shaped h' t' A' /\ oaxis (hget h' n) = None /\
    (forall k, In k R -> inner (k_t k) = true -> oacc (hget h' (top (k_t k))) = []) /\
    (forall x, x <> n -> attrs (hget h x) (hget h' x)) /\
    (forall x, x <> n -> oacc (hget h x) = [] -> oacc (hget h' x) = []) /\
    (forall s, amp A' s None t' 0 = amp A s None (Nd n (renum 0 (P ++ R))) 0) /\
    ldims A' None 0 t' = ldims A None 0 (Nd n (renum 0 (P ++ R))).
Proof.
  revert h A P. induction R as [|k R IH]; intros h A P Sh Ax.
  - exists h, A. cbn zeta. split; auto. split; auto. split; auto. split; [intros k []|]. split; [intros; apply attrs_refl|]. auto.
  - destruct (k_t k) as [l|e cks] eqn:Ek.
    + assert (Xk : expand k = [k]) by (unfold expand; now rewrite Ek). cbn [filter flat_map]. rewrite Xk, Ek. cbn [inner app].
      change (k :: R) with ([k] ++ R) in Sh. rewrite app_assoc in Sh.
      destruct (IH h A (P ++ [k]) Sh Ax) as (h' & A' & X). cbn zeta in X. rewrite <- !app_assoc in X. cbn [app] in X.
      destruct X as (E & Sh' & Ax' & Em & At' & Ke & Am & Ld). exists h', A'. cbn zeta. split; auto. split; auto. split; auto. split; [|auto].
      intros k' [<-|Hk']; auto. rewrite Ek. discriminate.
    + cbn [filter flat_map]. rewrite Ek. cbn [inner map kid3]. unfold kid3 at 1. cbn [contract_children]. rewrite Ek. cbn [top].
      assert (Xk : expand k = cks) by (unfold expand; now rewrite Ek). rewrite Xk. set (j := k_j k). set (i := length P).
      assert (Er : renum 0 (P ++ k :: R) = renum 0 P ++ (i, Nd e cks, j) :: renum (S i) R).
      { rewrite renum_app. f_equal. destruct k as ((a, t), b). unfold j, i. cbn in Ek. unfold k_t in Ek. cbn in Ek. subst t. reflexivity. }
      rewrite Er in Sh.
      assert (Pt : points h n i e j).
      { clear Xk. destruct Sh as (_ & _ & _ & H & _). inversion H as [|? ? _ AA _ _|]; subst. unfold points. rewrite AA. apply in_map_iff.
        exists (i, Nd e cks, j). split; auto. apply in_app_iff. right. left. auto. }
      assert (Dx : dindex (oacc (hget h e)) j = Ok (n, i)).
      { destruct Sh as (D & Sy & _). apply Sy in Pt. apply (points_get K h e j n i D) in Pt. unfold dindex. now rewrite Pt. }
      rewrite Dx. cbn [bind snd].
      destruct (unite_step h A n (renum 0 P) (renum (S i) R) i e cks j Sh Ax) as (h1 & c & X). cbn zeta in X.
      destruct X as (E1 & C & Sh1 & Ax1 & Em1 & At1 & Ke1 & Am1 & Ld1). rewrite E1. cbn [bind snd].
      rewrite renum_inner in Sh1, Am1, Ld1. rewrite app_assoc in Sh1, Am1, Ld1.
      destruct (IH h1 (upd A n c) (P ++ cks) Sh1 Ax1) as (h' & A' & X). cbn zeta in X.
      destruct X as (E & Sh' & Ax' & Em & At' & Ke & Am & Ld). exists h', A'. cbn zeta. rewrite app_assoc.
      split; auto. split; auto. split; auto. split; [|split; [|split; [|split]]].
      * intros k' [<-|Hk'] Hi; auto. rewrite Ek. cbn [top]. apply Ke; auto.
        intros ->. pose proof Sh as (_ & _ & NS & H & _). pose proof (hangs_nodup K h _ NS H) as ND.
        apply (proj1 (proj1 (NoDup_cons_iff _ _) ND)). apply in_flat_map. exists (i, Nd n cks, j). split; [apply in_app_iff; right; left; auto|left; auto].
      * intros x Hx. eapply attrs_trans; eauto.
      * intros x Hx Ex. auto.
      * intros s. rewrite Am, Am1, Er. auto.
      * rewrite Ld, Ld1, Er. auto.
Qed.

Lemma expand_lids ks : flat_map (fun k => lids (k_t k)) (flat_map expand ks) = flat_map (fun k => lids (k_t k)) ks.
Proof.
  induction ks as [|k ks IH]; auto. cbn [flat_map]. rewrite flat_map_app, IH. f_equal. unfold expand.
  destruct (k_t k) as [l|e cs] eqn:E; cbn [flat_map lids]; auto. rewrite E. cbn [lids]. auto.
Qed.
Lemma expand_nids ks x : In x (flat_map (fun k => nids (k_t k)) ks) <->
  (exists k, In k ks /\ inner (k_t k) = true /\ x = top (k_t k)) \/ In x (flat_map (fun k => nids (k_t k)) (flat_map expand ks)).
Proof.
  induction ks as [|k ks IH]; cbn [flat_map].
  - split; [intros []|intros [(k & [] & _)|[]]].
  - rewrite flat_map_app, !in_app_iff, IH. unfold expand at 2. destruct (k_t k) as [l|e cs] eqn:E; cbn [nids flat_map app].
    + rewrite E. cbn [nids app]. split.
      * intros [[]|[(k' & H & X)|H]]; [left; exists k'; split; auto; right; auto|auto].
      * intros [(k' & [<-|H] & Y & X)|[[]|H]]; [rewrite E in Y; discriminate|right; left; eauto|auto].
    + cbn [In]. split.
      * intros [[<-|H]|[(k' & H & X)|H]]; [|auto| |auto].
        -- left. exists k. rewrite E. split; [left; auto|]. auto.
        -- left. exists k'. split; auto.
      * intros [(k' & [<-|H] & Y & X)|[H|H]]; [rewrite E in X; auto|right; left; eauto|auto|auto].
Qed.
Lemma expand_less ks : length (flat_map (fun k => nids (k_t k)) (flat_map expand ks)) + length (filter (fun k => inner (k_t k)) ks)
  = length (flat_map (fun k => nids (k_t k)) ks).
Proof.
  induction ks as [|k ks IH]; auto. cbn [flat_map filter]. rewrite flat_map_app, !app_length. unfold expand at 1.
  destruct (k_t k) as [l|e cs] eqn:E; cbn [nids inner length flat_map]; [rewrite E; cbn [nids length app]|]; lia.
Qed.

(** A tensor whose links all lead to leaves. *)
Lemma delta_at (s : id -> nat) ls : forall sh (g : list nat -> K), in_range (map s ls) sh ->
  sumL (indices sh) (fun x => rmul (g x) (zprod (map (fun l p => delta p (s l)) ls) x)) = g (map s ls).
Proof.
  induction ls as [|l ls IH]; intros sh g H; inversion H as [|v d vs ds Hv Hr]; subst.
  - cbn. ring.
  - rewrite sum_indices_cons. cbn [map zprod].
    transitivity (sumn d (fun i => rmul (delta i (s l)) (sumL (indices ds) (fun x => rmul (g (i :: x)) (zprod (map (fun l p => delta p (s l)) ls) x))))).
    + apply sumn_ext. intros i _. rewrite <- sumL_scal_l. apply sumL_ext. intros x. ring.
    + rewrite sumn_delta by auto. apply (IH ds (fun x => g (s l :: x))). auto.
Qed.
Lemma asg_all ls v : NoDup ls -> length v = length ls -> map (asg ls v) ls = v.
Proof.
  intros D. revert v. induction D as [|l ls Hl D IH]; intros [|x v] H; try discriminate; auto. cbn [map]. f_equal; [apply asg_cons_eq|].
  rewrite <- (IH v) at 2 by (cbn in H; lia). apply map_ext_in. intros y Hy. apply asg_cons_ne. intros ->. auto.
Qed.

Lemma contraction_ok fuel : forall h n ks A, let t := Nd n ks in
  shaped h t A -> oaxis (hget h n) = None -> length (nids t) <= fuel ->
  exists c h', contraction fuel h n = Ok (Some c, h') /\
    wf c /\ shape c = ldims A None 0 t /\
    (forall v, in_range v (shape c) -> get c v = amp A (asg (lids t) v) None t 0) /\
    oarr (hget h' n) = Some c /\ oaxis (hget h' n) = None /\ numbered h' n /\ map fst (targets h' n) = lids t /\
    (forall x, In x (nids t) -> x <> n -> oacc (hget h' x) = []) /\
    (forall x, x <> n -> attrs (hget h x) (hget h' x)) /\
    (forall x, x <> n -> oacc (hget h x) = [] -> oacc (hget h' x) = []).
Proof.
  induction fuel as [|fuel IH]; intros h n ks A t Sh Ax Hf; [cbn in Hf; lia|].
  pose proof Sh as (D & Sy & NS & H & F & At). inversion F as [|? ? ? ? W Pos _ Ik Fk]; subst. cbn [others] in Ik, Fk.
  cbn [contraction]. rewrite Ax. pose proof (children_node K h None n ks false H) as Ch. cbn [option_map orb] in Ch. rewrite Ch. clear Ch.
  pose proof (hangs_nodup K h _ NS H) as ND. 
  destruct (filter (fun k => inner (k_t k)) ks) as [|k0 l] eqn:El.
  - cbn [map]. destruct (At n) as (An & _); [left; auto|]. rewrite An. exists (A n), h. split; auto. split; auto.
    assert (Lv : forall k, In k ks -> exists x, k_t k = Lf x).
    { intros k Hk. destruct (k_t k) as [x|x cs] eqn:E; eauto. exfalso. assert (Y : In k (filter (fun k => inner (k_t k)) ks)) by (apply filter_In; rewrite E; auto).
      rewrite El in Y. destruct Y. }
    assert (Els : lids t = map (fun k => top (k_t k)) ks).
    { unfold t. cbn [lids]. clear - Lv. induction ks as [|k ks IH]; auto. cbn [flat_map map]. rewrite IH by (intros; apply Lv; right; auto).
      destruct (Lv k) as (x & ->); [left; auto|]. reflexivity. }
    assert (Sd : shape (A n) = ldims A None 0 t).
    { unfold t. rewrite ldims_node. cbn [others]. clear - Fk Lv. induction Fk as [|k m ks ms Hk Fk IH]; auto. cbn [gdims].
      destruct (Lv k) as (x & ->); [left; auto|]. cbn [ldims app]. f_equal. apply IH. intros; apply Lv; right; auto. }
    split; auto. split.
    { intros v Hv. rewrite Els. unfold t. cbn [amp others full].
      assert (Z : forall s x, zprod (map (fun k => amp A s (Some (k_j k)) (k_t k)) ks) x = zprod (map (fun l p => delta p (s l)) (map (fun k => top (k_t k)) ks)) x).
      { intros s x. f_equal. rewrite map_map. apply map_ext_in. intros k Hk. destruct (Lv k Hk) as (y & ->). reflexivity. }
      assert (NDl : NoDup (lids t)) by (apply (lids_nodup K h t None H); apply nids_nodup with (h := h); auto).
      rewrite Els in NDl. set (ls := map (fun k => top (k_t k)) ks) in *.
      assert (Ev : map (asg ls v) ls = v).
      { apply asg_all; auto. rewrite (in_range_len _ _ Hv), Sd. rewrite (ldims_length K A t None 0 F). unfold t in *. now rewrite Els. }
      rewrite <- Ev at 1. rewrite <- (delta_at (asg ls v) ls (shape (A n)) (fun x => get (A n) x)) by (rewrite Ev; auto).
      apply sumL_ext. intros x. now rewrite Z. }
    inversion H as [|? ? Lf0 AA DA FA|]; subst. split; auto. split; auto. split.
    { unfold numbered. rewrite AA, map_map, map_length. cbn [fst]. change (fun x : kid => k_i x) with k_i. rewrite Ik. f_equal. symmetry. rewrite (Forall2_len _ _ _ Fk). reflexivity. }
    split. { unfold targets. rewrite AA, !map_map. cbn [fst snd]. now rewrite Els. }
    split; [|split; auto; intros; apply attrs_refl].
    intros x Hx Hn. exfalso. unfold t in Hx. cbn [nids] in Hx. destruct Hx as [Hx|Hx]; [congruence|].
    apply in_flat_map in Hx. destruct Hx as (k & Hk & Hx). destruct (Lv k Hk) as (y & E). rewrite E in Hx. destruct Hx.
  - assert (Er : renum 0 ks = ks).
    { apply renum_id. rewrite Ik. f_equal. symmetry. rewrite (Forall2_len _ _ _ Fk). reflexivity. }
    destruct (pass h A n [] ks) as (h1 & A1 & X); [cbn [app]; rewrite Er; auto|auto|]. cbn zeta in X. cbn [app] in X. rewrite Er, El in X.
    destruct X as (E1 & Sh1 & Ax1 & Em1 & At1 & Ke1 & Am1 & Ld1).
    cbn [map] in E1 |- *. rewrite E1. cbn [bind].
    assert (Hn1 : forall x, In x (nids t) -> x <> n -> (exists k, In k ks /\ inner (k_t k) = true /\ x = top (k_t k)) \/ In x (nids (Nd n (renum 0 (flat_map expand ks))))).
    { intros x Hx Hn. unfold t in Hx. cbn [nids] in Hx. destruct Hx as [Hx|Hx]; [congruence|]. apply expand_nids in Hx. destruct Hx as [Hx|Hx]; auto.
      right. cbn [nids]. right. rewrite (renum_flat nids). auto. }
    destruct (IH h1 n (renum 0 (flat_map expand ks)) A1 Sh1 Ax1) as (c & h' & E & Wc & Sc & Gc & An & Axn & Nun & Tn & Em & At' & Ke).
    { unfold t in Hf. cbn [nids] in Hf |- *. rewrite (renum_flat nids). pose proof (expand_less ks) as Y. rewrite El in Y. cbn [length] in Y, Hf |- *. lia. }
    assert (Lid : lids (Nd n (renum 0 (flat_map expand ks))) = lids t).
    { unfold t. cbn [lids]. rewrite (renum_flat lids). apply expand_lids. }
    exists c, h'. split; auto. split; auto. split; [rewrite Sc; auto|]. split.
    { intros v Hv. rewrite Gc by auto. rewrite Lid. apply Am1. }
    split; auto. split; auto. split; auto. split; [rewrite Tn; auto|]. split; [|split].
    + intros x Hx Hn. destruct (Hn1 x Hx Hn) as [(k & Hk & Hi & ->)|Y]; auto.
    + intros x Hx. eapply attrs_trans; eauto.
    + auto.
Qed.
End Contraction.
