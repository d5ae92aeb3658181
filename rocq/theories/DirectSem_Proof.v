(** The derivatives of all tensors satisfy the variational equations. *)
From Coq Require Import String List Arith Bool Lia Permutation.
From Verif Require Import Py Alg ListX NdArray_Model NdArray_Proof Contract_Model Contract_Spec Contract_Proof Mode_Proof Net_Model Net_Spec Sweep_Spec Trav_Proof Acyc_Proof
  Link_Spec Link_Proof Env_Spec Env_Proof TEnv_Proof EnvSem_Proof EnvThm_Proof Unite_Proof State_Spec State_Proof Cache_Model Cache_Proof CacheExact_Proof Reroot_Proof Eom_Spec Eom_Proof Direct_Model Direct_Spec
  DirectAlg_Proof.
Import ListNotations.
Local Open Scope nat_scope.
Local Open Scope list_scope.

Section DirectSem.
Variable K : StarRing.
Add Ring Kring_dsem : (r_theory K).
Implicit Types h : heap K.
Implicit Types A B : id -> arr K.
Notation fitk A := (Forall2 (fun k m => fits A (Some (k_j k)) m (k_t k))).

Lemma oriented_some h t : forall j, oriented h (Some j) t -> forall n, In n (nids t) -> oaxis (hget h n) <> None.
Proof.
  induction t as [n|n ks IH] using tree_ind'; intros j O x Hx; [destruct Hx|]. inversion O as [|? ? ? Ea F]; subst.
  cbn [nids] in Hx. destruct Hx as [<-|Hx]; [congruence|]. apply in_flat_map in Hx. destruct Hx as (k & Hk & Hx).
  rewrite Forall_forall in IH, F. eapply IH; eauto.
Qed.

Section Net.
Variable h : heap K.
Variable r : id.
Variable ks0 : list kid.
Variable A : id -> arr K.
Notation R := (Nd r ks0).
Hypothesis H : hangs h None R.
Hypothesis ND : NoDup (ids R).
Hypothesis F : fits A None 0 R.
Hypothesis DO : dicts_ok h.
Hypothesis O : oriented h None R.
Hypothesis U : forall n, In n (nids R) -> n <> r -> unit_along (A n) (oaxis (hget h n)).

Lemma NDl : NoDup (lids R).
Proof. rewrite <- (filter_leaves K h None R H). apply NoDup_filter. auto. Qed.
Lemma root_axis : oaxis (hget h r) = None.
Proof. inversion O; auto. Qed.

(** The network seen from [t]: [k] is the kid on the side of the root. *)
Definition view (t : id) (k1 : list kid) (k : kid) (k2 : list kid) : Prop :=
  same_net K h R (Nd t (k1 ++ k :: k2)) /\ oaxis (hget h t) = Some (k_i k) /\
  Forall (fun k => oriented h (Some (k_j k)) (k_t k)) (k1 ++ k2) /\ Net_Spec.inner (k_t k) = true /\ oaxis (hget h (top (k_t k))) <> Some (k_j k) /\
  length k1 = k_i k /\ k_i k < ndim (A t) /\ fitk A (k1 ++ k2) (del (k_i k) (shape (A t))) /\
  fits A (Some (k_j k)) (nth (k_i k) (shape (A t)) 0) (k_t k).
Lemma view_exists t : In t (nids R) -> t <> r -> exists k1 k k2, view t k1 k k2.
Proof.
  intros Ht Nt. destruct (reroot_at K h R t DO H Ht) as (ks & Sn).
  destruct (split_at K h R t ks H O Ht Nt (sn_hangs K h _ _ Sn)) as (k1 & k & k2 & -> & Ea & Fo & In_ & Aw).
  exists k1, k, k2. split; auto. split; auto. split; auto. split; auto. split; auto.
  pose proof (sn_fits K h _ _ Sn A F) as F'. inversion F' as [|? ? ? ? W P X I G]; subst. cbn [others] in I, G.
  destruct (Forall2_mid _ _ _ _ _ G) as (m1 & m & m2 & Em & Lm & Fk & Fo').
  rewrite map_app in I. cbn [map] in I.
  assert (Li : length k1 = k_i k) by (apply seq_mid in I; rewrite map_length in I; auto).
  split; auto. split.
  { rewrite <- (seq_length (ndim (A t)) 0), <- I, app_length, map_length. cbn. lia. }
  rewrite Em, <- Li, <- Lm, del_at. split; auto. rewrite app_nth2, Nat.sub_diag by lia. exact Fk.
Qed.

Lemma view_nids t k1 k k2 : view t k1 k k2 -> forall x, In x (nids R) <-> x = t \/ In x (flat_map (fun k => nids (k_t k)) (k1 ++ k2)) \/ In x (nids (k_t k)).
Proof.
  intros (Sn & _) x. assert (E : In x (nids R) <-> In x (nids (Nd t (k1 ++ k :: k2)))).
  { assert (Q : forall T up, hangs h up T -> forall x, In x (nids T) <-> In x (ids T) /\ oleaf (hget h x) = false).
    { intros T up HT y. split.
      - intros Hy. split; [apply nids_ids; auto|eapply nids_inner; eauto].
      - intros (Hy & L). eapply Permutation_in in Hy; [|apply ids_split]. apply in_app_iff in Hy. destruct Hy as [|Hy]; auto.
        pose proof (lids_leaf K h T up HT y Hy). congruence. }
    rewrite (Q R None H), (Q _ None (sn_hangs K h _ _ Sn)).
    split; intros (X & Y); split; auto; [eapply Permutation_in; [apply (sn_perm K h _ _ Sn)|auto]|eapply Permutation_in; [apply Permutation_sym, (sn_perm K h _ _ Sn)|auto]]. }
  rewrite E. cbn [nids In]. rewrite !flat_map_app. cbn [flat_map]. rewrite !in_app_iff. assert (S0 : t = x <-> x = t) by (split; auto). tauto.
Qed.
Lemma view_nodup t k1 k k2 : view t k1 k k2 -> NoDup (ids (Nd t (k1 ++ k :: k2))).
Proof. intros (Sn & _). eapply Permutation_NoDup; [apply (sn_perm K h _ _ Sn)|auto]. Qed.
Lemma kids_ids ks x : In x (flat_map (fun k : kid => nids (k_t k)) ks) -> In x (flat_map (fun k : kid => ids (k_t k)) ks).
Proof. intros Hx. apply in_flat_map in Hx. destruct Hx as (k & Hk & Hx). apply in_flat_map. exists k. split; auto. apply nids_ids; auto. Qed.
(** Tensors below [t] are orthonormal, and neither [t] nor the root. *)
Lemma view_below t k1 k k2 : view t k1 k k2 -> forall x, In x (flat_map (fun k => nids (k_t k)) (k1 ++ k2)) ->
  x <> t /\ x <> r /\ ~ In x (nids (k_t k)) /\ unit_along (A x) (oaxis (hget h x)).
Proof.
  intros V x Hx. pose proof (view_nodup _ _ _ _ V) as N. pose proof (proj2 (view_nids _ _ _ _ V x) (or_intror (or_introl Hx))) as Hr.
  destruct V as (Sn & Ea & Fo & _).
  cbn [ids] in N. apply NoDup_cons_iff in N. destruct N as (N1 & N2).
  assert (Xt : x <> t).
  { intros ->. apply N1. apply kids_ids. rewrite flat_map_app in *. cbn [flat_map]. rewrite !in_app_iff in *. intuition. }
  assert (Xr : x <> r).
  { intros ->. apply in_flat_map in Hx. destruct Hx as (k' & Hk & Hx). rewrite Forall_forall in Fo. apply (oriented_some h _ _ (Fo k' Hk) r Hx). apply root_axis. }
  split; auto. split; auto. split; [|auto].
  intros Hk. rewrite flat_map_app in N2. cbn [flat_map] in N2. apply Permutation_NoDup with (l' := ids (k_t k) ++ flat_map (fun k => ids (k_t k)) (k1 ++ k2)) in N2.
  - eapply NoDup_app_disj; [exact N2|apply nids_ids; exact Hk|apply kids_ids; auto].
  - rewrite flat_map_app. rewrite !app_assoc. apply Permutation_app_tail. apply Permutation_app_comm.
Qed.
Lemma view_top t k1 k k2 : view t k1 k k2 -> ~ In t (nids (k_t k)).
Proof.
  intros V Ht. pose proof (view_nodup _ _ _ _ V) as N. cbn [ids] in N. apply NoDup_cons_iff in N. apply (proj1 N).
  apply in_flat_map. exists k. split; [apply in_app_iff; right; left; auto|apply nids_ids; auto].
Qed.

(** Kids below contribute the identity. *)
Lemma kids_plain A' B ks ms : fitk A ks ms -> Forall (fun k => oriented h (Some (k_j k)) (k_t k)) ks ->
  (forall n, In n (flat_map (fun k => nids (k_t k)) ks) -> A' n = A n /\ B n = arr_conj (A n) /\ unit_along (A n) (oaxis (hget h n))) ->
  Forall2 (plain K A' B) ks ms.
Proof.
  intros G Fo N. induction G as [|k m ks ms Hk G IH]; constructor; inversion Fo; subst; cbn [flat_map] in N.
  - intros p q Hp Hq. unfold ekid. rewrite (erec_agree K A A' B B).
    + eapply iso_erec; eauto. intros n Hn. apply N. apply in_app_iff. auto.
    + intros n Hn. split; auto. apply N. apply in_app_iff. auto.
  - apply IH; auto. intros n Hn. apply N. apply in_app_iff. auto.
Qed.

Definition through (t : id) (k : kid) p q : K := ekid K A (fun n => arr_conj (A n)) (unitm K) k p q.
Definition joined (f : nat -> nat -> K) d ax (y x : arr K) : K := sumn d (fun p => sumn d (fun q => rmul (f p q) (crossed y x ax q p))).

Lemma overlap_self t k1 k k2 x y : view t k1 k k2 -> In t (nids R) -> wf x -> wf y -> shape x = shape (A t) -> shape y = shape (A t) ->
  overlap (exchanged A t x) (varied A t y) R = joined (through t k) (nth (k_i k) (shape (A t)) 0) (k_i k) y x.
Proof.
  intros V Ht Wx Wy Sx Sy. pose proof V as (Sn & Ea & Fo & In_ & Aw & L & Hi & G & Fk).
  rewrite (overlap_changed K) by (auto using NDl; reflexivity).
  destruct (changed_fits K A R t x t y) as (F1 & F2); auto; [eapply fits_wf; eauto|].
  rewrite <- (sn_erec K h _ _ Sn) by auto.
  rewrite (top_sum K (exchanged A t x) (varied A t y) t k1 k k2); auto.
  - rewrite exchanged_eq, varied_eq, Sx. unfold joined. apply sumn_ext. intros p _. apply sumn_ext. intros q _. f_equal.
    unfold through, ekid. apply erec_agree. intros n Hn. assert (n <> t) by (intros ->; eapply view_top; eauto). rewrite exchanged_ne, varied_ne; auto.
  - rewrite exchanged_eq. unfold ndim. rewrite Sx. auto.
  - rewrite exchanged_eq, varied_eq. congruence.
  - rewrite exchanged_eq, Sx. apply kids_plain; auto. intros n Hn. destruct (view_below _ _ _ _ V n Hn) as (X1 & X2 & X3 & X4).
    rewrite exchanged_ne, varied_ne; auto.
Qed.
Lemma overlap_other t k1 k k2 u x f : view t k1 k k2 -> In t (nids R) -> In u (nids R) -> u <> t -> wf x -> shape x = shape (A u) ->
  gauged K h A u x -> allowed h A t f -> overlap (exchanged A u x) (varied A t f) R = r0.
Proof.
  intros V Ht Hu Nu Wx Sx Ga (Wf & Sf & Or). pose proof V as (Sn & Ea & Fo & In_ & Aw & L & Hi & G & Fk).
  rewrite (overlap_changed K) by (auto using NDl; reflexivity).
  destruct (changed_fits K A R u x t f) as (F1 & F2); auto; [eapply fits_wf; eauto|].
  rewrite <- (sn_erec K h _ _ Sn) by auto.
  apply (view_nids _ _ _ _ V) in Hu. destruct Hu as [Hu|[Hu|Hu]]; [congruence| |].
  - (* below *)
    destruct (view_below _ _ _ _ V u Hu) as (_ & Nr & _).
    rewrite flat_map_app, in_app_iff in Hu.
    assert (Hs : exists c1 c c2, k1 ++ k :: k2 = c1 ++ c :: c2 /\ In u (nids (k_t c)) /\ In c (k1 ++ k2)).
    { destruct Hu as [Hu|Hu]; destruct (in_kids_split u _ Hu) as (c1 & c & c2 & -> & Hc).
      - exists c1, c, (c2 ++ k :: k2). rewrite <- app_assoc. split; auto. split; auto. rewrite !in_app_iff. left. right. left. auto.
      - exists (k1 ++ k :: c1), c, c2. rewrite <- app_assoc. cbn [app]. split; auto. split; auto. rewrite !in_app_iff. right. right. left. auto. }
    destruct Hs as (c1 & c & c2 & E & Hc & Hin). rewrite E.
    pose proof (sn_fits K h _ _ Sn A F) as F'. rewrite E in F'. inversion F' as [|? ? ? ? W P X I G']; subst. cbn [others] in G'.
    destruct (Forall2_mid _ _ _ _ _ G') as (m1 & m & m2 & Em & Lm & Fc & _).
    apply (erec_zero K _ _ _ _ _ _ _ _ _ _ m1 m m2); auto.
    + rewrite varied_shape, exchanged_shape; auto.
    + cbn [others]. rewrite exchanged_shape by auto. auto.
    + intros p q Hp Hq. unfold ekid. pose proof (view_nodup _ _ _ _ V) as N. rewrite E in N. cbn [ids] in N. apply NoDup_cons_iff in N. destruct N as (_ & N).
      rewrite flat_map_app in N. apply NoDup_app_r in N. cbn [flat_map] in N. apply NoDup_app_l in N.
      rewrite Forall_forall in Fo. eapply (zero_erec K h A (varied A t f) u x); eauto.
      intros n Hn. assert (Hb : In n (flat_map (fun k => nids (k_t k)) (k1 ++ k2))) by (apply in_flat_map; eauto).
      destruct (view_below _ _ _ _ V n Hb) as (X1 & X2 & X3 & X4). rewrite varied_ne; auto.
  - (* on the side of the root *)
    rewrite (top_sum K (exchanged A u x) (varied A t f) t k1 k k2); auto.
    + rewrite exchanged_ne, varied_eq by auto. apply sumn_zero. intros p Hp. apply sumn_zero. intros q Hq. rewrite (Or _ q p Ea) by auto. ring.
    + rewrite exchanged_ne; auto.
    + rewrite exchanged_ne, varied_eq by auto. auto.
    + rewrite exchanged_ne by auto. apply kids_plain; auto. intros n Hn. destruct (view_below _ _ _ _ V n Hn) as (X1 & X2 & X3 & X4).
      rewrite varied_ne by auto. split; auto. apply exchanged_ne. intros ->. contradiction.
Qed.

Lemma kids0_below : forall n, In n (flat_map (fun k => nids (k_t k)) ks0) -> n <> r /\ In n (nids R) /\ unit_along (A n) (oaxis (hget h n)).
Proof.
  intros n Hn. assert (Nr : n <> r).
  { intros ->. cbn [ids] in ND. apply NoDup_cons_iff in ND. apply (proj1 ND). apply kids_ids. auto. }
  split; auto. split; [right; auto|]. apply U; auto. right. auto.
Qed.
Lemma overlap_root x f : wf x -> shape x = shape (A r) -> wf f -> shape f = shape (A r) ->
  overlap (exchanged A r x) (varied A r f) R = pairing f x.
Proof.
  intros Wx Sx Wf Sf. rewrite (overlap_changed K) by (auto using NDl; reflexivity).
  rewrite (top_root K).
  - rewrite exchanged_eq, varied_eq. reflexivity.
  - rewrite exchanged_eq, varied_eq. congruence.
  - rewrite exchanged_eq, Sx. inversion F as [|? ? ? ? W P X I G]; subst. inversion O as [|? ? ? Ea Fo]; subst. apply kids_plain; auto.
    intros n Hn. destruct (kids0_below n Hn) as (X1 & X2 & X3). rewrite exchanged_ne, varied_ne; auto.
Qed.
Lemma overlap_root_other u x f : In u (nids R) -> u <> r -> wf x -> shape x = shape (A u) -> gauged K h A u x -> wf f -> shape f = shape (A r) ->
  overlap (exchanged A u x) (varied A r f) R = r0.
Proof.
  intros Hu Nu Wx Sx Ga Wf Sf. pose proof kids0_below as KB. rewrite (overlap_changed K) by (auto using NDl; reflexivity).
  cbn [nids] in Hu. destruct Hu as [Hu|Hu]; [congruence|]. destruct (in_kids_split u _ Hu) as (c1 & c & c2 & E & Hc). rewrite E.
  inversion F as [|? ? ? ? W P X I G]; subst. cbn [others] in G.
  destruct (Forall2_mid _ _ _ _ _ G) as (m1 & m & m2 & Em & Lm & Fc & _).
  inversion O as [|? ? ? Ea Fo]; subst. rewrite Forall_forall in Fo.
  apply (erec_zero K _ _ _ _ _ _ _ _ _ _ m1 m m2); auto.
  + rewrite varied_shape, exchanged_shape; auto.
  + cbn [others]. rewrite exchanged_shape by auto. auto.
  + intros p q Hp Hq. unfold ekid. pose proof ND as N. cbn [ids] in N. apply NoDup_cons_iff in N. destruct N as (_ & N).
    rewrite flat_map_app in N. apply NoDup_app_r in N. cbn [flat_map] in N. apply NoDup_app_l in N.
    eapply (zero_erec K h A (varied A r f) u x); eauto.
    * apply Fo. apply in_app_iff. right. left. auto.
    * intros n Hn. assert (Hb : In n (flat_map (fun k => nids (k_t k)) (c1 ++ c :: c2))).
      { apply in_flat_map. exists c. split; auto. apply in_app_iff. right. left. auto. }
      destruct (KB n Hb) as (X1 & X2 & X3). rewrite varied_ne; auto.
Qed.
End Net.
End DirectSem.
