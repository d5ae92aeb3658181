(** Networks orthonormal towards the root: overlaps with one tensor changed. *)
From Coq Require Import String List Arith Bool Lia Permutation.
From Verif Require Import Py Alg ListX NdArray_Model NdArray_Proof Contract_Model Contract_Spec Contract_Proof Mode_Proof Net_Model Net_Spec Sweep_Spec Trav_Proof Acyc_Proof
  Link_Spec Link_Proof Env_Spec Env_Proof TEnv_Proof EnvSem_Proof EnvThm_Proof State_Spec State_Proof Cache_Proof Cache_Model Cache_Proof CacheExact_Proof Reroot_Proof Eom_Spec Eom_Proof Direct_Model Direct_Spec.
Import ListNotations.
Local Open Scope nat_scope.
Local Open Scope list_scope.

Section DirectAlg.
Variable K : StarRing.
Add Ring Kring_dalg : (r_theory K).
Implicit Types h : heap K.
Implicit Types A B : id -> arr K.
Definition unitm : id -> nat -> nat -> K := fun _ p q => delta p q.

(** ** The side of the root *)
Lemma kids_det h n : forall ks ks' : list kid, Forall (fun k => hangs h (Some (k_j k, (n, k_i k))) (k_t k)) ks ->
  Forall (fun k => hangs h (Some (k_j k, (n, k_i k))) (k_t k)) ks' -> map kid_half ks = map kid_half ks' -> ks = ks'.
Proof.
  induction ks as [|k ks IH]; intros [|k' ks'] F F' E; try discriminate; auto.
  inversion F; inversion F'; subst. cbn [map] in E. injection E as E1 E2 E3 E4. f_equal; [|apply IH; auto].
  destruct k as ((i, u), j), k' as ((i', u'), j'). unfold k_i, k_j, k_t in *. cbn [fst snd] in *. subst i' j'. f_equal. f_equal.
  eapply hangs_det; eauto.
Qed.
Lemma nids_edge R t : In t (nids R) -> t = top R \/ exists a i cks j, edge_in R a i (Nd t cks) j.
Proof.
  induction R as [n|n ks IH] using tree_ind'; [intros []|]. cbn [nids]. intros [->|H]; [left; auto|]. right.
  apply in_flat_map in H. destruct H as (k & Hk & Ht). rewrite Forall_forall in IH. destruct k as ((i, u), j).
  destruct (IH _ Hk Ht) as [E|(a & i' & cks & j' & E)].
  - destruct u as [m|m cks]; [destruct Ht|]. cbn [k_t fst snd top] in E. subst m. exists n, i, cks, j. constructor. auto.
  - exists a, i', cks, j'. econstructor 2; eauto.
Qed.
Lemma edge_oriented h R a i u j : edge_in R a i u j -> forall ax, oriented h ax R -> oriented h (Some j) u.
Proof.
  induction 1 as [n ks i u j H|n ks k a i u j H E IH]; intros ax O; inversion O as [|? ? ? Ea F]; subst; rewrite Forall_forall in F.
  - apply (F _ H).
  - apply (IH (Some (k_j k))). auto.
Qed.
Lemma edge_away h R a i u j : edge_in R a i u j -> forall up, hangs h up R -> oriented h (option_map fst up) R -> oaxis (hget h a) <> Some i.
Proof.
  induction 1 as [n ks i u j H|n ks k a i u j H E IH]; intros up Hg O; inversion O as [|? ? ? Ea F]; subst; rewrite Forall_forall in F.
  - rewrite Ea. destruct (hangs_acc K h up n ks Hg) as (_ & X & _). apply not_eq_sym. apply (X _ H).
  - destruct (hangs_kids K h up n ks Hg) as (_ & G & _). rewrite Forall_forall in G. apply (IH _ (G k H)). apply F; auto.
Qed.
Lemma edge_inner R a i u j : edge_in R a i u j -> In a (nids R).
Proof. intros E. apply (proj2 (edge_ids _ _ _ _ _ E)). Qed.

(** The kid of [t] on the side of the root, the others below [t]. *)
Lemma split_at h R t ks : hangs h None R -> oriented h None R -> In t (nids R) -> t <> top R -> hangs h None (Nd t ks) ->
  exists k1 k k2, ks = k1 ++ k :: k2 /\ oaxis (hget h t) = Some (k_i k) /\
    Forall (fun k => oriented h (Some (k_j k)) (k_t k)) (k1 ++ k2) /\ Net_Spec.inner (k_t k) = true /\ oaxis (hget h (top (k_t k))) <> Some (k_j k).
Proof.
  intros H O Ht Nt Ht'. destruct (nids_edge R t Ht) as [|(a & i & cks & j & E)]; [contradiction|].
  pose proof (edge_hangs K h R None H _ _ _ _ E) as Hc. pose proof (edge_oriented h _ _ _ _ _ E None O) as Oc.
  pose proof (edge_away h _ _ _ _ _ E None H O) as Aw. pose proof (edge_inner _ _ _ _ _ E) as Ia.
  pose proof (nids_inner K h R None H a Ia) as La.
  inversion Oc as [|? ? ? Ea F]; subst. inversion Hc as [| |? ? ? c1 c2 L A D G]; subst.
  inversion Ht' as [|? ? L' A' D' G'|]; subst. rewrite A in A'.
  change (fun k : kid => (k_i k, (top (k_t k), k_j k))) with kid_half in A'. symmetry in A'. apply map_eq_app in A'. destruct A' as (k1 & ks2 & -> & A1 & A2).
  destruct ks2 as [|k k2]; [discriminate|]. cbn [map] in A2. injection A2 as B1 B2 B3 B4.
  rewrite Forall_forall in G, G'.
  assert (E1 : k1 = c1). { apply (kids_det h t); auto; apply Forall_forall; intros x Hx; [apply G'|apply G]; apply in_app_iff; auto. }
  assert (E2 : k2 = c2). { apply (kids_det h t); auto; apply Forall_forall; intros x Hx; [apply G'|apply G]; apply in_app_iff; auto. right; right; auto. }
  subst c1 c2. exists k1, k, k2. split; auto. split; [congruence|]. split; auto. rewrite B2, B3. split; auto.
  assert (Hk : In k (k1 ++ k :: k2)) by (apply in_app_iff; right; left; auto).
  pose proof (hangs_leafness K h _ _ (G' k Hk)) as X. rewrite B2, La in X. destruct (Net_Spec.inner (k_t k)); auto; discriminate.
Qed.

Local Open Scope star_scope.
(** ** Values of subtrees *)
Lemma erec_agree A A' B B' M : forall t ax p q, (forall n, In n (nids t) -> A' n = A n /\ B' n = B n) ->
  erec K A' B' M ax t p q = erec K A B M ax t p q.
Proof.
  induction t as [n|n ks IH] using tree_ind'; intros ax p q E; [reflexivity|]. cbn [erec].
  destruct (E n ltac:(left; auto)) as (-> & ->). apply sumL_ext. intros x. apply sumL_ext. intros y. f_equal.
  assert (E' : forall m, In m (flat_map (fun k => nids (k_t k)) ks) -> A' m = A m /\ B' m = B m) by (intros m Hm; apply E; right; auto).
  clear E. revert x y. induction IH as [|k ks Hk _ IHk]; intros [|v x] [|w y]; cbn [map zprod2]; auto.
  f_equal; [apply Hk|apply IHk]; intros m Hm; apply E'; cbn [flat_map]; apply in_app_iff; auto.
Qed.
Lemma fits_shapes A A' : forall t ax d, (forall n, In n (nids t) -> wf (A' n) /\ shape (A' n) = shape (A n)) -> fits A ax d t -> fits A' ax d t.
Proof.
  induction t as [n|n ks IH] using tree_ind'; intros ax d E H.
  - inversion H; subst. constructor; auto.
  - inversion H as [|? ? ? ? W P X I F]; subst. destruct (E n ltac:(left; auto)) as (Wn & Sn).
    constructor; unfold ndim in *; rewrite ?Sn; auto.
    assert (E' : forall m, In m (flat_map (fun k => nids (k_t k)) ks) -> wf (A' m) /\ shape (A' m) = shape (A m)) by (intros m Hm; apply E; right; auto).
    clear -IH F E'. induction F as [|k m ks ms Hk F IHF]; constructor; inversion IH; subst.
    + apply H1; auto. intros x Hx. apply E'. cbn [flat_map]. apply in_app_iff. auto.
    + apply IHF; auto. intros x Hx. apply E'. cbn [flat_map]. apply in_app_iff. auto.
Qed.

Notation fitk A := (Forall2 (fun k m => fits A (Some (k_j k)) m (k_t k))).
Definition plain A B (k : kid) m : Prop := forall p q, (p < m)%nat -> (q < m)%nat -> ekid K A B unitm k p q = delta p q.
Lemma plain_envs A B ks ms : Forall2 (plain A B) ks ms -> Env_Proof.envs K (map (fun _ => None) ks) ms ms (map (ekid K A B unitm) ks).
Proof. induction 1 as [|k m ks ms Hk F IH]; cbn [map]; constructor; auto. split; auto. Qed.
Lemma plain_sum A B ks ms (F : list nat -> list nat -> K) : Forall2 (plain A B) ks ms ->
  sumL (indices ms) (fun x => sumL (indices ms) (fun y => F x y * zprod2 K (map (ekid K A B unitm) ks) x y)) = sumL (indices ms) (fun x => F x x).
Proof.
  intros H. apply plain_envs in H. destruct (none_sum K _ _ _ _ H) as (_ & G).
  - clear. induction ks; auto.
  - apply sum_indices_ext. intros x Hx. apply (G x (fun y => F x y)); auto.
Qed.

Lemma iso_erec h A B : forall t j d, fits A (Some j) d t -> oriented h (Some j) t ->
  (forall n, In n (nids t) -> B n = arr_conj (A n) /\ unit_along (A n) (oaxis (hget h n))) ->
  forall p q, (p < d)%nat -> (q < d)%nat -> erec K A B unitm (Some j) t p q = delta p q.
Proof.
  induction t as [n|n ks IH] using tree_ind'; intros j d F O N p q Hp Hq; [reflexivity|].
  inversion F as [|? ? ? ? W P X I G]; subst. inversion O as [|? ? ? Ea Fo]; subst. destruct X as (X1 & X2). cbn [others] in G.
  destruct (N n ltac:(left; auto)) as (EB & U). rewrite Ea in U.
  assert (PL : Forall2 (plain A B) ks (del j (shape (A n)))).
  { assert (N' : forall m, In m (flat_map (fun k => nids (k_t k)) ks) -> B m = arr_conj (A m) /\ unit_along (A m) (oaxis (hget h m))) by (intros m Hm; apply N; right; auto).
    clear -IH Fo G N'. induction G as [|k m ks ms Hk G IHG]; constructor; inversion IH; inversion Fo; subst.
    - intros p q Hp Hq. unfold ekid. eapply H1; eauto. intros x Hx. apply N'. cbn [flat_map]. apply in_app_iff. auto.
    - apply IHG; auto. intros x Hx. apply N'. cbn [flat_map]. apply in_app_iff. auto. }
  cbn [erec others full]. rewrite EB. change (shape (arr_conj (A n))) with (shape (A n)).
  change (fun k : kid => erec K A B unitm (Some (k_j k)) (k_t k)) with (ekid K A B unitm).
  rewrite (plain_sum A B ks _ (fun x y => get (A n) (ins j p x) * get (arr_conj (A n)) (ins j q y)) PL).
  rewrite <- X2 in Hp, Hq. specialize (U q p Hq Hp). transitivity (delta (K := K) q p); [|unfold delta; rewrite Nat.eqb_sym; reflexivity].
  rewrite <- U. apply sumL_ext. intros x. rewrite get_conj. ring.
Qed.

Lemma zprod2_zero (f1 : list (nat -> nat -> K)) f f2 : forall x y, (length f1 < length x)%nat -> (length f1 < length y)%nat ->
  f (nth (length f1) x O) (nth (length f1) y O) = 0 -> zprod2 K (f1 ++ f :: f2) x y = 0.
Proof.
  induction f1 as [|g f1 IH]; intros [|v x] [|w y] Hx Hy E; cbn [length] in *; try lia; cbn [app zprod2 nth] in *.
  - rewrite E. ring.
  - rewrite IH by (auto; lia). ring.
Qed.
(** A branch that vanishes. *)
Lemma erec_zero A B M ax n k1 k k2 p q (m1 : list nat) m m2 : shape (B n) = shape (A n) ->
  others ax (shape (A n)) = m1 ++ m :: m2 -> length m1 = length k1 ->
  (forall p q, (p < m)%nat -> (q < m)%nat -> ekid K A B M k p q = 0) -> erec K A B M ax (Nd n (k1 ++ k :: k2)) p q = 0.
Proof.
  intros S E L Z. cbn [erec]. rewrite S, E. apply sumL_zero_in. intros x Hx. apply sumL_zero_in. intros y Hy.
  apply in_indices in Hx. apply in_indices in Hy.
  rewrite map_app. cbn [map]. change (fun k : kid => erec K A B M (Some (k_j k)) (k_t k)) with (ekid K A B M).
  assert (R : forall z, in_range z (m1 ++ m :: m2) -> (length (map (ekid K A B M) k1) < length z)%nat /\ (nth (length (map (ekid K A B M) k1)) z O < m)%nat).
  { intros z Hz. rewrite map_length, <- L. pose proof (in_range_len _ _ Hz) as Lz. rewrite app_length in Lz. cbn [length] in Lz. split; [lia|].
    clear -Hz. revert z Hz. induction m1 as [|c m1 IH]; intros z Hz; inversion Hz; subst; cbn [length nth]; auto. }
  destruct (R x Hx), (R y Hy). rewrite zprod2_zero; auto; [ring|]. apply Z; auto.
Qed.

Definition gauged h A (t : id) (D : arr K) : Prop := forall ax p q, oaxis (hget h t) = Some ax ->
  (p < nth ax (shape (A t)) O)%nat -> (q < nth ax (shape (A t)) O)%nat -> crossed (arr_conj (A t)) D ax p q = 0.

Lemma in_kids_split (x : id) : forall ks : list kid, In x (flat_map (fun k => nids (k_t k)) ks) -> exists k1 k k2, ks = k1 ++ k :: k2 /\ In x (nids (k_t k)).
Proof. intros ks H. apply in_flat_map in H. destruct H as (k & Hk & Hx). apply in_split in Hk. destruct Hk as (k1 & k2 & ->). eauto. Qed.
Lemma exchanged_eq A t (x : arr K) : exchanged A t x t = x.
Proof. unfold exchanged. now rewrite Nat.eqb_refl. Qed.
Lemma exchanged_ne A t (x : arr K) n : n <> t -> exchanged A t x n = A n.
Proof. intros H. unfold exchanged. apply Nat.eqb_neq in H. now rewrite H. Qed.
Lemma varied_eq A t (x : arr K) : varied A t x t = x.
Proof. unfold varied. now rewrite Nat.eqb_refl. Qed.
Lemma varied_ne A t (x : arr K) n : n <> t -> varied A t x n = arr_conj (A n).
Proof. intros H. unfold varied. apply Nat.eqb_neq in H. now rewrite H. Qed.
Lemma exchanged_shape A t (x : arr K) n : shape x = shape (A t) -> shape (exchanged A t x n) = shape (A n).
Proof. intros H. unfold exchanged. destruct (Nat.eqb_spec n t) as [->|]; auto. Qed.
Lemma varied_shape A t (x : arr K) n : shape x = shape (A t) -> shape (varied A t x n) = shape (A n).
Proof. intros H. unfold varied. destruct (Nat.eqb_spec n t) as [->|]; auto. Qed.

(** A tensor below replaced by one orthogonal to it. *)
Lemma zero_erec h A B u D : wf D -> shape D = shape (A u) -> gauged h A u D ->
  forall t j d, fits A (Some j) d t -> NoDup (ids t) -> oriented h (Some j) t -> In u (nids t) ->
  (forall n, In n (nids t) -> B n = arr_conj (A n) /\ unit_along (A n) (oaxis (hget h n))) ->
  forall p q, (p < d)%nat -> (q < d)%nat -> erec K (exchanged A u D) B unitm (Some j) t p q = 0.
Proof.
  intros WD SD Ga. induction t as [n|n ks IH] using tree_ind'; intros j d F ND O Hu N p q Hp Hq; [destruct Hu|].
  inversion F as [|? ? ? ? W P X I G]; subst. inversion O as [|? ? ? Ea Fo]; subst. destruct X as (X1 & X2). cbn [others] in G.
  destruct (N n ltac:(left; auto)) as (EB & U). rewrite Ea in U. cbn [ids] in ND. inversion ND as [|? ? Nin ND']; subst.
  assert (N' : forall m, In m (flat_map (fun k => nids (k_t k)) ks) -> B m = arr_conj (A m) /\ unit_along (A m) (oaxis (hget h m))) by (intros m Hm; apply N; right; auto).
  cbn [nids] in Hu. destruct Hu as [->|Hu].
  - assert (PL : Forall2 (plain (exchanged A u D) B) ks (del j (shape (A u)))).
    { assert (Nu : ~ In u (flat_map (fun k => nids (k_t k)) ks)).
      { intros Hin. apply Nin. apply in_flat_map in Hin. destruct Hin as (k & Hk & Hn). apply in_flat_map. exists k. split; auto. apply nids_ids; auto. }
      clear -Fo G N' Nu. induction G as [|k m ks ms Hk G IHG]; constructor; inversion Fo; subst; cbn [flat_map] in N', Nu.
      - intros p q Hp Hq. unfold ekid. rewrite (erec_agree A _ B B).
        + eapply iso_erec; eauto. intros x Hx. apply N'. apply in_app_iff. auto.
        + intros x Hx. split; auto. apply exchanged_ne. intros ->. apply Nu. apply in_app_iff. auto.
      - apply IHG; auto. intros x Hx. apply N'. apply in_app_iff. auto. intros Hx. apply Nu. apply in_app_iff. auto. }
    cbn [erec others full]. rewrite EB, exchanged_eq, SD. change (shape (arr_conj (A u))) with (shape (A u)).
    change (fun k : kid => erec K (exchanged A u D) B unitm (Some (k_j k)) (k_t k)) with (ekid K (exchanged A u D) B unitm).
    rewrite (plain_sum _ B ks _ (fun x y => get D (ins j p x) * get (arr_conj (A u)) (ins j q y)) PL).
    rewrite <- (Ga j q p Ea Hq Hp). unfold crossed. rewrite SD. apply sumL_ext. intros x. ring.
  - assert (Nu : n <> u).
    { intros ->. apply Nin. apply in_flat_map in Hu. destruct Hu as (k & Hk & Hn). apply in_flat_map. exists k. split; auto. apply nids_ids; auto. }
    destruct (in_kids_split u ks Hu) as (k1 & k & k2 & -> & Hk).
    destruct (Forall2_mid _ _ _ _ _ G) as (m1 & m & m2 & Em & Lm & Fk & _).
    apply (erec_zero _ _ _ _ _ _ _ _ _ _ m1 m m2); auto.
    + rewrite EB. symmetry. apply exchanged_shape. auto.
    + cbn [others]. rewrite exchanged_shape by auto. auto.
    + intros p' q' Hp' Hq'. unfold ekid. assert (Hin : In k (k1 ++ k :: k2)) by (apply in_app_iff; right; left; auto).
      rewrite Forall_forall in IH, Fo. eapply (IH k Hin); eauto.
      * rewrite flat_map_app in ND'. apply NoDup_app_r in ND'. cbn [flat_map] in ND'. eapply NoDup_app_l; eauto.
      * intros x Hx. apply N'. apply in_flat_map. eauto.
Qed.

(** ** The tensor on top *)
Lemma top_sum A B t k1 k k2 : length k1 = k_i k -> (k_i k < ndim (A t))%nat -> shape (B t) = shape (A t) ->
  Forall2 (plain A B) (k1 ++ k2) (del (k_i k) (shape (A t))) ->
  erec K A B unitm None (Nd t (k1 ++ k :: k2)) O O =
  sumn (nth (k_i k) (shape (A t)) O) (fun p => sumn (nth (k_i k) (shape (A t)) O) (fun q => ekid K A B unitm k p q * crossed (B t) (A t) (k_i k) q p)).
Proof.
  intros L Hi S PL. rewrite (erec_split K A B unitm t k1 k2 k) by (auto; unfold ndim; rewrite ?S; auto). rewrite S.
  apply sumn_ext. intros p _. apply sumn_ext. intros q _. f_equal.
  rewrite (plain_sum A B (k1 ++ k2) _ (fun x y => get (A t) (ins (k_i k) p x) * get (B t) (ins (k_i k) q y)) PL).
  unfold crossed. apply sumL_ext. intros x. ring.
Qed.
Lemma top_root A B r ks : shape (B r) = shape (A r) -> Forall2 (plain A B) ks (shape (A r)) ->
  erec K A B unitm None (Nd r ks) O O = pairing (B r) (A r).
Proof.
  intros S PL. cbn [erec others full]. rewrite S. change (fun k : kid => erec K A B unitm (Some (k_j k)) (k_t k)) with (ekid K A B unitm).
  rewrite (plain_sum A B ks _ (fun x y => get (A r) x * get (B r) y) PL). unfold pairing. apply sumL_ext. intros x. ring.
Qed.

Lemma overlap_erec A B t : fits A None O t -> fits B None O t -> NoDup (lids t) -> Net_Spec.inner t = true -> ldims B None O t = ldims A None O t ->
  overlap A B t = erec K A B unitm None t O O.
Proof.
  intros FA FB ND In_ E. rewrite (erec_env K A B unitm t None O O) by (auto; congruence). unfold env_dense, overlap. rewrite E.
  apply sum_indices_ext. intros v Hv. unfold unitm.
  symmetry. apply (delta_sum K (lids t) (ldims A None O t) v (fun w => amp A (asg (lids t) v) None t O * amp B (asg (lids t) w) None t O)); auto.
  apply ldims_length. auto.
Qed.
Lemma changed_fits A R u x t f : wf x -> shape x = shape (A u) -> wf f -> shape f = shape (A t) -> (forall n, In n (nids R) -> wf (A n)) -> fits A None O R ->
  fits (exchanged A u x) None O R /\ fits (varied A t f) None O R.
Proof.
  intros Wx Sx Wf Sf WA F. split; apply (fits_shapes A); auto; intros n Hn.
  - split; [|apply exchanged_shape; auto]. unfold exchanged. destruct (n =? u); auto.
  - split; [|apply varied_shape; auto]. unfold varied. destruct (n =? t); auto. apply wf_conj; auto.
Qed.
Lemma fits_wf A : forall t ax d, fits A ax d t -> forall n, In n (nids t) -> wf (A n).
Proof.
  induction t as [n|n ks IH] using tree_ind'; intros ax d F x Hx; [destruct Hx|]. inversion F as [|? ? ? ? W P X I G]; subst.
  cbn [nids] in Hx. destruct Hx as [<-|Hx]; auto. clear -IH G Hx. induction G as [|k m ks ms Hk G IHG]; [destruct Hx|]. inversion IH; subst.
  cbn [flat_map] in Hx. apply in_app_iff in Hx. destruct Hx as [Hx|Hx]; [eapply H1; eauto|auto].
Qed.
Lemma overlap_changed A R u x t f : fits A None O R -> NoDup (lids R) -> Net_Spec.inner R = true -> wf x -> shape x = shape (A u) -> wf f -> shape f = shape (A t) ->
  overlap (exchanged A u x) (varied A t f) R = erec K (exchanged A u x) (varied A t f) unitm None R O O.
Proof.
  intros F ND I Wx Sx Wf Sf. destruct (changed_fits A R u x t f) as (F1 & F2); auto; [eapply fits_wf; eauto|].
  apply overlap_erec; auto. rewrite varied_ldims, exchanged_ldims; auto.
Qed.
Lemma overlap_plain A R t f : overlap A (varied A t f) R = overlap (exchanged A t (A t)) (varied A t f) R.
Proof.
  assert (E : forall n, exchanged A t (A t) n = A n) by (intros n; unfold exchanged; destruct (Nat.eqb_spec n t) as [->|]; auto).
  unfold overlap. rewrite (ldims_agree K A (exchanged A t (A t))) by (intros; now rewrite E).
  apply sumL_ext. intros v. unfold dense. rewrite (amp_arrays K A (exchanged A t (A t))) by auto. reflexivity.
Qed.
End DirectAlg.
