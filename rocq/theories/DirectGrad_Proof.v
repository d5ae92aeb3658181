(** Gradient, density and projection at one tensor. *)
From Coq Require Import String List Arith Bool Lia Permutation.
From Verif Require Import Py Alg ListX NdArray_Model NdArray_Proof Contract_Model Contract_Spec Contract_Proof Mode_Proof Net_Model Net_Spec Sweep_Spec Trav_Proof Acyc_Proof
  Link_Spec Link_Proof Env_Spec Env_Proof TEnv_Proof EnvSem_Proof EnvThm_Proof Unite_Proof State_Spec State_Proof Cache_Model Cache_Spec Cache_Proof CacheExact_Proof Reroot_Proof Eom_Spec Eom_Proof Direct_Model Direct_Spec
  DirectAlg_Proof DirectSem_Proof.
Import ListNotations.
Local Open Scope nat_scope.
Local Open Scope list_scope.

Section DirectGrad.
Variable K : StarRing.
Add Ring Kring_dgrad : (r_theory K).
Implicit Types h : heap K.
Implicit Types A B : id -> arr K.

(** ** Projection *)
Lemma arr_sub_ok (a b : arr K) : wf a -> wf b -> shape a = shape b ->
  arr_sub K a b = Ok (build (shape a) (fun idx => rsub (get a idx) (get b idx))).
Proof.
  intros Ha Hb E. unfold arr_sub.
  destruct (list_eq_dec Nat.eq_dec (shape a) (shape b)) as [_|N]; [|contradiction].
  f_equal. apply eq_build.
  - unfold wf in *; cbn. rewrite map_length, combine_length. rewrite <- E in Hb. lia.
  - reflexivity.
  - intros idx Hi. unfold get; cbn. unfold wf in *.
    replace (r0 : K) with ((fun p : K * K => rsub (fst p) (snd p)) (r0, r0)) at 1 by (cbn; ring).
    rewrite (map_nth (fun p : K * K => rsub (fst p) (snd p))).
    rewrite combine_nth by (rewrite <- E in Hb; lia). cbn. rewrite E. reflexivity.
Qed.
Lemma upd_ins i (x y : nat) l : i <= length l -> upd i x (ins i y l) = ins i x l.
Proof. intros Hi. rewrite upd_eq by (rewrite length_ins; lia). now rewrite del_ins. Qed.
Lemma upd_same_len i d (l : list nat) : i < length l -> nth i l 0 = d -> upd i d l = l.
Proof. intros Hi <-. apply upd_same. Qed.

Local Open Scope star_scope.
Lemma project_sem (a : arr K) ax m T d : wf a -> (ax < ndim a)%nat -> nth ax (shape a) O = d -> d <> O -> isometric a ax -> is_matrix m d d -> wf T -> shape T = shape a ->
  exists X, project K a ax m T = Ok X /\ wf X /\ shape X = shape a /\
    (forall p q, (p < d)%nat -> (q < d)%nat -> crossed (arr_conj a) X ax p q = 0) /\
    forall rho f, inverse_of m rho d -> (forall p q, (p < d)%nat -> (q < d)%nat -> crossed f a ax p q = 0) ->
      joined K (fun p q => get rho [p; q]) d ax f X = pairing f T.
Proof.
  intros Wa Hax Ed Hd Iso (Wm & Sm) WT ST. unfold project.
  rewrite (pp_mode0 K T ax m d d) by (auto; unfold ndim in *; rewrite ?ST; auto). cbn [bind].
  set (T1 := mode0 T ax m).
  assert (W1 : wf T1) by apply wf_build.
  assert (S1 : shape T1 = shape a).
  { unfold T1, mode0. rewrite shape_build, Sm. cbn [nth]. rewrite ST. apply upd_same_len; auto. }
  assert (G1 : forall p y, (p < d)%nat -> in_range y (del ax (shape a)) -> get T1 (ins ax p y) = sumn d (fun b => get T (ins ax b y) * get m [b; p])).
  { intros p y Hp Hy. assert (Ly : (ax <= length y)%nat) by (rewrite (in_range_len _ _ Hy), length_del by exact Hax; unfold ndim in Hax; lia).
    unfold T1. rewrite get_mode0.
    - rewrite ST, Ed. apply sumn_ext. intros b _. rewrite upd_ins, nth_ins_eq by auto. reflexivity.
    - rewrite Sm. cbn [nth]. rewrite ST, upd_same_len by auto. apply in_range_ins_del; auto. rewrite Ed. auto. }
  destruct (partial_trace_ok K T1 ax (arr_conj a) ax) as (c & Ec & Wc & Sc & Gc); auto.
  { apply wf_conj; auto. } { unfold ndim. rewrite S1. auto. } { rewrite S1. reflexivity. } { rewrite S1, Ed. auto. } { cbn [arr_conj shape]. rewrite Ed. auto. }
  change (shape (arr_conj a)) with (shape a) in Sc, Gc. rewrite S1, Ed in Sc, Gc.
  rewrite Ec. cbn [bind]. rewrite (pp_mode1 K a ax c d d) by auto. cbn [bind].
  set (P := mode1 a ax c).
  assert (WP : wf P) by apply wf_build.
  assert (SP : shape P = shape a).
  { unfold P, mode1. rewrite shape_build, Sc. cbn [nth]. apply upd_same_len; auto. }
  assert (GP : forall p y, (p < d)%nat -> in_range y (del ax (shape a)) -> get P (ins ax p y) = sumn d (fun b => get a (ins ax b y) * get c [p; b])).
  { intros p y Hp Hy. assert (Ly : (ax <= length y)%nat) by (rewrite (in_range_len _ _ Hy), length_del by exact Hax; unfold ndim in Hax; lia).
    unfold P, mode1. rewrite Sc. cbn [nth]. rewrite get_build.
    - rewrite Ed. apply sumn_ext. intros b _. rewrite upd_ins, nth_ins_eq by auto. reflexivity.
    - rewrite upd_same_len by auto. apply in_range_ins_del; auto. rewrite Ed. auto. }
  rewrite (arr_sub_ok T1 P) by congruence. eexists. split; [reflexivity|]. split; [apply wf_build|]. split; [exact S1|].
  set (X := build (shape T1) _).
  assert (GX : forall p y, (p < d)%nat -> in_range y (del ax (shape a)) -> get X (ins ax p y) = get T1 (ins ax p y) - get P (ins ax p y)).
  { intros p y Hp Hy. unfold X. rewrite get_build; auto. rewrite S1. apply in_range_ins_del; auto. rewrite Ed. auto. }
  change (shape X) with (shape T1) in *.
  split.
  - intros p q Hp Hq. unfold crossed. change (shape X) with (shape T1). rewrite S1.
    transitivity (sumL (indices (del ax (shape a))) (fun x => get T1 (ins ax q x) * get (arr_conj a) (ins ax p x)) -
      sumn d (fun b => delta p b * get c [q; b])).
    + rewrite (sumn_ext K d _ (fun b => sumL (indices (del ax (shape a))) (fun x => rconj (get a (ins ax p x)) * get a (ins ax b x)) * get c [q; b])).
      2:{ intros b Hb. rewrite Iso by (rewrite Ed; auto). reflexivity. }
      rewrite (sumn_ext K d _ (fun b => sumL (indices (del ax (shape a))) (fun x => rconj (get a (ins ax p x)) * get a (ins ax b x) * get c [q; b]))).
      2:{ intros b Hb. rewrite sumL_scal_r. reflexivity. }
      unfold sumn. rewrite sumL_swap, <- sumL_sub. apply sum_indices_ext. intros x Hx. rewrite GX, GP, get_conj by auto.
      unfold sumn. rewrite (sumL_ext K (seq 0 d) (fun y => rconj (get a (ins ax p x)) * get a (ins ax y x) * get c [q; y]) (fun y => rconj (get a (ins ax p x)) * (get a (ins ax y x) * get c [q; y]))) by (intros; ring).
      rewrite sumL_scal_l. ring.
    + rewrite <- Gc by auto. rewrite (sumn_ext K d (fun b => delta p b * get c [q; b]) (fun b => delta b p * get c [q; b])).
      2:{ intros b _. unfold delta. rewrite Nat.eqb_sym. reflexivity. }
      rewrite (sumn_delta K d p (fun b => get c [q; b])) by auto. ring.
  - intros rho f (_ & Inv) Or. unfold joined, crossed. change (shape X) with (shape T1). rewrite S1.
    transitivity (sumn d (fun p => sumn d (fun q => get rho [p; q] * sumL (indices (del ax (shape a))) (fun x => get f (ins ax q x) * get T1 (ins ax p x))))).
    { apply sumn_ext. intros p Hp. apply sumn_ext. intros q Hq. f_equal.
      transitivity (sumL (indices (del ax (shape a))) (fun x => get f (ins ax q x) * get T1 (ins ax p x)) - sumn d (fun b => crossed f a ax q b * get c [p; b])).
      - unfold crossed. rewrite (sumn_ext K d _ (fun b => sumL (indices (del ax (shape a))) (fun x => get f (ins ax q x) * get a (ins ax b x) * get c [p; b]))).
        2:{ intros b Hb. rewrite sumL_scal_r. reflexivity. }
        unfold sumn. rewrite sumL_swap, <- sumL_sub. apply sum_indices_ext. intros x Hx. rewrite GX, GP by auto.
        unfold sumn. rewrite (sumL_ext K (seq 0 d) (fun y => get f (ins ax q x) * get a (ins ax y x) * get c [p; y]) (fun y => get f (ins ax q x) * (get a (ins ax y x) * get c [p; y]))) by (intros; ring).
        rewrite sumL_scal_l. ring.
      - rewrite (sumn_zero K d (fun b => crossed f a ax q b * get c [p; b])); [ring|]. intros b Hb. rewrite Or by auto. ring. }
    unfold pairing. rewrite ST. rewrite (sum_indices_del K ax) by exact Hax. rewrite Ed.
    transitivity (sumn d (fun q => sumL (indices (del ax (shape a))) (fun x => get f (ins ax q x) * sumn d (fun b => delta b q * get T (ins ax b x))))).
    2:{ apply sumn_ext. intros q Hq. apply sumL_ext. intros x. rewrite (sumn_delta K d q (fun b => get T (ins ax b x))) by auto. reflexivity. }
    rewrite sumn_swap. apply sumn_ext. intros q Hq.
    transitivity (sumn d (fun p => sumL (indices (del ax (shape a))) (fun x => get rho [p; q] * (get f (ins ax q x) * get T1 (ins ax p x))))).
    { apply sumn_ext. intros p Hp. rewrite sumL_scal_l. reflexivity. }
    unfold sumn at 1. rewrite sumL_swap. apply sum_indices_ext. intros x Hx.
    transitivity (sumn d (fun p => sumn d (fun b => get rho [p; q] * (get f (ins ax q x) * (get T (ins ax b x) * get m [b; p]))))).
    { apply sumn_ext. intros p Hp. rewrite G1 by auto. rewrite <- !sumn_scal_l. reflexivity. }
    rewrite sumn_swap, <- sumn_scal_l. apply sumn_ext. intros b Hb. rewrite <- (Inv b q Hb Hq).
    rewrite <- sumn_scal_r, <- sumn_scal_l. apply sumn_ext. intros p _. ring.
Qed.
Local Close Scope star_scope.

(** ** Flags of tensors without an axis do not matter for other axes *)
Lemma tenv_flag h h' : forall t j, (forall x, In x (ids t) -> oarr (hget h' x) = oarr (hget h x) /\ oaxis (hget h' x) = oaxis (hget h x) /\
    (onorm (hget h' x) = onorm (hget h x) \/ oaxis (hget h x) = None)) ->
  tenv K h' false (Some j) t = tenv K h false (Some j) t.
Proof.
  induction t as [n|n ks IH] using tree_ind'; intros j E; cbn [tenv].
  - destruct (E n ltac:(left; auto)) as (-> & _). auto.
  - rewrite (emap_ext _ (fun k => tenv K h false (Some (k_j k)) (k_t k))).
    + destruct (emap _ _ ks) as [es|]; cbn [bind]; auto. destruct (E n ltac:(left; auto)) as (E1 & E2 & E3). unfold env_body. rewrite E1, E2.
      destruct E3 as [->|E3]; auto. rewrite E3. cbn [opt_eqb negb andb]. reflexivity.
    + intros k Hk. rewrite Forall_forall in IH. apply IH; auto. intros x Hx. apply E. right. apply in_flat_map. eauto.
Qed.
Definition unflag (o : obj K) : obj K := mkObj (oname o) (oleaf o) (oarr o) (oaux o) (oaxis o) false (oacc o) (ocache o).
Lemma unflag_get h r x : r < length h -> let o := hget (modify h r unflag) x in
  oleaf o = oleaf (hget h x) /\ oarr o = oarr (hget h x) /\ oaxis o = oaxis (hget h x) /\ oacc o = oacc (hget h x) /\
  (x <> r -> onorm o = onorm (hget h x)) /\ (x = r -> onorm o = false).
Proof.
  intros Hr. cbn zeta. destruct (Nat.eq_dec x r) as [->|N].
  - rewrite hget_modify_eq by auto. cbn. repeat split; auto. congruence.
  - rewrite hget_modify_neq by auto. repeat split; auto. congruence.
Qed.
Lemma dressed_flag h r term x : r < length h -> oaxis (hget h r) = None -> x < length h ->
  oarr (hget (dressed (modify h r unflag) term) x) = oarr (hget (dressed h term) x) /\
  oaxis (hget (dressed (modify h r unflag) term) x) = oaxis (hget (dressed h term) x) /\
  (onorm (hget (dressed (modify h r unflag) term) x) = onorm (hget (dressed h term) x) \/ oaxis (hget (dressed h term) x) = None).
Proof.
  intros Hr Er Hx. destruct (unflag_get h r x Hr) as (E1 & E2 & E3 & E4 & E5 & E6). rewrite !dressed_get by (rewrite ?length_modify; auto). rewrite E1.
  destruct (Nat.eq_dec x r) as [->|N]; destruct (oleaf (hget h _)); cbn; auto.
Qed.

Lemma erec_mat A B M M' : forall t ax p q, (forall l, In l (lids t) -> forall p q, M' l p q = M l p q) -> erec K A B M' ax t p q = erec K A B M ax t p q.
Proof.
  induction t as [n|n ks IH] using tree_ind'; intros ax p q E; cbn [erec]. { apply E. left. auto. }
  apply sumL_ext. intros x. apply sumL_ext. intros y. f_equal.
  assert (E' : forall l, In l (flat_map (fun k => lids (k_t k)) ks) -> forall p q, M' l p q = M l p q) by (intros l Hl; apply E; auto).
  clear E. revert x y. induction IH as [|k ks Hk _ IHk]; intros [|v x] [|w y]; cbn [map zprod2]; auto.
  f_equal; [apply Hk|apply IHk]; intros m Hm; apply E'; cbn [flat_map]; apply in_app_iff; auto.
Qed.

Section Net.
Variable h : heap K.
Variable r : id.
Variable ks0 : list kid.
Variable A : id -> arr K.
Notation R := (Nd r ks0).
Hypothesis H : hangs h None R.
Hypothesis ND : NoDup (ids R).
Hypothesis F : fits A None 0 R.
Hypothesis DO : dicts_ok h.
Hypothesis O : oriented h None R.
Hypothesis Ar : forall n, In n (nids R) -> oarr (hget h n) = Some (A n).
Hypothesis U : forall n, In n (nids R) -> n <> r -> onorm (hget h n) = true -> unit_along (A n) (oaxis (hget h n)).
Let hf := modify h r unflag.

Lemma r_lt : r < length h.
Proof. apply (hangs_lt K h None R H). left. auto. Qed.
Lemma r_axis : oaxis (hget h r) = None.
Proof. inversion O; auto. Qed.
Lemma hf_hangs up t : hangs h up t -> hangs hf up t.
Proof. apply hangs_same. intros n. destruct (unflag_get h r n r_lt) as (E1 & _ & _ & E4 & _). auto. Qed.
Lemma net_nids R' : same_net K h R R' -> forall x, In x (nids R') <-> In x (nids R).
Proof.
  intros Sn x. assert (Q : forall T up, hangs h up T -> forall x, In x (nids T) <-> In x (ids T) /\ oleaf (hget h x) = false).
  { intros T up HT y. split.
    - intros Hy. split; [apply nids_ids; auto|eapply nids_inner; eauto].
    - intros (Hy & L). eapply Permutation_in in Hy; [|apply ids_split]. apply in_app_iff in Hy. destruct Hy as [|Hy]; auto.
      pose proof (lids_leaf K h T up HT y Hy). congruence. }
  rewrite (Q R None H), (Q _ None (sn_hangs K h _ _ Sn)).
  split; intros (X & Y); split; auto; [eapply Permutation_in; [apply Permutation_sym, (sn_perm K h _ _ Sn)|auto]|eapply Permutation_in; [apply (sn_perm K h _ _ Sn)|auto]].
Qed.
Lemma papply_flag (term : list (id * arr K)) t ks : same_net K h R (Nd t ks) -> forall l tmp, papply K (dressed hf term) ks l tmp = papply K (dressed h term) ks l tmp.
Proof.
  intros Sn. induction l as [|i l IH]; intros tmp; cbn [papply]; auto.
  replace (penv K (dressed hf term) ks i) with (penv K (dressed h term) ks i).
  - destruct (penv K (dressed h term) ks i); cbn [bind]; auto. destruct (pp_all _ _); cbn [bind]; auto.
  - unfold penv. destruct (find _ ks) as [k|] eqn:Fk; auto. apply find_some in Fk. destruct Fk as (Hk & _). symmetry.
    apply tenv_flag. intros x Hx. apply dressed_flag; [apply r_lt|apply r_axis|].
    apply (hangs_lt K h None _ (sn_hangs K h _ _ Sn)). right. apply in_flat_map. eauto.
Qed.
Lemma element_net A' B R' term : same_net K h R R' -> fits A' None 0 R -> fits B None 0 R -> Net_Spec.inner R' = true -> element A' B R' term = element A' B R term.
Proof.
  intros Sn FA FB I. 
  assert (N : NoDup (lids R)) by (rewrite <- (filter_leaves K h None R H); apply NoDup_filter; auto).
  assert (N' : NoDup (lids R')).
  { rewrite <- (filter_leaves K h None R' (sn_hangs K h _ _ Sn)). apply NoDup_filter. eapply Permutation_NoDup; [apply (sn_perm K h _ _ Sn)|auto]. }
  rewrite <- (env_dense_element K h R' A' B term None (sn_hangs K h _ _ Sn)), <- (env_dense_element K h R A' B term None H).
  rewrite <- !erec_env; auto; try discriminate; try (apply (sn_fits K h _ _ Sn); auto); [|congruence]. apply (sn_erec K h _ _ Sn); auto.
Qed.
Lemma element_root A' B term : element A' B R term = element A' B R term. Proof. auto. Qed.

Lemma grad_at t ks term : same_net K h R (Nd t ks) -> suits h R A term -> forallb (fun p => oleaf (hget h (fst p))) term = true /\
  exists c, papply K (dressed h term) ks (seq 0 (ndim (A t))) (A t) = Ok c /\ wf c /\ shape c = shape (A t) /\
    forall f, wf f -> shape f = shape (A t) -> pairing f c = element A (varied A t f) R term.
Proof.
  intros Sn (S1 & S2). pose proof (sn_hangs K h _ _ Sn) as Ht. pose proof (hf_hangs _ _ Ht) as Htf.
  assert (N' : NoDup (ids (Nd t ks))) by (eapply Permutation_NoDup; [apply (sn_perm K h _ _ Sn)|auto]).
  destruct (term_grad K hf t ks A term Htf N') as (L & c & E & Wc & Sc & G).
  - rewrite <- (filter_leaves K hf None _ Htf). apply NoDup_filter. auto.
  - apply (sn_fits K h _ _ Sn). auto.
  - intros n Hn. assert (Hin : In n (nids R)) by (apply (net_nids _ Sn); right; auto).
    destruct (unflag_get h r n r_lt) as (E1 & E2 & E3 & E4 & E5 & E6). fold hf in E1, E2, E3, E4, E5, E6. rewrite E2, E3. split; auto.
    destruct (Nat.eq_dec n r) as [->|Nr]; [rewrite E6 by auto; discriminate|]. rewrite E5 by auto. auto.
  - split.
    + intros l m Hin. destruct (unflag_get h r l r_lt) as (E1 & _). fold hf in E1. rewrite E1. eauto.
    + apply (same_net_leaves K h R _ A _ Sn F). exact S2.
  - split.
    + rewrite <- L. apply forallb_same. intros p. destruct (unflag_get h r (fst p) r_lt) as (E1 & _). fold hf in E1. auto.
    + exists c. rewrite <- (papply_flag term t ks Sn). do 3 (split; auto). intros f Wf Sf. rewrite G by auto.
      apply element_net; auto. apply (fits_shapes K A); auto. intros n Hn. split; [|apply varied_shape; auto].
      unfold varied. destruct (n =? t); auto. apply wf_conj. eapply fits_wf; eauto.
Qed.

Lemma density_at t k1 k k2 : view K h r ks0 A t k1 k k2 -> exists rho, tenv K (dressed h []) false (Some (k_j k)) (k_t k) = Ok (Some rho) /\
  is_matrix rho (nth (k_i k) (shape (A t)) 0) (nth (k_i k) (shape (A t)) 0) /\
  forall p q, p < nth (k_i k) (shape (A t)) 0 -> q < nth (k_i k) (shape (A t)) 0 -> get rho [p; q] = through K A t k p q.
Proof.
  intros V. pose proof V as (Sn & Ea & Fo & In_ & Aw & L & Hi & G & Fk). set (d := nth (k_i k) (shape (A t)) 0) in *.
  pose proof (sn_hangs K h _ _ Sn) as Ht. assert (Hk : In k (k1 ++ k :: k2)) by (apply in_app_iff; right; left; auto).
  destruct (hangs_kids K h None t _ Ht) as (_ & FH & _). rewrite Forall_forall in FH. pose proof (FH k Hk) as Hu. pose proof (hf_hangs _ _ Hu) as Huf.
  assert (Sub : incl (ids (k_t k)) (ids R)).
  { intros x Hx. eapply Permutation_in; [apply Permutation_sym, (sn_perm K h _ _ Sn)|]. right. apply in_flat_map. eauto. }
  destruct (tenv_sem K (dressed hf []) false A (fun n => arr_conj (A n)) (k_t k) (Some (k_j k)) d d Fk (fits_conj K A _ _ _ Fk)) as (v & Ev & Hv).
  - intros n Hn. assert (Hin : In n (nids R)). { apply (net_nids _ Sn). right. apply in_flat_map. eauto. }
    pose proof (nids_inner K h R None H n Hin) as Ln.
    destruct (unflag_get h r n r_lt) as (E1 & E2 & E3 & E4 & E5 & E6). fold hf in E1, E2, E3, E4, E5, E6.
    unfold node_ok. rewrite dressed_get by (unfold hf; rewrite length_modify; apply (hangs_lt K h None R H); apply nids_ids; auto).
    rewrite E1, Ln. cbn [put_cache oarr onorm oaxis]. rewrite E2, E3. split; auto. split; auto.
    destruct (Nat.eq_dec n r) as [->|Nr]; [rewrite E6 by auto; discriminate|]. rewrite E5 by auto. auto.
  - rewrite ldims_conj, combine_self. apply Forall2_map_r. cbn [fst snd]. apply (dressed_fits K hf (k_t k) A [] (Some (k_j k, (t, k_i k)))); auto.
    pose proof (ldims_length K A (k_t k) _ _ Fk) as Ll. revert Ll. generalize (lids (k_t k)) (ldims A (Some (k_j k)) d (k_t k)). clear.
    induction l as [|x l IH]; intros [|y m] Ll; cbn in Ll; try discriminate; constructor; cbn; auto.
  - assert (Ef : tenv K (dressed h []) false (Some (k_j k)) (k_t k) = Ok v).
    { rewrite <- Ev. symmetry. apply tenv_flag. intros x Hx. apply dressed_flag; [apply r_lt|apply r_axis|]. apply (hangs_lt K h None R H). auto. }
    destruct v as [rho|].
    + exists rho. split; auto. destruct Hv as (W & S & Hg). split; [split; auto|]. intros p q Hp Hq. rewrite <- Hg by auto. unfold through, ekid.
      apply erec_mat. intros l Hl p' q'. rewrite dressed_lmat; auto.
      * apply (hangs_lt K hf _ _ Huf). rewrite <- (filter_leaves K hf _ _ Huf) in Hl. apply filter_In in Hl. apply Hl.
      * rewrite <- (filter_leaves K hf _ _ Huf) in Hl. apply filter_In in Hl. apply Hl.
    + exfalso. clear Hv. destruct (k_t k) as [x|x cks] eqn:Ek; [discriminate|]. cbn [top] in Aw. cbn [tenv] in Ef.
      destruct (emap _ _ cks) as [es|]; [|discriminate]. cbn [bind] in Ef. unfold env_body in Ef.
      assert (Lx : x < length h) by (apply (hangs_lt K h None R H); apply Sub; left; auto).
      assert (Ex : opt_eqb (Some (k_j k)) (oaxis (hget (dressed h []) x)) = false).
      { rewrite dressed_get by auto. pose proof (hangs_leafness K h _ _ Hu) as Lf. cbn [top Net_Spec.inner negb] in Lf. rewrite Lf. cbn [put_cache oaxis].
        destruct (oaxis (hget h x)) as [y|]; auto. cbn [opt_eqb]. apply Nat.eqb_neq. congruence. }
      rewrite Ex in Ef. cbn [negb andb] in Ef. destruct (oarr _) as [a|]; [|discriminate]. destruct (pp_all a es) as [tm|]; [|discriminate]. cbn [bind] in Ef.
      destruct (partial_trace _ _ _ _) as [y|]; [|discriminate]. cbn [bind env_out] in Ef. discriminate.
Qed.
End Net.
End DirectGrad.
