(** The environments and densities that a step starts with, and the step. *)
From Coq Require Import String List Arith Bool Lia Permutation.
From Verif Require Import Py Alg ListX NdArray_Model NdArray_Proof Contract_Model Contract_Spec Contract_Proof Mode_Proof Net_Model Net_Spec Sweep_Spec Trav_Proof Acyc_Proof Contraction_Proof
  Link_Spec Link_Proof Env_Spec Env_Proof TEnv_Proof EnvSem_Proof EnvThm_Proof Unite_Proof State_Spec State_Proof Cache_Model Cache_Spec Cache_Proof CacheExact_Proof Reroot_Proof Eom_Spec Eom_Proof Direct_Model Direct_Spec
  DirectAlg_Proof DirectSem_Proof DirectGrad_Proof DirectRun_Proof DirectThm_Proof Rk4_Spec Rk4_Model Rk4_Proof.
Import ListNotations.
Local Open Scope nat_scope.
Local Open Scope list_scope.

Lemma fill_total (K : StarRing) fuel n : forall l (s s' : state K), fill K fuel n l s = Ok s' ->
  (forall t i, In (t, i) l -> senv K s' n t i <> None) /\ (forall m t i, senv K s m t i <> None -> senv K s' m t i <> None).
Proof.
  induction l as [|(t, i) l IH]; intros s s' E; cbn [fill] in E; [injection E as <-; split; [intros t i []|auto]|].
  destruct (partial_env_proper fuel false (sheap K s) t i) as [(v, h)|]; [|discriminate]. cbn [bind] in E.
  destruct (IH _ _ E) as (I1 & I2). cbn [senv] in I2.
  assert (M : forall m t' i', senv K s m t' i' <> None -> env_put K (senv K s) n t i v m t' i' <> None).
  { intros m t' i' H. unfold env_put. destruct (same_key n t i m t' i'); [discriminate|auto]. }
  split; [|auto]. intros t' i' [Q|Hin]; [|auto]. injection Q as -> ->. apply I2. rewrite env_put_same. discriminate.
Qed.

Lemma Forall2_in_l {X Y} (P : X -> Y -> Prop) l m x : Forall2 P l m -> In x l -> exists y, In y m /\ P x y.
Proof. induction 1 as [|a b l m H _ IH]; intros []; [subst; exists b; split; [left|]; auto|]. destruct (IH ltac:(auto)) as (y & Hy & Py). exists y. split; [right|]; auto. Qed.

Section Shapes.
Variable K : StarRing.
(** The environments of one term, as matrices. *)
Lemma envs_squares : forall rs sh fs, Env_Proof.envs K rs sh sh fs -> forall pre, squares K (pre ++ sh) (length pre) rs.
Proof.
  assert (G : forall rs da db fs, Env_Proof.envs K rs da db fs -> da = db -> forall pre, squares K (pre ++ da) (length pre) rs).
  { induction 1 as [|v dA dB f rs dAs dBs fs He Hs IH]; intros Eq pre [|j] m Em; try discriminate; cbn [nth_error] in Em.
    - injection Em as ->. injection Eq as -> <-. rewrite Nat.add_0_r. split; [rewrite app_length; cbn; lia|].
      destruct m as [m|]; cbn [square]; auto. cbn in He. destruct He as (_ & Sm & _). rewrite app_nth2, Nat.sub_diag by lia. exact Sm.
    - injection Eq as -> Eq. specialize (IH Eq (pre ++ [dB]) j m Em). rewrite <- app_assoc, app_length in IH. cbn [app length] in IH.
      replace (length pre + S j) with (length pre + 1 + j) by lia. exact IH. }
  intros rs sh fs He. apply (G _ _ _ _ He eq_refl).
Qed.
Lemma env_mats (hd : heap K) r ks A :
  NoDup (ids (Nd r ks)) -> fits A None 0 (Nd r ks) ->
  (forall n, In n (flat_map (fun k => nids (k_t k)) ks) -> oarr (hget hd n) = Some (A n) /\
     (onorm (hget hd n) = true -> unit_along (A n) (oaxis (hget hd n)))) ->
  Forall2 (fun l d => leaf_fits hd false l d d) (lids (Nd r ks)) (ldims A None 0 (Nd r ks)) ->
  exists rs, Forall2 (fun i v => penv K hd ks i = Ok v) (seq 0 (ndim (A r))) rs /\ squares K (shape (A r)) 0 rs.
Proof.
  intros ND F N L.
  assert (Hr : ~ In r (flat_map (fun k => nids (k_t k)) ks)).
  { cbn [ids] in ND. inversion ND as [|? ? Nin _]; subst. intros Hin. apply Nin. apply in_flat_map in Hin. destruct Hin as (k & Hk & Hn).
    apply in_flat_map. exists k. split; auto. apply nids_ids; auto. }
  inversion F as [|? ? ? ? WA P X I G]; subst. cbn [others] in I, G.
  set (f := arr_conj (A r)). assert (Sf : shape f = shape (A r)) by reflexivity.
  pose proof (varied_fits K A r f ks Hr (wf_conj K _ WA) Sf F) as FB. inversion FB as [|? ? ? ? WB PB XB IB GB]; subst. cbn [others] in GB.
  assert (Er : varied A r f r = f) by (unfold varied; now rewrite Nat.eqb_refl). rewrite Er, Sf in GB.
  destruct (kids_sem K hd false A (varied A r f) ks (shape (A r)) (shape (A r))) as (rs & Em & En); auto.
  - apply Forall_forall. intros k Hk dA dB F1 F2 N' L'. destruct (tenv_sem K hd false A (varied A r f) (k_t k) (Some (k_j k)) dA dB F1 F2 N' L') as (v & Ev & Hv). eauto.
  - intros n Hn. destruct (N n Hn) as (N1 & N2). split; auto. split; auto. unfold varied.
    destruct (Nat.eqb_spec n r) as [->|]; [contradiction|auto].
  - assert (EG : gdims K (varied A r f) ks (shape (A r)) = gdims K A ks (shape (A r))).
    { pose proof (varied_ldims K A r f (Nd r ks) None 0 Sf) as E. rewrite !ldims_node in E. cbn [others] in E. rewrite Er, Sf in E. exact E. }
    rewrite EG, combine_self. apply Forall2_map_r. cbn [fst snd]. rewrite ldims_node in L. exact L.
  - pose proof (envs_len K _ _ _ _ En) as (Ln1 & _ & Ln). rewrite map_length in Ln.
    assert (DI : NoDup (map k_i ks)) by (rewrite I; apply seq_NoDup).
    pose proof (emap_penv K hd ks DI rs Em ltac:(congruence)) as PE. rewrite I in PE. exists rs. split; auto. apply (envs_squares rs _ _ En []).
Qed.

Variable h : heap K.
Variable r : id.
Variable ks0 : list (nat * tree * nat).
Variable A : id -> arr K.
Notation R := (Nd r ks0).
Hypothesis H : hangs h None R.
Hypothesis ND : NoDup (ids R).
Hypothesis F : fits A None 0 R.
Hypothesis O : oriented h None R.
Hypothesis Ar : forall n, In n (nids R) -> oarr (hget h n) = Some (A n).
Hypothesis U : forall n, In n (nids R) -> n <> r -> onorm (hget h n) = true -> unit_along (A n) (oaxis (hget h n)).

Lemma mats_at t ks term : same_net K h R (Nd t ks) -> suits h R A term ->
  exists rs, Forall2 (fun i v => penv K (dressed h term) ks i = Ok v) (seq 0 (ndim (A t))) rs /\ squares K (shape (A t)) 0 rs.
Proof.
  intros Sn (S1 & S2). pose proof (sn_hangs K h _ _ Sn) as Ht. pose proof (hf_hangs K h r ks0 H _ _ Ht) as Htf. pose proof (r_lt K h r ks0 H) as Lr.
  set (hf := modify h r (unflag K)) in *.
  assert (N' : NoDup (ids (Nd t ks))) by (eapply Permutation_NoDup; [apply (sn_perm K h _ _ Sn)|auto]).
  assert (Ft : fits A None 0 (Nd t ks)) by (apply (sn_fits K h _ _ Sn); auto).
  destruct (env_mats (dressed hf term) t ks A N' Ft) as (rs & PE & Sq).
  - intros n Hn. assert (Hin : In n (nids R)) by (apply (net_nids K h r ks0 H _ Sn); right; auto).
    assert (Lf : oleaf (hget h n) = false) by (eapply nids_inner; [exact H|exact Hin]).
    destruct (unflag_get K h r n Lr) as (E1 & E2 & E3 & E4 & E5 & E6). fold hf in E1, E2, E3, E4, E5, E6.
    rewrite dressed_get by (unfold hf; rewrite length_modify; apply (hangs_lt K h None R H); apply nids_ids; auto).
    rewrite E1, Lf. cbn [put_cache oarr onorm oaxis]. rewrite E2, E3. split; auto.
    destruct (Nat.eq_dec n r) as [->|Nr]; [rewrite E6 by auto; discriminate|]. rewrite E5 by auto. auto.
  - apply (dressed_fits K hf _ A term None); auto. apply (same_net_leaves K h R _ A _ Sn F). exact S2.
  - exists rs. split; auto. clear Sq. revert PE. generalize (seq 0 (ndim (A t))). intros l PE. induction PE as [|i v l rs' Pi _ IH]; constructor; auto.
    rewrite <- Pi. unfold penv. destruct (find _ ks) as [k|] eqn:Fk; auto. apply find_some in Fk. destruct Fk as (Hk & _). symmetry.
    apply tenv_flag. intros x Hx. apply dressed_flag; [auto|apply (r_axis K h r ks0 O)|].
    apply (hangs_lt K h None _ (sn_hangs K h _ _ Sn)). right. apply in_flat_map. eauto.
Qed.

(** The matrices applied to any array [y] in the place of the one of [t]. *)
Lemma mean_at t ks term : same_net K h R (Nd t ks) -> suits h R A term -> forall y, wf y -> shape y = shape (A t) ->
  exists c, papply K (dressed h term) ks (seq 0 (ndim (A t))) y = Ok c /\ wf c /\ shape c = shape (A t) /\
    forall f, wf f -> shape f = shape (A t) -> pairing f c = element (exchanged A t y) (varied A t f) R term.
Proof.
  intros Sn (S1 & S2) y Wy Sy. pose proof (sn_hangs K h _ _ Sn) as Ht. pose proof (hf_hangs K h r ks0 H _ _ Ht) as Htf. pose proof (r_lt K h r ks0 H) as Lr.
  set (hf := modify h r (unflag K)) in *.
  assert (N' : NoDup (ids (Nd t ks))) by (eapply Permutation_NoDup; [apply (sn_perm K h _ _ Sn)|auto]).
  assert (Ft : fits A None 0 (Nd t ks)) by (apply (sn_fits K h _ _ Sn); auto).
  assert (Nk : ~ In t (flat_map (fun k => nids (k_t k)) ks)).
  { cbn [ids] in N'. inversion N' as [|? ? Nin _]; subst. intros Hin. apply Nin. apply in_flat_map in Hin. destruct Hin as (k & Hk & Hn).
    apply in_flat_map. exists k. split; auto. apply nids_ids; auto. }
  assert (Fx : fits (exchanged A t y) None 0 (Nd t ks)) by (apply exchanged_fits; auto).
  assert (FR : fits (exchanged A t y) None 0 R).
  { apply (fits_shapes K A); auto. intros n Hn. split; [|apply exchanged_shape; auto]. destruct (Nat.eq_dec n t) as [->|Nn]; [rewrite exchanged_eq; auto|].
    rewrite exchanged_ne by auto. apply (fits_wf K A R None 0 F n Hn). }
  destruct (term_grad K hf t ks (exchanged A t y) term Htf N') as (L & c & E & Wc & Sc & G).
  - rewrite <- (filter_leaves K hf None _ Htf). apply NoDup_filter. auto.
  - auto.
  - intros n Hn. assert (Nt : n <> t) by (intros ->; auto). assert (Hin : In n (nids R)) by (apply (net_nids K h r ks0 H _ Sn); right; auto).
    destruct (unflag_get K h r n Lr) as (E1 & E2 & E3 & E4 & E5 & E6). fold hf in E1, E2, E3, E4, E5, E6. rewrite E2, E3, exchanged_ne by auto. split; auto.
    destruct (Nat.eq_dec n r) as [->|Nr]; [rewrite E6 by auto; discriminate|]. rewrite E5 by auto. auto.
  - split.
    + intros l m Hin. destruct (unflag_get K h r l Lr) as (E1 & _). fold hf in E1. rewrite E1. eauto.
    + rewrite exchanged_ldims by auto. apply (same_net_leaves K h R _ A _ Sn F). exact S2.
  - rewrite exchanged_eq in E, Sc, G. unfold ndim in *. rewrite Sy in E. exists c. rewrite <- (papply_flag K h r ks0 H O term t ks Sn). split; auto. split; auto. split; [congruence|].
    intros f Wf Sf. rewrite G by congruence.
    assert (V : forall n, varied (exchanged A t y) t f n = varied A t f n).
    { intros n. unfold varied, exchanged. destruct (Nat.eqb_spec n t) as [->|]; auto. }
    assert (EV : forall T, element (exchanged A t y) (varied (exchanged A t y) t f) T term = element (exchanged A t y) (varied A t f) T term).
    { intros T. unfold element. rewrite (ldims_agree K (varied A t f) (varied (exchanged A t y) t f)) by (intros n _; rewrite V; auto).
      apply sumL_ext. intros v. apply sumL_ext. intros w. f_equal. f_equal. apply (amp_arrays K (varied A t f)). apply V. }
    rewrite EV. apply (element_net K h r ks0 H ND); auto.
    apply (fits_shapes K A); auto. intros n Hn. split; [|apply varied_shape; auto].
    unfold varied. destruct (n =? t); auto. apply wf_conj. apply (fits_wf K A R None 0 F n Hn).
Qed.
End Shapes.

(** The matrices of all terms at [t]. *)
Definition fields {K : StarRing} (e : envs K) (n d : nat) (t : id) : list (list (option (arr K))) :=
  map (fun m => map (fun i => match e m t i with Some v => v | None => None end) (seq 0 d)) (seq 0 n).
Definition axis_with {K : StarRing} (h : heap K) (inv : inverses K) (t : id) : option (nat * arr K) := axis_of K inv (fun t => oaxis (hget h t)) t.

Section Step.
Variable K : StarRing.
Variable T : Type.
Variable sys : system K T.
Variable fuel : nat.
Variable invert : option (arr K) -> nat -> res (arr K).
Variable time : T.
Notation terms := (all_terms K T sys time).
Variable s : state K.
Variable ks0 : list (nat * tree * nat).
Variable A : id -> arr K.
Notation h0 := (sheap K s).
Notation r := (sroot K s).
Notation R := (Nd r ks0).
Hypothesis Can : canonical fuel h0 r ks0 A terms.
Hypothesis Ne : terms <> [].
Hypothesis Yi : yields invert h0 A R.

(** What [_form_env] and [_form_inv_density] leave. *)
Lemma start : exists s1 inv s2, form_env K T sys fuel false time s = Ok s1 /\ form_inv_density K fuel invert s1 = Ok (inv, s2) /\
  ready K T sys inv (senv K s2) r ks0 (fun t => oaxis (hget h0 t)) (fun t => shape (A t)) (fun t => fields (senv K s2) (length terms) (ndim (A t)) t) time /\
  placed K T sys r ks0 (fun t => oaxis (hget h0 t)) (fun t => shape (A t)) time (sheap K s2) A /\ sroot K s2 = r /\ core K h0 (sheap K s2) /\
  (forall t, In t (nids R) -> DirectRun_Proof.good K invert h0 r ks0 A inv t) /\
  forall t n term, In t (nids R) -> nth_error terms n = Some term -> exists ms, nth_error (fields (senv K s2) (length terms) (ndim (A t)) t) n = Some ms /\
    forall y, wf y -> shape y = shape (A t) -> exists c, carries K (shape (A t)) c (everywhere (shape (A t)) 0 ms (get y)) /\
      forall f, wf f -> shape f = shape (A t) -> pairing f c = element (exchanged A t y) (varied A t f) R term.
Proof.
  destruct (can_parts K h0 r ks0 A fuel terms Can) as (H & ND & F & Hf & DO & Or & Ar & Lx & U & Su).
  assert (U' : forall n, In n (nids R) -> n <> r -> onorm (hget h0 n) = true -> unit_along (A n) (oaxis (hget h0 n))) by auto.
  unfold form_env. fold (form_body K fuel). unfold term_visitor. cbn [with_env sheap sroot].
  replace (visitor fuel h0 r None true) with (Ok (ids R)).
  2:{ symmetry. apply (visitor_hangs K h0 R None fuel true H). pose proof (size_height R). lia. }
  cbn [bind]. set (hr := set_all (reset_obj K) h0 (ids R)).
  assert (Net : forall t, In t (nids R) -> exists ks, same_net K h0 R (Nd t ks)) by (intros t Ht; apply reroot_at; auto).
  assert (NK : forall t ks, same_net K h0 R (Nd t ks) -> order h0 t = ndim (A t) /\ map k_i ks = seq 0 (ndim (A t)) /\ oleaf (hget h0 t) = false /\ In t (nids R)).
  { intros t ks Sn. apply (net_kids K h0 r ks0 A H F t ks Sn). }
  rewrite Forall_forall in Su.
  destruct (each_run K fuel h0 r ks0 H Hf (fun n s1 => okall K h0 r ks0 terms (senv K s1) /\ forall m t i, m < n -> In t (nids R) -> i < ndim (A t) -> senv K s1 m t i <> None)
    (form_body K fuel) terms) with (rest := terms) (n := 0) (s := mkState K hr r (no_env K)) as (s1 & E1 & C1 & Cl1 & R1 & Ok1 & Tot1); cbn [sheap sroot senv]; auto; try lia.
  - intros n term s1 Hn B (Ok_ & Tot). unfold form_body. assert (Hs : hangs (sheap K s1) None R) by (eapply core_hangs; [apply B|exact H]).
    replace (visitor fuel (sheap K s1) (sroot K s1) None false) with (Ok (nids R)).
    2:{ symmetry. rewrite (bs_root _ _ _ _ _ _ B). apply (visitor_hangs K (sheap K s1) R None fuel false Hs). pose proof (size_height R). lia. }
    cbn [bind]. assert (Ord : forall t, In t (nids R) -> order (sheap K s1) t = ndim (A t)).
    { intros t Ht. destruct (Net t Ht) as (ks & Sn). rewrite (core_order K h0 (sheap K s1) t (bs_core _ _ _ _ _ _ B)). apply (NK t ks Sn). }
    destruct (fill_any K fuel h0 r ks0 A H F Hf term n (flat_map (fun t => map (fun i => (t, i)) (seq 0 (order (sheap K s1) t))) (nids R)) s1) as (s2 & E & S2 & B2 & O2); auto.
    + apply Forall_forall. intros p Hp. apply in_flat_map in Hp. destruct Hp as (t & Ht & Hp). apply in_map_iff in Hp. destruct Hp as (i & <- & Hi). cbn [fst snd].
      rewrite (Ord t Ht) in Hi. destruct (Net t Ht) as (ks & Sn). destruct (NK t ks Sn) as (_ & E2 & _).
      destruct (mats_at K h0 r ks0 A H ND F Or Ar U' t ks term Sn (Su term (nth_error_In _ _ Hn))) as (rs & PE & _).
      destruct (Forall2_in_l _ _ _ _ PE Hi) as (v & _ & Ev). exists ks, v. rewrite E2. auto.
    + rewrite E. cbn [bind]. exists s2. split; auto. destruct (fill_total K fuel n _ _ _ E) as (Ft & Mono). split; [split|split; [apply shell_sbc; auto|apply B2]].
      * intros m tm Hm. destruct (Nat.eq_dec m n) as [->|Nm]; [assert (tm = term) by congruence; subst; exact O2|]. pose proof (fill_frame K fuel n _ _ _ E) as (_ & _ & Fr).
        intros t ks i v Sn Hi Ev. rewrite Fr in Ev by auto. eapply Ok_; eauto.
      * intros m t i Hm Ht Hi. destruct (Nat.eq_dec m n) as [->|Nm]; [|apply Mono, Tot; auto; lia]. apply Ft. apply in_flat_map. exists t. split; auto.
        rewrite (Ord t Ht). apply in_map_iff. exists i. split; auto. apply in_seq. lia.
  - apply Forall_forall. intros term Ht. destruct (Su term Ht) as (S1 & _). apply forallb_forall. intros (l, m) Hp. cbn [fst]. eauto.
  - apply core_set_all, kept_reset.
  - apply reset_clean. eauto.
  - split; [intros n term _ t ks i v _ _ X; discriminate|intros; lia].
  - change (with_heap K (with_env K s (no_env K)) hr) with (mkState K hr r (no_env K)). rewrite E1. cbn [bind snd].
    destruct (form_inv_run K fuel invert h0 r ks0 A H ND F Hf DO Or Ar Lx U Yi s1 C1 R1) as (inv & s2 & E2 & C2 & R2 & Ee2 & G2).
    exists s1, inv, s2. split; auto. split; auto. rewrite Ee2.
    assert (Tab : forall t n term, In t (nids R) -> nth_error terms n = Some term -> exists ms ks, nth_error (fields (senv K s1) (length terms) (ndim (A t)) t) n = Some ms /\
      length ms = ndim (A t) /\ squares K (shape (A t)) 0 ms /\ same_net K h0 R (Nd t ks) /\ Forall2 (fun i v => penv K (dressed h0 term) ks i = Ok v) (seq 0 (ndim (A t))) ms /\
      forall j v, nth_error ms j = Some v -> senv K s1 n t j = Some v).
    { intros t n term Ht Hn. destruct (Net t Ht) as (ks & Sn). destruct (NK t ks Sn) as (_ & Eks & _).
      destruct (mats_at K h0 r ks0 A H ND F Or Ar U' t ks term Sn (Su term (nth_error_In _ _ Hn))) as (rs & PE & Sq).
      assert (Ln : n < length terms) by (apply nth_error_Some; congruence).
      assert (Em : map (fun i => match senv K s1 n t i with Some v => v | None => None end) (seq 0 (ndim (A t))) = rs /\
        Forall2 (fun i v => senv K s1 n t i = Some v) (seq 0 (ndim (A t))) rs).
      { assert (Z : forall i, In i (seq 0 (ndim (A t))) -> exists v, senv K s1 n t i = Some v /\ penv K (dressed h0 term) ks i = Ok v).
        { intros i Hi. apply in_seq in Hi. destruct (senv K s1 n t i) as [v|] eqn:Ev; [|exfalso; apply (Tot1 n t i); auto; lia]. exists v. split; auto.
          apply (Ok1 n term Hn t ks i v Sn); auto. rewrite Eks. apply in_seq. auto. }
        revert PE Z. generalize (seq 0 (ndim (A t))). clear. intros l PE. induction PE as [|i v l rs Pi PE IH]; intros Z; [split; constructor|].
        destruct (Z i (or_introl eq_refl)) as (v' & Ev & Ev'). assert (v' = v) by congruence. subst v'.
        destruct IH as (I1 & I2). { intros j Hj. apply Z. right. auto. }
        split; [cbn [map]; rewrite Ev, I1; reflexivity|constructor; auto]. }
      destruct Em as (Em & Es). exists rs, ks. split; [|split; [|split; [auto|split; [auto|split; auto]]]].
      - unfold fields. rewrite (map_nth_error _ n (seq 0 (length terms)) (d := n)); [rewrite Em; reflexivity|]. rewrite nth_error_nth' with (d := 0) by (rewrite seq_length; auto).
        rewrite seq_nth by auto. reflexivity.
      - rewrite <- Em, map_length, seq_length. reflexivity.
      - intros j v Hj. assert (Lj : j < ndim (A t)).
        { apply Forall2_len in Es. rewrite seq_length in Es. rewrite Es. apply nth_error_Some. congruence. }
        assert (G : forall l rs, Forall2 (fun i v => senv K s1 n t i = Some v) l rs -> forall j v, nth_error rs j = Some v -> exists i, nth_error l j = Some i /\ senv K s1 n t i = Some v).
        { clear. induction 1 as [|i v l rs Pi _ IH]; intros [|j] w E; try discriminate; cbn [nth_error] in *; [injection E as <-; eauto|auto]. }
        destruct (G _ _ Es j v Hj) as (i & Ei & Ev). rewrite nth_error_nth' with (d := 0) in Ei by (rewrite seq_length; auto). rewrite seq_nth in Ei by auto.
        injection Ei as <-. exact Ev. }
    split; [|split; [|split; [auto|split; [auto|split; [auto|]]]]].
    + constructor.
      * intros t Ht. unfold fields. rewrite map_length, seq_length. reflexivity.
      * intros t n ms Ht Em. destruct (nth_error terms n) as [term|] eqn:Hn.
        -- destruct (Tab t n term Ht Hn) as (ms' & ks & Em' & L' & Sq & _ & _ & Ev). assert (ms' = ms) by congruence. subst ms'. auto.
        -- exfalso. apply nth_error_None in Hn. assert (nth_error (fields (senv K s1) (length terms) (ndim (A t)) t) n = None); [|congruence].
           apply nth_error_None. unfold fields. rewrite map_length, seq_length. auto.
      * intros t a Ht Ea. assert (Nt : t <> r) by (intros ->; rewrite (r_axis K h0 r ks0 Or) in Ea; discriminate).
        destruct (view_exists K h0 r ks0 A H F DO Or t Ht Nt) as (k1 & k & k2 & V). pose proof V as (Sn & Ek & _ & _ & _ & _ & Hi & _ & _).
        assert (k_i k = a) by congruence. subst a. destruct (G2 t Ht _ Ea) as (rho & m & Em & De & Iv).
        destruct (Yi t (k_i k) rho Ht Ea De) as (m' & Em' & (_ & Sm)). assert (m' = m) by congruence. subst m'. split; auto. split; [|eauto].
        pose proof (sn_fits K h0 _ _ Sn A F) as Ft. inversion Ft as [|? ? ? ? _ P _ _ _]; subst.
        rewrite Forall_forall in P. specialize (P _ (nth_In (shape (A t)) 0 Hi)). lia.
    + assert (P0 : placed K T sys r ks0 (fun t => oaxis (hget h0 t)) (fun t => shape (A t)) time h0 A); [|eapply placed_core; eauto].
      constructor; auto.
      * intros t Ht. split; auto. apply (fits_wf K A R None 0 F t Ht).
      * intros t Ht. destruct (Net t Ht) as (ks & Sn). apply (NK t ks Sn).
      * intros term (l, m) Ht Hp. destruct (Su term Ht) as (S1 & _). eapply S1; eauto.
    + intros t n term Ht Hn. destruct (Tab t n term Ht Hn) as (ms & ks & Em & Lm & Sq & Sn & PE & _). exists ms. split; auto. intros y Wy Sy.
      destruct (mean_at K h0 r ks0 A H ND F Or Ar U' t ks term Sn (Su term (nth_error_In _ _ Hn)) y Wy Sy) as (c & Ec & Wc & Sc & Gc). exists c. split; auto.
      rewrite (papply_pp K _ _ _ _ _ PE) in Ec.
      assert (Cy : carries K (shape (A t)) y (get y)) by (rewrite <- Sy; apply carries_self; auto).
      destruct (everywhere_pp K (shape (A t)) ms 0 y _ Sq Cy) as (c' & Ec' & Cc'). rewrite Lm in Ec'. rewrite Ec in Ec'. injection Ec' as <-. exact Cc'.
Qed.
End Step.
