(** Derivatives of the tensors of a network. *)
From Coq Require Import String List Arith Bool Lia.
From Verif Require Import Py Alg ListX NdArray_Model NdArray_Proof Contract_Model Net_Model Net_Spec Trav_Proof Env_Spec Env_Proof TEnv_Proof EnvSem_Proof EnvThm_Proof
  MoveRoot_Proof Move_Spec State_Spec State_Proof Acyc_Proof Link_Proof Cache_Model Cache_Spec Cache_Proof CacheExact_Proof Eom_Spec.
Import ListNotations.
Local Open Scope nat_scope.
Local Open Scope list_scope.
Local Open Scope py_scope.

Section EomProof.
Variable K : StarRing.
Add Ring Kring_eom : (r_theory K).
Implicit Types h : heap K.
Implicit Types A B : id -> arr K.

Lemma papply_pp (hd : heap K) ks : forall l rs tmp, Forall2 (fun i v => penv K hd ks i = Ok v) l rs ->
  papply K hd ks l tmp = pp_all tmp (combine l rs).
Proof.
  intros l rs tmp H. revert tmp. induction H as [|i v l rs E H IH]; intros tmp; cbn [papply combine]; [reflexivity|].
  rewrite E. cbn [bind]. change ((i, v) :: combine l rs) with ([(i, v)] ++ combine l rs). rewrite pp_all_app.
  destruct (pp_all tmp [(i, v)]); cbn [bind]; auto.
Qed.

Lemma emap_penv (hd : heap K) ks : NoDup (map k_i ks) -> forall rs,
  emap (fun k => tenv K hd false (Some (k_j k)) (k_t k)) k_i ks = Ok (combine (map k_i ks) rs) -> length rs = length ks ->
  Forall2 (fun i v => penv K hd ks i = Ok v) (map k_i ks) rs.
Proof.
  intros D rs. 
  assert (G : forall ks', incl ks' ks -> forall rs, emap (fun k => tenv K hd false (Some (k_j k)) (k_t k)) k_i ks' = Ok (combine (map k_i ks') rs) -> length rs = length ks' ->
    Forall2 (fun i v => penv K hd ks i = Ok v) (map k_i ks') rs).
  { induction ks' as [|k ks' IH]; intros Hin [|v rs'] E L; try discriminate; [constructor|]. cbn [emap map combine] in *.
    destruct (tenv K hd false (Some (k_j k)) (k_t k)) as [v'|] eqn:Ev; [|discriminate]. cbn [bind] in E.
    destruct (emap _ k_i ks') as [es|] eqn:Es; [|discriminate]. cbn [bind] in E. injection E as Hv He. subst v' es.
    constructor.
    - unfold penv. destruct (find_kid ks (k_i k)) as (k' & Fk & Hk & Ek); [apply in_map, Hin; left; auto|]. rewrite Fk.
      rewrite (k_unique ks k' k) by (auto; apply Hin; left; auto). exact Ev.
    - apply IH; auto. intros x Hx. apply Hin. right. auto. }
  intros E L. apply G; auto. apply incl_refl.
Qed.

Lemma fits_ext_off A A' t ax d r : ~ In r (nids t) -> (forall n, n <> r -> A' n = A n) -> fits A ax d t -> fits A' ax d t.
Proof. intros Hr E. apply fits_agree. intros n Hn. apply E. congruence. Qed.

Lemma varied_fits A r (f : arr K) ks : ~ In r (flat_map (fun k => nids (k_t k)) ks) -> wf f -> shape f = shape (A r) ->
  fits A None 0 (Nd r ks) -> fits (varied A r f) None 0 (Nd r ks).
Proof.
  intros Hr W S F. inversion F as [|? ? ? ? WA P X I G]; subst.
  assert (E : varied A r f r = f) by (unfold varied; now rewrite Nat.eqb_refl).
  constructor; rewrite ?E; auto; cbn [others]; unfold ndim in *; rewrite ?S; auto.
  cbn [others] in G. clear -G Hr. induction G as [|k m ks ms Hk G IH]; constructor.
  - apply (fits_ext_off (fun n => arr_conj (A n)) _ _ _ _ r).
    + intros Hin. apply Hr. cbn [flat_map]. apply in_app_iff. auto.
    + intros n Hn. unfold varied. apply Nat.eqb_neq in Hn. now rewrite Hn.
    + apply fits_conj. auto.
  - apply IH. intros Hin. apply Hr. cbn [flat_map]. apply in_app_iff. auto.
Qed.
Lemma ldims_agree A A' : forall t ax d, (forall n, In n (nids t) -> shape (A' n) = shape (A n)) -> ldims A' ax d t = ldims A ax d t.
Proof.
  induction t as [n|n ks IH] using tree_ind'; intros ax d E; [reflexivity|].
  rewrite !ldims_node, (E n) by (left; auto). generalize (others ax (shape (A n))) as ms.
  assert (E' : forall m, In m (flat_map (fun k => nids (k_t k)) ks) -> shape (A' m) = shape (A m)) by (intros m Hm; apply E; right; auto).
  clear E. induction IH as [|k ks Hk _ IHk]; intros [|m ms]; cbn [gdims]; auto. rewrite Hk, IHk; auto.
  - intros x Hx. apply E'. cbn [flat_map]. apply in_app_iff. auto.
  - intros x Hx. apply E'. cbn [flat_map]. apply in_app_iff. auto.
Qed.
Lemma varied_ldims A r (f : arr K) t ax d : shape f = shape (A r) -> ldims (varied A r f) ax d t = ldims A ax d t.
Proof. intros S. apply ldims_agree. intros n _. unfold varied. destruct (Nat.eqb_spec n r) as [->|]; auto. Qed.

Lemma combine_self {X} (l : list X) : combine l l = map (fun x => (x, x)) l.
Proof. induction l as [|x l IH]; cbn; congruence. Qed.
Lemma Forall2_map_r {X Y Z} (R : X -> Z -> Prop) (g : Y -> Z) l m : Forall2 (fun x y => R x (g y)) l m -> Forall2 R l (map g m).
Proof. induction 1; cbn; constructor; auto. Qed.

(** The environments of all axes applied to the array of [r] give the derivative of the
    matrix element with respect to the conjugate of that array. *)
Lemma grad_sem (hd : heap K) r ks A :
  NoDup (ids (Nd r ks)) -> fits A None 0 (Nd r ks) -> NoDup (lids (Nd r ks)) ->
  (forall n, In n (flat_map (fun k => nids (k_t k)) ks) -> oarr (hget hd n) = Some (A n) /\
     (onorm (hget hd n) = true -> unit_along (A n) (oaxis (hget hd n)))) ->
  Forall2 (fun l d => leaf_fits hd false l d d) (lids (Nd r ks)) (ldims A None 0 (Nd r ks)) ->
  exists c, papply K hd ks (seq 0 (ndim (A r))) (A r) = Ok c /\ wf c /\ shape c = shape (A r) /\
    forall f, wf f -> shape f = shape (A r) ->
      pairing f c = env_dense A (varied A r f) (lmat hd false) None 0 0 (Nd r ks) 0 0.
Proof.
  intros ND F NDl N L.
  assert (Hr : ~ In r (flat_map (fun k => nids (k_t k)) ks)).
  { cbn [ids] in ND. inversion ND as [|? ? Nin _]; subst. intros Hin. apply Nin. apply in_flat_map in Hin. destruct Hin as (k & Hk & Hn).
    apply in_flat_map. exists k. split; auto. apply nids_ids; auto. }
  inversion F as [|? ? ? ? WA P X I G]; subst. cbn [others] in I, G.
  assert (Key : forall f, wf f -> shape f = shape (A r) ->
    exists rs, emap (fun k => tenv K hd false (Some (k_j k)) (k_t k)) k_i ks = Ok (combine (map k_i ks) rs) /\
 Env_Proof.envs K rs (shape (A r)) (shape (A r)) (map (fun k => erec K A (varied A r f) (lmat hd false) (Some (k_j k)) (k_t k)) ks)).
  { intros f Wf Sf. pose proof (varied_fits A r f ks Hr Wf Sf F) as FB. inversion FB as [|? ? ? ? WB PB XB IB GB]; subst. cbn [others] in GB.
    assert (Er : varied A r f r = f) by (unfold varied; now rewrite Nat.eqb_refl). rewrite Er, Sf in GB.
    apply (kids_sem K hd false A (varied A r f) ks (shape (A r)) (shape (A r))); auto.
    - apply Forall_forall. intros k Hk dA dB F1 F2 N' L'. destruct (tenv_sem K hd false A (varied A r f) (k_t k) (Some (k_j k)) dA dB F1 F2 N' L') as (v & Ev & Hv). eauto.
    - intros n Hn. destruct (N n Hn) as (N1 & N2). split; auto. split; auto. unfold varied.
      destruct (Nat.eqb_spec n r) as [->|]; [contradiction|auto].
    - assert (EG : gdims K (varied A r f) ks (shape (A r)) = gdims K A ks (shape (A r))).
      { pose proof (varied_ldims A r f (Nd r ks) None 0 Sf) as E. rewrite !ldims_node in E. cbn [others] in E. rewrite Er, Sf in E. exact E. }
      rewrite EG, combine_self. apply Forall2_map_r. cbn [fst snd]. rewrite ldims_node in L. exact L. }
  destruct (Key (arr_conj (A r)) (wf_conj K _ WA) eq_refl) as (rs & Em & En).
  pose proof (envs_len K _ _ _ _ En) as (Ln1 & _ & Ln). rewrite map_length in Ln.
  assert (DI : NoDup (map k_i ks)) by (rewrite I; apply seq_NoDup).
  pose proof (emap_penv hd ks DI rs Em ltac:(congruence)) as PE. rewrite I in PE.
  destruct (pp_node K None (A r) rs _ _ WA Logic.I En) as (c & Ec & Wc & Sc & Gc). cbn [others full] in *.
  exists c. rewrite (papply_pp hd ks _ rs _ PE). split; auto. split; auto. split; auto.
  intros f Wf Sf. destruct (Key f Wf Sf) as (rs' & Em' & En').
  pose proof (envs_len K _ _ _ _ En') as (_ & _ & Ln'). rewrite map_length in Ln'.
  assert (rs' = rs).
  { rewrite Em in Em'. injection Em' as E. apply (f_equal (map snd)) in E. rewrite !map_snd_combine in E by (rewrite map_length; congruence). auto. }
  subst rs'. destruct (pp_node K None (A r) rs _ _ WA Logic.I En') as (c' & Ec' & _ & _ & Gc'). cbn [others full] in *.
  rewrite Ec in Ec'. injection Ec' as <-.
  rewrite <- erec_env; auto; [|apply varied_fits; auto|discriminate].
  unfold pairing. rewrite Sc. cbn [erec others full]. unfold varied at 1 2. rewrite Nat.eqb_refl. rewrite Sf.
  rewrite sumL_swap.
  apply sum_indices_ext. intros y Hy. rewrite (Gc' 0 y ltac:(congruence) Hy). rewrite <- sumL_scal_l. apply sum_indices_ext. intros x Hx. ring.
Qed.

(** ** One term *)
Lemma dressed_lmat h (term : list (id * arr K)) l p q : l < length h -> oleaf (hget h l) = true -> lmat (dressed h term) false l p q = factor term l p q.
Proof. intros Hl L. unfold lmat, leafarr, factor. rewrite dressed_get, L by auto. reflexivity. Qed.
Lemma dressed_fits h t A term up ax d : hangs h up t ->
  Forall2 (fun l d => match last_of term l with None => True | Some m => wf m /\ shape m = [d; d] end) (lids t) (ldims A ax d t) ->
  Forall2 (fun l d => leaf_fits (dressed h term) false l d d) (lids t) (ldims A ax d t).
Proof.
  intros H F. assert (Hl : forall l, In l (lids t) -> l < length h /\ oleaf (hget h l) = true).
  { intros l Hl. rewrite <- (filter_leaves K h up t H) in Hl. apply filter_In in Hl. destruct Hl as (Hi & Ho). split; auto. eapply hangs_lt; eauto. }
  revert Hl. generalize (lids t) (ldims A ax d t) F. clear. intros ls ds F Hl. induction F as [|l d ls ds X F IH]; constructor.
  - destruct (Hl l ltac:(left; auto)) as (L1 & L2). unfold leaf_fits, leafarr. rewrite dressed_get, L2 by auto. cbn [put_cache put_arr oarr]. destruct (last_of term l); auto.
  - apply IH. intros x Hx. apply Hl. right. auto.
Qed.
Lemma env_dense_element h t A B term up : hangs h up t ->
  env_dense A B (lmat (dressed h term) false) None 0 0 t 0 0 = element A B t term.
Proof.
  intros H. unfold env_dense, element, dense. apply sumL_ext. intros v. apply sumL_ext. intros w. f_equal. apply prodL_ext_in. intros l Hl.
  rewrite <- (filter_leaves K h up t H) in Hl. apply filter_In in Hl. destruct Hl as (Hi & Ho). apply dressed_lmat; auto. eapply hangs_lt; eauto.
Qed.

Lemma term_grad h r ks A term : hangs h None (Nd r ks) -> NoDup (ids (Nd r ks)) -> NoDup (lids (Nd r ks)) -> fits A None 0 (Nd r ks) ->
  (forall n, In n (flat_map (fun k => nids (k_t k)) ks) -> oarr (hget h n) = Some (A n) /\
     (onorm (hget h n) = true -> unit_along (A n) (oaxis (hget h n)))) ->
  suits h (Nd r ks) A term ->
  forallb (fun p => oleaf (hget h (fst p))) term = true /\
  exists c, papply K (dressed h term) ks (seq 0 (ndim (A r))) (A r) = Ok c /\ wf c /\ shape c = shape (A r) /\
    forall f, wf f -> shape f = shape (A r) -> pairing f c = element A (varied A r f) (Nd r ks) term.
Proof.
  intros H ND NDl F N (S1 & S2). split. { apply forallb_forall. intros (l, m) Hin. eapply S1; eauto. }
  destruct (grad_sem (dressed h term) r ks A ND F NDl) as (c & E & W & Sc & G).
  - intros n Hn. assert (Hin : In n (ids (Nd r ks))). { apply nids_ids. right. auto. }
    assert (Lf : oleaf (hget h n) = false).
    { apply in_flat_map in Hn. destruct Hn as (k & Hk & Hn). eapply nids_inner; eauto. right. apply in_flat_map. eauto. }
    rewrite dressed_get, Lf by (eapply hangs_lt; eauto). cbn [put_cache oarr onorm oaxis]. auto.
  - apply (dressed_fits h _ A term None); auto.
  - exists c. do 3 (split; auto). intros f Wf Sf. rewrite G by auto. apply (env_dense_element h _ A _ term None); auto.
Qed.

(** ** The sum over the terms *)
Lemma pairing_add (f : arr K) sh x y z : vec_add K x y = Ok z -> length y = prod sh ->
  length z = prod sh /\ pairing f (mkArr sh z) = (pairing f (mkArr sh x) + pairing f (mkArr sh y))%S.
Proof.
  unfold vec_add. destruct (Nat.eqb_spec (length x) (length y)) as [E|]; [|discriminate]. intros [= <-] L.
  split. { rewrite map_length, combine_length. lia. }
  unfold pairing. cbn [shape]. rewrite <- sumL_add. apply sum_indices_ext. intros i Hi. unfold get. cbn [shape data].
  pose proof (ravel_lt sh i Hi) as R. 
  assert (E2 : nth (ravel sh i) (map (fun p : K * K => (fst p + snd p)%S) (combine x y)) r0 = (nth (ravel sh i) x r0 + nth (ravel sh i) y r0)%S).
  { rewrite (nth_indep (map (fun p : K * K => (fst p + snd p)%S) (combine x y)) r0 ((fun p : K * K => (fst p + snd p)%S) (r0, r0))) by (rewrite map_length, combine_length; lia).
    rewrite (map_nth (fun p : K * K => (fst p + snd p)%S)), combine_nth by auto. reflexivity. }
  rewrite E2. ring.
Qed.
Lemma pterms_sem h r ks A (acc : list K) : hangs h None (Nd r ks) -> NoDup (ids (Nd r ks)) -> NoDup (lids (Nd r ks)) -> fits A None 0 (Nd r ks) ->
  (forall n, In n (flat_map (fun k => nids (k_t k)) ks) -> oarr (hget h n) = Some (A n) /\
     (onorm (hget h n) = true -> unit_along (A n) (oaxis (hget h n)))) ->
  forall terms, Forall (suits h (Nd r ks) A) terms -> length acc = prod (shape (A r)) ->
  exists ans, pterms K h ks (seq 0 (ndim (A r))) (A r) terms acc = Ok ans /\ length ans = prod (shape (A r)) /\
    forall f, wf f -> shape f = shape (A r) ->
      pairing f (mkArr (shape (A r)) ans) = (pairing f (mkArr (shape (A r)) acc) + sumL terms (element A (varied A r f) (Nd r ks)))%S.
Proof.
  intros H ND NDl F N terms S. revert acc. induction S as [|term terms Hs S IH]; intros acc L; cbn [pterms].
  - exists acc. split; auto. split; auto. intros f _ _. rewrite sumL_nil. ring.
  - destruct (term_grad h r ks A term H ND NDl F N Hs) as (-> & c & -> & Wc & Sc & Gc). cbn [bind].
    assert (Lc : length (data c) = prod (shape (A r))) by (rewrite <- Sc; exact Wc).
    unfold vec_add at 1. rewrite L, Lc, Nat.eqb_refl. cbn [bind].
    set (z := map _ (combine acc (data c))).
    assert (Ez : vec_add K acc (data c) = Ok z) by (unfold vec_add; rewrite L, Lc, Nat.eqb_refl; reflexivity).
    destruct (pairing_add (A r) (shape (A r)) _ _ _ Ez Lc) as (Lz & _).
    destruct (IH z Lz) as (ans & E & La & G). exists ans. split; auto. split; auto. intros f Wf Sf.
    rewrite G, sumL_cons by auto. destruct (pairing_add f (shape (A r)) _ _ _ Ez Lc) as (_ & ->).
    rewrite <- Gc by auto. assert (Ec : mkArr (shape (A r)) (data c) = c) by (rewrite <- Sc; symmetry; apply arr_eta). rewrite Ec. ring.
Qed.

Lemma exchanged_fits A r (a : arr K) ks : ~ In r (flat_map (fun k => nids (k_t k)) ks) -> wf a -> shape a = shape (A r) ->
  fits A None 0 (Nd r ks) -> fits (exchanged A r a) None 0 (Nd r ks).
Proof.
  intros Hr W S F. inversion F as [|? ? ? ? WA P X I G]; subst.
  assert (E : exchanged A r a r = a) by (unfold exchanged; now rewrite Nat.eqb_refl).
  constructor; rewrite ?E; auto; cbn [others]; unfold ndim in *; rewrite ?S; auto.
  cbn [others] in G. clear -G Hr. induction G as [|k m ks ms Hk G IH]; constructor.
  - apply (fits_ext_off A _ _ _ _ r); auto.
    + intros Hin. apply Hr. cbn [flat_map]. apply in_app_iff. auto.
    + intros n Hn. unfold exchanged. apply Nat.eqb_neq in Hn. now rewrite Hn.
  - apply IH. intros Hin. apply Hr. cbn [flat_map]. apply in_app_iff. auto.
Qed.
Lemma exchanged_ldims A r (a : arr K) t ax d : shape a = shape (A r) -> ldims (exchanged A r a) ax d t = ldims A ax d t.
Proof. intros S. apply ldims_agree. intros n _. unfold exchanged. destruct (Nat.eqb_spec n r) as [->|]; auto. Qed.
Lemma varied_exchanged A r (a f : arr K) n : varied (exchanged A r a) r f n = varied A r f n.
Proof. unfold varied, exchanged. destruct (n =? r); auto. Qed.
Lemma amp_arrays A A' s : (forall n, A' n = A n) -> forall t ax p, amp A' s ax t p = amp A s ax t p.
Proof.
  intros E. induction t as [n|n ks IH] using tree_ind'; intros ax p; [reflexivity|]. cbn [amp]. rewrite E. apply sumL_ext. intros x. f_equal.
  apply zprod_ext. clear -IH. induction IH as [|k ks Hk _ IHk]; constructor; auto.
Qed.
Lemma element_arrays A B B' t term : (forall n, B' n = B n) -> element A B' t term = element A B t term.
Proof.
  intros E. unfold element. assert (EL : ldims B' None 0 t = ldims B None 0 t) by (apply ldims_agree; intros; now rewrite E).
  rewrite EL. apply sumL_ext. intros v. apply sumL_ext. intros w. unfold dense. rewrite (amp_arrays B B') by auto. reflexivity.
Qed.

Section Run.
Variable T : Type.
Variable sys : system K T.
Variable fuel : nat.

Lemma zeros_pairing (f : arr K) sh n : pairing f (mkArr sh (repeat r0 n)) = r0.
Proof.
  unfold pairing. apply sumL_zero_in. intros i _. unfold get. cbn [data]. rewrite nth_repeat. ring.
Qed.

Lemma diff_sem (s : state K) ks A time (y : list K) :
  let r := sroot K s in let R := Nd r ks in
  hangs (sheap K s) None R -> NoDup (ids R) -> fits A None 0 R -> length (ids R) <= fuel ->
  (forall n, In n (nids R) -> oarr (hget (sheap K s) n) = Some (A n)) ->
  (forall n, In n (nids R) -> n <> r -> onorm (hget (sheap K s) n) = true -> unit_along (A n) (oaxis (hget (sheap K s) n))) ->
  Forall (suits (sheap K s) R A) (all_terms K T sys time) -> length y = prod (shape (A r)) ->
  exists ans, result (diff K T sys fuel r false time y (forget s)) = Ok ans /\ length ans = length y /\
    forall f, wf f -> shape f = shape (A r) ->
      pairing f (mkArr (shape (A r)) ans) =
      sumL (all_terms K T sys time) (element (exchanged A r (mkArr (shape (A r)) y)) (varied A r f) R).
Proof.
  intros r R H ND F Hf N U S L. set (b := mkArr (shape (A r)) y). assert (Wb : wf b) by (unfold wf, b; auto).
  assert (Rd : ready K T sys fuel R (forget s)).
  { constructor; cbn [forget sroot sheap senv]; auto.
    - exists ks. split; auto. inversion F as [|? ? ? ? _ _ _ I _]; subst. cbn [others] in I. rewrite I. f_equal.
      pose proof (f_equal (@length _) I) as E. rewrite map_length, seq_length in E. auto.
    - apply no_env_ok.
    - intros n t j v. discriminate. }
  assert (Na : oarr (hget (sheap K s) r) = Some (A r)) by (apply N; left; auto).
  assert (Eb : reshape (mkArr [length y] y) (shape (A r)) = Ok b).
  { unfold reshape, size. cbn [data]. rewrite <- L, Nat.eqb_refl. reflexivity. }
  assert (Hr : ~ In r (flat_map (fun k => nids (k_t k)) ks)).
  { cbn [R ids] in ND. inversion ND as [|? ? Nin _]; subst. intros Hin. apply Nin. apply in_flat_map in Hin. destruct Hin as (k & Hk & Hn).
    apply in_flat_map. exists k. split; auto. apply nids_ids; auto. }
  unfold diff. change (sheap K (forget s)) with (sheap K s). rewrite Na, Eb. cbn [bind]. fold (diff_body K fuel r false).
  destruct (diff_heads K T sys fuel R (forget s) y (A r) time Rd Na b Eb) as (H0 & C & Cl & V & A0 & TV).
  cbn [forget sroot sheap] in *. fold r in H0, C, Cl, V, A0, TV.
  set (h0 := modify (sheap K s) r (put_arr (Some b))) in *. set (h1 := set_all (reset_obj K) h0 (ids R)) in *.
  change (with_heap K (forget s) h0) with (mkState K h0 r (no_env K)). rewrite TV.
  assert (I : map k_i ks = seq 0 (order h0 r)).
  { rewrite (kids_order K R r ks h0 eq_refl H0). destruct (rd_top K T sys fuel R (forget s) Rd) as (ks' & E & Ek). injection E as <-. auto. }
  pose proof (diff_each K fuel R r ks h0 b false eq_refl H0 ND (rd_fuel K T sys fuel R _ Rd) A0 I (all_terms K T sys time) 0 (repeat r0 (length y))
    (mkState K h1 r (no_env K)) C Cl eq_refl ltac:(intros k term Ht t j u i v _ X; discriminate)) as X.
  set (A' := exchanged A r b). assert (Er : A' r = b) by (unfold A', exchanged; now rewrite Nat.eqb_refl).
  assert (Fb : fits A' None 0 R) by (apply exchanged_fits; auto).
  assert (Nd0 : order h0 r = ndim (A' r)).
  { rewrite Er. rewrite (kids_order K R r ks h0 eq_refl H0). inversion F as [|? ? ? ? _ _ _ I' _]; subst. cbn [others] in I'.
    pose proof (f_equal (@length _) I') as E. rewrite map_length, seq_length in E. exact E. }
  destruct (pterms_sem h0 r ks A' (repeat r0 (length y)) H0 ND) with (terms := all_terms K T sys time) as (ans & Ea & La & Ga); auto.
  - fold R. rewrite <- (filter_leaves K h0 None R H0). apply NoDup_filter. auto.
  - intros n Hn. assert (n <> r) by congruence. unfold h0. rewrite hget_modify_neq by auto. unfold A', exchanged.
    replace (n =? r) with false by (symmetry; apply Nat.eqb_neq; auto). split; [apply N; right; auto|]. apply U; auto. right. auto.
  - rewrite Forall_forall in S |- *. intros term Ht. destruct (S term Ht) as (S1 & S2). split.
    + intros l m Hin. unfold h0. destruct (Nat.eq_dec l r) as [->|Hl]; [|rewrite hget_modify_neq by auto; eapply S1; eauto].
      exfalso. pose proof (S1 _ _ Hin) as Q. inversion H; subst. fold r in Q. congruence.
    + unfold A'. rewrite exchanged_ldims by reflexivity. auto.
  - rewrite Er, repeat_length. exact L.
  - rewrite Nd0, Er in X. rewrite Er in Ea, La, Ga. rewrite Ea in X. destruct X as (s' & X & _). rewrite X. cbn [bind result].
    exists ans. split; auto. split; [rewrite La; symmetry; exact L|]. intros f Wf Sf. rewrite Ga by auto. rewrite zeros_pairing.
    change (shape b) with (shape (A r)).
    rewrite (sumL_ext K (all_terms K T sys time) _ (element A' (varied A r f) R)); [ring|]. intros term. apply element_arrays. intros n. apply varied_exchanged.
Qed.
End Run.
End EomProof.
