(** A run of the direct scheme: environments, densities, derivatives, step. *)
From Coq Require Import String List Arith Bool Lia Permutation.
From Verif Require Import Py Alg ListX NdArray_Model NdArray_Proof Contract_Model Contract_Spec Contract_Proof Mode_Proof Net_Model Net_Spec Sweep_Spec Trav_Proof Acyc_Proof Contraction_Proof
  Link_Spec Link_Proof Env_Spec Env_Proof TEnv_Proof EnvSem_Proof EnvThm_Proof Unite_Proof State_Spec State_Proof Cache_Model Cache_Spec Cache_Proof CacheExact_Proof Reroot_Proof Eom_Spec Eom_Proof Direct_Model Direct_Spec
  DirectAlg_Proof DirectSem_Proof DirectGrad_Proof.
Import ListNotations.
Local Open Scope nat_scope.
Local Open Scope list_scope.

Section DirectRun.
Variable K : StarRing.
Add Ring Kring_drun : (r_theory K).
Implicit Types h : heap K.
Variable T : Type.
Variable sys : system K T.
Variable fuel : nat.
Variable invert : option (arr K) -> nat -> res (arr K).

(** ** Heaps that differ in caches and second arrays only *)
Definition shell h h' : Prop := length h' = length h /\ forall x,
  oleaf (hget h' x) = oleaf (hget h x) /\ oarr (hget h' x) = oarr (hget h x) /\ oaxis (hget h' x) = oaxis (hget h x) /\
  onorm (hget h' x) = onorm (hget h x) /\ oacc (hget h' x) = oacc (hget h x) /\ oname (hget h' x) = oname (hget h x).
Lemma shell_refl h : shell h h.
Proof. split; auto. intros x. repeat split; auto. Qed.
Lemma shell_trans h1 h2 h3 : shell h1 h2 -> shell h2 h3 -> shell h1 h3.
Proof.
  intros (A & B) (C & D). split; [congruence|]. intros x. destruct (B x) as (P1 & P2 & P3 & P4 & P5 & P6), (D x) as (Q1 & Q2 & Q3 & Q4 & Q5 & Q6).
  repeat split; congruence.
Qed.
Lemma shell_sbc h h' : same_but_cache K h h' -> shell h h'.
Proof.
  intros (L & Q). split; auto. intros x. specialize (Q x). destruct (hget h' x), (hget h x). unfold put_cache in Q. cbn in *. inversion Q. repeat split; auto.
Qed.
Lemma sbc_aux h h' x : same_but_cache K h h' -> oaux (hget h' x) = oaux (hget h x).
Proof. intros (_ & Q). specialize (Q x). destruct (hget h' x), (hget h x). unfold put_cache in Q. cbn in *. inversion Q. auto. Qed.
Lemma shell_aux h t v : shell h (modify h t (put_aux v)).
Proof.
  split; [apply length_modify|]. intros x. destruct (Nat.lt_ge_cases t (length h)) as [L|L]; [|rewrite modify_out by auto; repeat split; auto].
  destruct (Nat.eq_dec t x) as [->|N]; [rewrite hget_modify_eq by auto; cbn; repeat split; auto|rewrite hget_modify_neq by auto; repeat split; auto].
Qed.
Lemma shell_aux_all v l : forall h, shell h (set_all (put_aux v) h l).
Proof. induction l as [|x l IH]; intros h; [apply shell_refl|]. cbn [set_all]. eapply shell_trans; [apply shell_aux|apply IH]. Qed.
Lemma shell_core h h' : shell h h' -> core K h h'.
Proof. intros (L & Q). split; auto. intros x. destruct (Q x) as (P1 & P2 & P3 & P4 & P5 & P6). repeat split; auto. Qed.
Lemma shell_sees R h h' hd : shell h h' -> sees K R h hd -> sees K R h' hd.
Proof. intros (_ & Q) S x Hx. destruct (Q x) as (P1 & P2 & P3 & P4 & P5 & P6), (S x Hx) as (S1 & S2 & S3). repeat split; congruence. Qed.
Lemma shell_hangs h h' up t : shell h h' -> hangs h up t -> hangs h' up t.
Proof. intros (_ & Q). apply hangs_same. intros x. destruct (Q x) as (P1 & P2 & P3 & P4 & P5 & P6). auto. Qed.
Lemma shell_sym h h' : shell h h' -> shell h' h.
Proof. intros (L & Q). split; auto. intros x. destruct (Q x) as (P1 & P2 & P3 & P4 & P5 & P6). repeat split; auto. Qed.
Lemma shell_exact Q h h' : shell h h' -> (forall x, ocache (hget h' x) = ocache (hget h x)) -> cache_exact_on K Q h -> cache_exact_on K Q h'.
Proof.
  intros S C E n j v t p Hq Hc Hu Tu L. pose proof S as (_ & P).
  rewrite (tenv_local K h h' false t (Some j)).
  - apply (E n j v t p); auto; [rewrite <- C; auto|apply (shell_hangs h' h); auto; apply shell_sym; auto|]. destruct (P n) as (P1 & _). congruence.
  - intros x _. destruct (P x) as (P1 & P2 & P3 & P4 & P5 & P6). repeat split; auto. discriminate.
Qed.
Lemma cache_aux h t v x : ocache (hget (modify h t (put_aux v)) x) = ocache (hget h x).
Proof.
  destruct (Nat.lt_ge_cases t (length h)) as [L|L]; [|rewrite modify_out by auto; auto].
  destruct (Nat.eq_dec t x) as [->|N]; [rewrite hget_modify_eq by auto; auto|rewrite hget_modify_neq by auto; auto].
Qed.

Lemma leaves_aux (term : list (id * arr K)) : forall h h' x, set_leaves K h term = Ok h' -> oaux (hget h' x) = oaux (hget h x).
Proof.
  induction term as [|(l, a) term IH]; intros h h' x E; cbn [set_leaves] in E; [injection E as <-; auto|].
  destruct (oleaf (hget h l)); [|discriminate]. rewrite (IH _ _ x E). destruct (Nat.lt_ge_cases l (length h)) as [Ll|Ll]; [|rewrite modify_out by auto; auto].
  destruct (Nat.eq_dec l x) as [->|Nl]; [rewrite hget_modify_eq by auto; auto|rewrite hget_modify_neq by auto; auto].
Qed.

Section Net.
Variable h0 : heap K.
Variable r : id.
Variable ks0 : list kid.
Variable A : id -> arr K.
Notation R := (Nd r ks0).
Hypothesis H0 : hangs h0 None R.
Hypothesis ND : NoDup (ids R).
Hypothesis F : fits A None 0 R.
Hypothesis Hf : length (ids R) <= fuel.
Hypothesis DO : dicts_ok h0.
Hypothesis Or : oriented h0 None R.
Hypothesis Ar : forall n, In n (nids R) -> oarr (hget h0 n) = Some (A n).
Hypothesis Lx : forall l, In l (lids R) -> oaxis (hget h0 l) = None.
Hypothesis U : forall n, In n (nids R) -> n <> r -> unit_along (A n) (oaxis (hget h0 n)).

Let Q : id -> nat -> Prop := fun x _ => In x (ids R).

Lemma U' : forall n, In n (nids R) -> n <> r -> onorm (hget h0 n) = true -> unit_along (A n) (oaxis (hget h0 n)).
Proof. auto. Qed.
Lemma Hh : height R <= fuel.
Proof. pose proof (size_height R). lia. Qed.

(** A state while the leaves carry one term. *)
Record base (term : list (id * arr K)) (s : state K) : Prop := {
  bs_core : core K h0 (sheap K s);
  bs_sees : sees K R (sheap K s) (dressed h0 term);
  bs_exact : cache_exact_on K Q (sheap K s);
  bs_root : sroot K s = r }.
(** Stored entries of term number [n] are right, at every tensor. *)
Definition okh (n : nat) (term : list (id * arr K)) (e : envs K) : Prop :=
  forall t ks i v, same_net K h0 R (Nd t ks) -> In i (map k_i ks) -> e n t i = Some v -> penv K (dressed h0 term) ks i = Ok v.

Lemma base_hangs term s up t : base term s -> hangs h0 up t -> hangs (sheap K s) up t.
Proof. intros B. apply core_hangs. apply B. Qed.
Lemma net_kids t ks : same_net K h0 R (Nd t ks) -> order h0 t = ndim (A t) /\ map k_i ks = seq 0 (ndim (A t)) /\ oleaf (hget h0 t) = false /\ In t (nids R).
Proof.
  intros Sn. pose proof (sn_hangs K h0 _ _ Sn) as Ht. pose proof (sn_fits K h0 _ _ Sn A F) as Ft. inversion Ft as [|? ? ? ? _ _ _ I _]; subst. cbn [others] in I.
  assert (Tn : In t (nids R)) by (apply (net_nids K h0 r ks0 H0 _ Sn); left; auto).
  split; [|split; [exact I|split; auto]].
  - rewrite (kids_order K (Nd t ks) t ks h0 eq_refl Ht). pose proof (f_equal (@length _) I) as E. rewrite map_length, seq_length in E. exact E.
  - apply (nids_inner K h0 R None H0 t Tn).
Qed.
Lemma net_fuel t ks k : same_net K h0 R (Nd t ks) -> In k ks -> height (k_t k) <= fuel.
Proof.
  intros Sn Hk. pose proof (height_kid t ks k Hk). pose proof (size_height (Nd t ks)) as X. rewrite <- (Permutation_length (sn_perm K h0 _ _ Sn)) in X. lia.
Qed.
Lemma net_sub t ks k : same_net K h0 R (Nd t ks) -> In k ks -> incl (ids (k_t k)) (ids R).
Proof.
  intros Sn Hk x Hx. eapply Permutation_in; [apply Permutation_sym, (sn_perm K h0 _ _ Sn)|]. right. apply in_flat_map. eauto.
Qed.
Lemma net_det t ks ks' : same_net K h0 R (Nd t ks) -> same_net K h0 R (Nd t ks') -> ks = ks'.
Proof. intros Sn Sn'. pose proof (hangs_det K h0 _ None _ (sn_hangs K h0 _ _ Sn) (sn_hangs K h0 _ _ Sn') eq_refl) as E. injection E as E. auto. Qed.

Lemma proper_any term s t ks i v : base term s -> same_net K h0 R (Nd t ks) -> In i (map k_i ks) -> penv K (dressed h0 term) ks i = Ok v ->
  exists h2, partial_env_proper fuel false (sheap K s) t i = Ok (v, h2) /\ same_but_cache K (sheap K s) h2 /\ cache_exact_on K Q h2.
Proof.
  intros B Sn Hi P. destruct (find_kid ks i Hi) as (k & Fk & Hk & Ek). unfold penv in P. rewrite Fk in P.
  pose proof (base_hangs term s None _ B (sn_hangs K h0 _ _ Sn)) as Ht.
  assert (Ed : edge_in (Nd t ks) t (k_i k) (k_t k) (k_j k)) by (apply edge_kid; auto).
  pose proof (edge_hangs K _ _ None Ht _ _ _ _ Ed) as Hu.
  pose proof (partial_env_tenv_on K Q (sheap K s) false (k_t k) (Some (k_j k, (t, k_i k))) fuel (sheap K s) Hu) as X.
  cbn [option_map fst] in X. specialize (X ltac:(split; [intros j' p' _|intros a' i' u' j' Ed']; apply (net_sub t ks k Sn Hk);
      [apply top_ids|apply (proj1 (edge_ids _ _ _ _ _ Ed')), top_ids]) (net_fuel t ks k Sn Hk) (sbc_refl K _) (bs_exact _ _ B)).
  rewrite <- (sees_tenv K R (sheap K s) (dressed h0 term)) in X by (try apply B; apply (net_sub t ks k Sn Hk)). rewrite P in X.
  destruct X as (h2 & X & S2 & E2). exists h2. split; auto. unfold partial_env_proper.
  destruct (net_kids t ks Sn) as (_ & _ & Lf & _). pose proof (bs_core _ _ B) as (_ & C). destruct (C t) as (_ & -> & _). rewrite Lf.
  pose proof Ht as Ht'. inversion Ht' as [|? ? Lf' Ac D Fh|]; subst.
  assert (Dg : dindex (oacc (hget (sheap K s) t)) (k_i k) = Ok (top (k_t k), k_j k)).
  { unfold dindex. rewrite Ac. replace (dget _ (k_i k)) with (Some (top (k_t k), k_j k)); auto. symmetry. apply points_dget.
    - rewrite <- Ac. auto.
    - apply in_map_iff. exists k. auto. }
  rewrite Dg. cbn [bind fst snd]. exact X.
Qed.
Lemma base_shell term s h : base term s -> shell (sheap K s) h -> cache_exact_on K Q h -> forall e, base term (mkState K h (sroot K s) e).
Proof.
  intros [B1 B2 B3 B4] S E e. constructor; cbn; auto; [eapply core_trans; [eauto|apply shell_core; auto]|eapply shell_sees; eauto].
Qed.

Lemma apply_any term n t ks : same_net K h0 R (Nd t ks) -> forall l tmp x s, Forall (fun i => In i (map k_i ks)) l -> base term s -> okh n term (senv K s) ->
  papply K (dressed h0 term) ks l tmp = Ok x ->
  exists s', apply_envs K fuel n t false l tmp s = Ok (x, s') /\ same_but_cache K (sheap K s) (sheap K s') /\ base term s' /\ senv K s' = senv K s /\ sroot K s' = sroot K s.
Proof.
  intros Sn. induction l as [|i l IH]; intros tmp x s Fl B Ok_ P; cbn [papply apply_envs] in *.
  { injection P as <-. exists s. split; auto. split; [apply sbc_refl|]. auto. }
  pose proof (Forall_inv Fl) as Hi; pose proof (Forall_inv_tail Fl) as Fl'. cbn beta in Hi.
  destruct (penv K (dressed h0 term) ks i) as [v|] eqn:Pe; [|discriminate]. cbn [bind] in P.
  destruct (pp_all tmp [(i, v)]) as [tmp'|] eqn:Pp; [|discriminate]. cbn [bind] in P.
  destruct (senv K s n t i) as [v'|] eqn:Ev.
  - assert (v' = v) as -> by (pose proof (Ok_ t ks i v' Sn Hi Ev) as Z; congruence). cbn [bind]. rewrite Pp. cbn [bind]. apply IH; auto.
  - destruct (proper_any term s t ks i v B Sn Hi Pe) as (h2 & E & S2 & E2). rewrite E. cbn [bind]. rewrite Pp. cbn [bind].
    destruct (IH tmp' x (mkState K h2 (sroot K s) (senv K s))) as (s' & Ea & Sa & Ba & Ee & Er); auto.
    { apply (base_shell term s h2 B); auto. apply shell_sbc; auto. }
    exists s'. split; auto. split; [eapply sbc_trans; eauto|]. auto.
Qed.

Lemma fill_any term n : forall l s, Forall (fun p => exists ks v, same_net K h0 R (Nd (fst p) ks) /\ In (snd p) (map k_i ks) /\ penv K (dressed h0 term) ks (snd p) = Ok v) l ->
  base term s -> okh n term (senv K s) ->
  exists s', fill K fuel n l s = Ok s' /\ same_but_cache K (sheap K s) (sheap K s') /\ base term s' /\ okh n term (senv K s').
Proof.
  induction l as [|(t, i) l IH]; intros s Fl B Ok_; cbn [fill].
  { exists s. split; auto. split; [apply sbc_refl|]. auto. }
  pose proof (Forall_inv Fl) as (ks & v & Sn & Hi & P). pose proof (Forall_inv_tail Fl) as Fl'. cbn [fst snd] in Sn, Hi, P.
  destruct (proper_any term s t ks i v B Sn Hi P) as (h2 & E & S2 & E2). rewrite E. cbn [bind].
  destruct (IH (mkState K h2 (sroot K s) (env_put K (senv K s) n t i v))) as (s' & Ea & Sa & Ba & Oa); auto.
  - apply (base_shell term s h2 B); auto. apply shell_sbc; auto.
  - cbn [senv]. intros t' ks' i' v' Sn' Hi' Ev'. destruct (Nat.eq_dec t' t) as [->|Nt]; [|rewrite env_put_other in Ev' by auto; eapply Ok_; eauto].
    destruct (Nat.eq_dec i' i) as [->|Ni]; [|rewrite env_put_other in Ev' by auto; eapply Ok_; eauto].
    rewrite env_put_same in Ev'. injection Ev' as <-. rewrite <- (net_det t ks ks' Sn Sn'). auto.
  - exists s'. split; auto. split; [eapply sbc_trans; eauto|]. auto.
Qed.

(** ** The loop over the terms *)
Lemma sn_root : same_net K h0 R R.
Proof. apply same_net_refl. auto. Qed.
Lemma clean_shell h uc e n l term h1 h2 : hangs h None R -> clean K R h -> set_leaves K (set_all (load K uc e n) h l) term = Ok h1 -> shell h1 h2 ->
  clean K R (set_all (reset_obj K) h2 (map fst term)).
Proof.
  intros Hg Cl E (L2 & S2). set (h3 := map (fun p => put_cache (ocache (snd p)) (snd p)) (combine (seq 0 (length h1)) h1)).
  pose proof (clean_again K R h uc e n l term h1 h1 (ex_intro _ None Hg) Cl E (sbc_refl K h1)) as C1. clear h3.
  intros x Hx Lf. specialize (C1 x Hx). rewrite set_all_get in * by apply reset_idem. rewrite L2 in *.
  destruct (S2 x) as (P1 & P2 & _). destruct (memb x (map fst term) && (x <? length h1)).
  - unfold reset_obj in *. rewrite P1 in *. destruct (oleaf (hget h1 x)) eqn:Lx1; cbn in *; auto. congruence.
  - rewrite P2. apply C1. congruence.
Qed.

Lemma each_run (P : nat -> state K -> Prop) (body : nat -> unit -> state K -> res (unit * state K)) terms :
  (forall n s h, P n s -> (forall x, oaux (hget h x) = oaux (hget (sheap K s) x)) -> P n (with_heap K s h)) ->
  (forall n term s, nth_error terms n = Some term -> base term s -> P n s ->
     exists s', body n tt s = Ok (tt, s') /\ P (S n) s' /\ shell (sheap K s) (sheap K s') /\ sroot K s' = r) ->
  Forall (fun term => forallb (fun p => oleaf (hget h0 (fst p))) term = true) terms ->
  forall rest n s, skipn n terms = rest -> n <= length terms -> core K h0 (sheap K s) -> clean K R (sheap K s) -> sroot K s = r -> P n s ->
  exists s', each_term K fuel false 0 body n rest tt s = Ok (tt, s') /\ core K h0 (sheap K s') /\ clean K R (sheap K s') /\ sroot K s' = r /\ P (length terms) s'.
Proof.
  intros Inv Step Lf. induction rest as [|term rest IH]; intros n s Es Ln C Cl Er Pn; cbn [each_term].
  { exists s. split; auto. split; auto. split; auto. split; auto. pose proof (f_equal (@length _) Es) as E. rewrite skipn_length in E. cbn in E.
    replace (length terms) with n by lia. auto. }
  change (n <? 0) with false. cbv iota.
  assert (Hn : nth_error terms n = Some term).
  { rewrite <- (firstn_skipn n terms), Es, nth_error_app2; rewrite firstn_length_le by lia; auto. now rewrite Nat.sub_diag. }
  assert (Hs : hangs (sheap K s) None R) by (eapply core_hangs; eauto).
  replace (visitor fuel (sheap K s) (sroot K s) None false) with (Ok (nids R)).
  2:{ symmetry. rewrite Er. apply (visitor_hangs K (sheap K s) R None fuel false Hs Hh). }
  cbn [bind]. set (hs := set_all (load K false (senv K s) n) (sheap K s) (nids R)).
  assert (Cs : core K h0 hs) by (eapply core_trans; [exact C|apply core_set_all, kept_load]).
  pose proof (set_leaves_ok K term hs) as X. rewrite (pterms_leaf K hs h0 term Cs) in X.
  rewrite Forall_forall in Lf. rewrite (Lf term (nth_error_In _ _ Hn)) in X.
  destruct (set_leaves K hs term) as [h1|e] eqn:E1; [|destruct X as (_ & X); discriminate]. clear X. cbn [bind].
  assert (C1 : core K h0 h1) by (eapply core_trans; [exact Cs|eapply core_set_leaves; eauto]).
  assert (B : base term (with_heap K s h1)).
  { constructor; cbn [with_heap sheap sroot]; auto.
    - apply (begin_sees K R h0 (sheap K s) false (senv K s) n (nids R) term h1); auto. exists None; auto.
    - eapply (empty_exact K R (sheap K s) false n (senv K s) (nids R) term); eauto. }
  assert (Aux : forall x, oaux (hget h1 x) = oaux (hget (sheap K s) x)).
  { intros x. transitivity (oaux (hget hs x)).
    - apply (leaves_aux term _ _ x E1).
    - unfold hs. rewrite set_all_get by apply load_idem. destruct (_ && _); auto. }
  destruct (Step n term (with_heap K s h1) Hn B (Inv n s h1 Pn Aux)) as (s' & Eb & Pb & Sb & Rb). rewrite Eb. cbn [bind].
  cbn [with_heap sheap] in Sb.
  destruct (IH (S n) (with_heap K s' (set_all (reset_obj K) (sheap K s') (map fst term)))) as (s2 & E2 & R2); cbn [with_heap sheap sroot]; auto.
  - rewrite <- (firstn_skipn n terms), Es. replace (S n) with (length (firstn n terms) + 1) at 1 by (rewrite firstn_length_le; lia).
    rewrite skipn_app. rewrite skipn_all2 by lia. replace (_ + 1 - _) with 1 by lia. reflexivity.
  - apply nth_error_Some. congruence.
  - eapply core_trans; [exact C1|]. eapply core_trans; [apply shell_core; exact Sb|apply core_set_all, kept_reset].
  - eapply clean_shell; eauto.
  - apply Inv; auto. intros x. rewrite set_all_get by apply reset_idem. destruct (_ && _); auto. unfold reset_obj. destruct (oleaf _); auto.
  - exists s2. auto.
Qed.

Section Terms.
Variable terms : list (list (id * arr K)).
Hypothesis Su : Forall (suits h0 R A) terms.

Lemma suits_leaf : Forall (fun term => forallb (fun p => oleaf (hget h0 (fst p))) term = true) terms.
Proof.
  rewrite Forall_forall in Su |- *. intros term Ht. destruct (Su term Ht) as (S1 & _). apply forallb_forall. intros (l, m) Hp. cbn [fst]. eauto.
Qed.
Lemma net_at t : In t (nids R) -> exists ks, same_net K h0 R (Nd t ks).
Proof. apply reroot_at; auto. Qed.
Lemma grad_any t ks term : same_net K h0 R (Nd t ks) -> In term terms -> exists c, papply K (dressed h0 term) ks (seq 0 (ndim (A t))) (A t) = Ok c /\ wf c /\ shape c = shape (A t) /\
    forall f, wf f -> shape f = shape (A t) -> pairing f c = element A (varied A t f) R term.
Proof.
  intros Sn Ht. rewrite Forall_forall in Su. destruct (grad_at K h0 r ks0 A H0 ND F Or Ar U' t ks term Sn (Su term Ht)) as (_ & X). exact X.
Qed.
Lemma papply_penv hd ks : forall l tmp c, papply K hd ks l tmp = Ok c -> forall i, In i l -> exists v, penv K hd ks i = Ok v.
Proof.
  induction l as [|j l IH]; intros tmp c E i Hi; [destruct Hi|]. cbn [papply] in E. destruct (penv K hd ks j) as [v|] eqn:P; [|discriminate]. cbn [bind] in E.
  destruct (pp_all _ _) as [tmp'|]; [|discriminate]. cbn [bind] in E. destruct Hi as [<-|Hi]; eauto.
Qed.
Definition okall (e : envs K) : Prop := forall n term, nth_error terms n = Some term -> okh n term e.

Lemma form_run s : core K h0 (sheap K s) -> clean K R (sheap K s) -> sroot K s = r -> okall (senv K s) ->
  exists s', each_term K fuel false 0 (form_body K fuel) 0 terms tt s = Ok (tt, s') /\ core K h0 (sheap K s') /\ clean K R (sheap K s') /\ sroot K s' = r /\ okall (senv K s').
Proof.
  intros C Cl Er Ok_. apply (each_run (fun _ s => okall (senv K s)) (form_body K fuel) terms); auto using suits_leaf; [|lia]. clear s C Cl Er Ok_.
  intros n term s Hn B Ok_. unfold form_body. assert (Hs : hangs (sheap K s) None R) by (eapply base_hangs; eauto).
  replace (visitor fuel (sheap K s) (sroot K s) None false) with (Ok (nids R)).
  2:{ symmetry. rewrite (bs_root _ _ B). apply (visitor_hangs K (sheap K s) R None fuel false Hs Hh). }
  cbn [bind]. destruct (fill_any term n (flat_map (fun t => map (fun i => (t, i)) (seq 0 (order (sheap K s) t))) (nids R)) s) as (s' & E & S' & B' & O'); auto.
  - apply Forall_forall. intros p Hp. apply in_flat_map in Hp. destruct Hp as (t & Ht & Hp). apply in_map_iff in Hp. destruct Hp as (i & <- & Hi). cbn [fst snd].
    destruct (net_at t Ht) as (ks & Sn). destruct (net_kids t ks Sn) as (E1 & E2 & _). rewrite (core_order K h0 (sheap K s) t (bs_core _ _ B)), E1 in Hi.
    destruct (grad_any t ks term Sn (nth_error_In _ _ Hn)) as (c & Ec & _). destruct (papply_penv _ _ _ _ _ Ec i Hi) as (v & Ev).
    exists ks, v. rewrite E2. auto.
  - rewrite E. cbn [bind]. exists s'. split; auto. split; [|split; [apply shell_sbc; auto|apply B']].
    intros m tm Hm. destruct (Nat.eq_dec m n) as [->|Nm]; [assert (tm = term) by congruence; subst; exact O'|]. pose proof (fill_frame K fuel n _ _ _ E) as (_ & _ & Fr).
    intros t ks i v Sn Hi Ev. rewrite Fr in Ev by auto. eapply Ok_; eauto.
Qed.

(** ** Densities *)
Definition good (inv : inverses K) (t : id) : Prop := forall ax, oaxis (hget h0 t) = Some ax ->
  exists rho m, inv t = Some m /\ density A R t ax rho /\ invert (Some rho) (nth ax (shape (A t)) 0) = Ok m.
Hypothesis Total : yields invert h0 A R.

Lemma density_view t k1 k k2 rho : In t (nids R) -> view K h0 r ks0 A t k1 k k2 -> is_matrix rho (nth (k_i k) (shape (A t)) 0) (nth (k_i k) (shape (A t)) 0) ->
  (forall p q, p < nth (k_i k) (shape (A t)) 0 -> q < nth (k_i k) (shape (A t)) 0 -> get rho [p; q] = through K A t k p q) -> density A R t (k_i k) rho.
Proof.
  intros Ht V M G. split; auto. intros x y Wx Wy Sx Sy. rewrite (overlap_self K h0 r ks0 A H0 ND F Or U t k1 k k2 x y V Ht Wx Wy Sx Sy).
  unfold joined. apply sumn_ext. intros p Hp. apply sumn_ext. intros q Hq. rewrite G by auto. reflexivity.
Qed.
Lemma density_run : forall l inv s, incl l (ids R) -> base [] s ->
  exists inv' s', Direct_Model.over (density_of K fuel invert) l (inv, s) = Ok (inv', s') /\ same_but_cache K (sheap K s) (sheap K s') /\ base [] s' /\ senv K s' = senv K s /\
    (forall t, In t l -> In t (nids R) -> good inv' t) /\ (forall t, In t (nids R) -> good inv t -> good inv' t).
Proof.
  induction l as [|t l IH]; intros inv s Hl B; cbn [Direct_Model.over].
  { exists inv, s. split; auto. split; [apply sbc_refl|]. split; auto. split; auto. split; auto. intros t []. }
  assert (Hl' : incl l (ids R)) by (intros x Hx; apply Hl; right; auto).
  unfold density_of at 1. assert (Ax : oaxis (hget (sheap K s) t) = oaxis (hget h0 t)) by (destruct (bs_core _ _ B) as (_ & C); destruct (C t) as (_ & _ & -> & _); auto).
  rewrite Ax. destruct (oaxis (hget h0 t)) as [ax|] eqn:Ea.
  - assert (Ht : In t (nids R)).
    { pose proof (Hl t (or_introl eq_refl)) as Hi. eapply Permutation_in in Hi; [|apply ids_split]. apply in_app_iff in Hi. destruct Hi as [|Hi]; auto.
      rewrite (Lx t Hi) in Ea. discriminate. }
    assert (Nt : t <> r) by (intros ->; rewrite (r_axis K h0 r ks0 Or) in Ea; discriminate).
    destruct (view_exists K h0 r ks0 A H0 F DO Or t Ht Nt) as (k1 & k & k2 & V). pose proof V as (Sn & Ea' & _).
    assert (k_i k = ax) by congruence. subst ax.
    destruct (density_at K h0 r ks0 A H0 Or Ar U' t k1 k k2 V) as (rho & Er & Mr & Gr).
    pose proof (density_view t k1 k k2 rho Ht V Mr Gr) as De. destruct (Total t (k_i k) rho Ht Ea' De) as (m & Em & Mm).
    destruct (net_kids t _ Sn) as (_ & Ek & _).
    assert (Hk : In k (k1 ++ k :: k2)) by (apply in_app_iff; right; left; auto).
    assert (Pe : penv K (dressed h0 []) (k1 ++ k :: k2) (k_i k) = Ok (Some rho)).
    { unfold penv. destruct (find_kid (k1 ++ k :: k2) (k_i k) (in_map k_i _ _ Hk)) as (k' & Fk & Hk' & Ek'). rewrite Fk.
      rewrite (k_unique (k1 ++ k :: k2) k' k) by (auto; rewrite Ek; apply seq_NoDup). exact Er. }
    destruct (proper_any [] s t _ (k_i k) (Some rho) B Sn (in_map k_i _ _ Hk) Pe) as (h2 & Ep & S2 & E2). rewrite Ep. cbn [bind].
    assert (A2 : oarr (hget h2 t) = Some (A t)).
    { destruct (core_trans K _ _ _ (bs_core _ _ B) (core_sbc K _ _ S2)) as (_ & C). destruct (C t) as (_ & _ & _ & _ & _ & ->); auto.
      apply (nids_inner K h0 R None H0 t Ht). }
    rewrite A2, Em. cbn [bind].
    destruct (IH (fun x => if x =? t then Some m else inv x) (with_heap K s h2) Hl') as (inv' & s' & E & S' & B' & Ee & G1 & G2).
    { apply (base_shell [] s h2 B); auto. apply shell_sbc; auto. }
    exists inv', s'. split; auto. split; [eapply sbc_trans; eauto|]. split; auto. split; auto.
    assert (Gt : good (fun x => if x =? t then Some m else inv x) t).
    { intros ax Hax. assert (ax = k_i k) by congruence. subst ax. exists rho, m. rewrite Nat.eqb_refl. auto. }
    split.
    + intros x [<-|Hx] Hn; auto.
    + intros x Hn Gx. apply G2; auto. destruct (Nat.eq_dec x t) as [->|Nx]; auto. intros ax Hax. apply Nat.eqb_neq in Nx. rewrite Nx. apply Gx; auto.
  - cbn [bind]. destruct (IH inv s Hl' B) as (inv' & s' & E & S' & B' & Ee & G1 & G2). exists inv', s'. split; auto. split; auto. split; auto. split; auto. split; auto.
    intros x [<-|Hx] Hn; auto. apply G2; auto. intros ax Hax. congruence.
Qed.
Lemma form_inv_run s : core K h0 (sheap K s) -> sroot K s = r ->
  exists inv s', form_inv_density K fuel invert s = Ok (inv, s') /\ core K h0 (sheap K s') /\ sroot K s' = r /\ senv K s' = senv K s /\ forall t, In t (nids R) -> good inv t.
Proof.
  intros C Er. unfold form_inv_density. assert (Hs : hangs (sheap K s) None R) by (eapply core_hangs; eauto).
  replace (visitor fuel (sheap K s) (sroot K s) None true) with (Ok (ids R)).
  2:{ symmetry. rewrite Er. apply (visitor_hangs K (sheap K s) R None fuel true Hs Hh). }
  cbn [bind]. set (hr := set_all (reset_obj K) (sheap K s) (ids R)).
  assert (C1 : core K h0 hr) by (eapply core_trans; [exact C|apply core_set_all, kept_reset]).
  pose proof (reset_clean K R (sheap K s) (ex_intro _ None Hs)) as Cl. fold hr in Cl.
  assert (B : base [] (with_heap K s hr)).
  { constructor; cbn [with_heap sheap sroot]; auto.
    - apply (begin_sees K R h0 hr false (senv K s) 0 [] [] hr); auto; try reflexivity. exists None. eapply core_hangs; eauto.
    - intros x j v u p Hx Hc Hu Tu Lf. exfalso. unfold hr in Hc. rewrite set_all_get in Hc by apply reset_idem.
      replace (memb x (ids R)) with true in Hc by (symmetry; apply memb_In; auto).
      replace (x <? length (sheap K s)) with true in Hc by (symmetry; apply Nat.ltb_lt; eapply hangs_lt; eauto). cbn [andb] in Hc.
      unfold reset_obj in Hc. destruct (oleaf (hget (sheap K s) x)) eqn:Lx'; cbn [put_cache ocache] in Hc; [|discriminate].
      destruct C1 as (_ & C1). destruct C as (_ & C). destruct (C1 x) as (_ & Q1 & _). destruct (C x) as (_ & Q2 & _). congruence. }
  destruct (density_run (ids R) (fun _ => None) (with_heap K s hr) (incl_refl _) B) as (inv & s' & E & S' & B' & Ee & G1 & _).
  exists inv, s'. split; auto. split; [apply B'|]. split; [apply B'|]. split; auto. intros t Ht. apply G1; auto. apply nids_ids. auto.
Qed.

(** ** What a term contributes to the derivative of a tensor *)
Definition contrib (t : id) (term : list (id * arr K)) (X : arr K) : Prop :=
  wf X /\ shape X = shape (A t) /\ gauged K h0 A t X /\
  (inverts invert h0 A R t -> forall f, allowed h0 A t f -> overlap (exchanged A t X) (varied A t f) R = element A (varied A t f) R term).

Lemma single_run inv n term t s : In t (nids R) -> In term terms -> base term s -> okh n term (senv K s) -> good inv t ->
  exists X s', single_eom_any K fuel inv t n s = Ok (X, s') /\ contrib t term X /\ same_but_cache K (sheap K s) (sheap K s') /\ base term s' /\ senv K s' = senv K s.
Proof.
  intros Ht Hin B Ok_ Gd. unfold single_eom_any. pose proof (bs_core _ _ B) as C. pose proof C as (_ & Ck). destruct (Ck t) as (_ & _ & Kx & _ & _ & Ka).
  rewrite Ka, Ar by (auto; apply (nids_inner K h0 R None H0 t Ht)). rewrite (core_order K h0 (sheap K s) t C).
  destruct (net_at t Ht) as (ks & Sn). destruct (net_kids t ks Sn) as (E1 & E2 & _). rewrite E1.
  destruct (grad_any t ks term Sn Hin) as (c & Ec & Wc & Sc & Gc).
  destruct (apply_any term n t ks Sn (seq 0 (ndim (A t))) (A t) c s) as (s' & Ea & Sa & Ba & Ee & Er); auto.
  { rewrite E2. apply Forall_forall. auto. }
  rewrite Ea. cbn [bind]. assert (Ax : oaxis (hget (sheap K s') t) = oaxis (hget h0 t)) by (destruct (bs_core _ _ Ba) as (_ & Cb); destruct (Cb t) as (_ & _ & -> & _); auto).
  rewrite Ax. destruct (oaxis (hget h0 t)) as [ax|] eqn:Ea'.
  - assert (Nt : t <> r) by (intros ->; rewrite (r_axis K h0 r ks0 Or) in Ea'; discriminate).
    destruct (view_exists K h0 r ks0 A H0 F DO Or t Ht Nt) as (k1 & k & k2 & V). pose proof V as (_ & Ek & _ & _ & _ & _ & Hi & _ & Fk).
    assert (k_i k = ax) by congruence. subst ax. set (d := nth (k_i k) (shape (A t)) 0) in *.
    destruct (Gd _ Ea') as (rho & m & Em & De & Iv). rewrite Em.
    destruct (Total t (k_i k) rho Ht Ea' De) as (m' & Em' & Mm). fold d in Em', Mm, Iv. rewrite Em' in Iv. injection Iv as ->.
    pose proof (U t Ht Nt) as Iso. rewrite Ea' in Iso. cbn [unit_along] in Iso.
    assert (Wt : wf (A t)) by (apply (fits_wf K A R None 0 F t Ht)).
    assert (Hd : d <> 0).
    { pose proof (sn_fits K h0 _ _ Sn A F) as Ft. inversion Ft as [|? ? ? ? _ P _ _ _]; subst.
      rewrite Forall_forall in P. specialize (P d ltac:(apply nth_In; exact Hi)). lia. }
    destruct (project_sem K (A t) (k_i k) m c d Wt Hi eq_refl Hd Iso Mm Wc Sc) as (X & EX & WX & SX & GX & PX).
    rewrite EX. cbn [bind]. exists X, s'. split; auto. split; [|auto]. split; auto. split; auto. split.
    + intros ax p q Hax Hp Hq. assert (ax = k_i k) by congruence. subst ax. apply GX; auto.
    + intros Iv f Al. pose proof Al as (Wf & Sf & Orf). rewrite (proj2 De) by auto. fold d.
      change (joined K (fun p q => get rho [p; q]) d (k_i k) f X = element A (varied A t f) R term).
      rewrite PX; [apply Gc; auto| |].
      * apply (Iv (k_i k) rho m); auto.
      * intros p q Hp Hq. apply (Orf (k_i k)); auto.
  - exists c, s'. split; auto. split; [|auto]. split; auto. split; auto. split; [intros ax p q Hax; congruence|].
    intros _ f (Wf & Sf & _). assert (t = r) as ->.
    { cbn [nids] in Ht. destruct Ht as [Ht|Ht]; auto. exfalso. inversion Or as [|? ? ? _ Fo]; subst. apply in_flat_map in Ht. destruct Ht as (k & Hk & Ht).
      rewrite Forall_forall in Fo. apply (oriented_some K h0 _ _ (Fo k Hk) t Ht). auto. }
    rewrite (overlap_root K h0 r ks0 A H0 ND F Or U c f Wc Sc Wf Sf). apply Gc; auto.
Qed.

(** ** The loop over the terms *)
Lemma axis_root t : In t (nids R) -> (oaxis (hget h0 t) = None <-> t = r).
Proof.
  intros Ht. split; [|intros ->; apply (r_axis K h0 r ks0 Or)]. intros Ea. cbn [nids] in Ht. destruct Ht as [Ht|Ht]; auto. exfalso.
  inversion Or as [|? ? ? _ Fo]; subst. apply in_flat_map in Ht. destruct Ht as (k & Hk & Ht).
  rewrite Forall_forall in Fo. apply (oriented_some K h0 _ _ (Fo k Hk) t Ht). auto.
Qed.
Definition summed (t : id) (Xs : list (arr K)) (v : option (arr K)) : Prop :=
  match v with
  | None => Xs = []
  | Some y => Xs <> [] /\ wf y /\ shape y = shape (A t) /\ forall idx, in_range idx (shape (A t)) -> get y idx = sumL Xs (fun X => get X idx)
  end.
Lemma acc_run inv n term : nth_error terms n = Some term -> (forall t, In t (nids R) -> good inv t) -> forall l s, NoDup l -> incl l (nids R) -> base term s -> okall (senv K s) ->
  (forall t, In t l -> exists Xs, summed t Xs (oaux (hget (sheap K s) t))) ->
  exists s', Direct_Model.over (accumulate K fuel inv n) l s = Ok s' /\ base term s' /\ senv K s' = senv K s /\ shell (sheap K s) (sheap K s') /\
    (forall t, ~ In t l -> oaux (hget (sheap K s') t) = oaux (hget (sheap K s) t)) /\
    forall t, In t l -> exists X, contrib t term X /\ forall Xs, summed t Xs (oaux (hget (sheap K s) t)) -> summed t (Xs ++ [X]) (oaux (hget (sheap K s') t)).
Proof.
  intros Hn Gd. induction l as [|t l IH]; intros s Nl Hl B Ok_ Sm; cbn [Direct_Model.over].
  { exists s. split; auto. split; auto. split; auto. split; [apply shell_refl|]. split; auto. intros t []. }
  apply NoDup_cons_iff in Nl. destruct Nl as (Nt & Nl). pose proof (Hl t (or_introl eq_refl)) as Ht.
  destruct (single_run inv n term t s Ht (nth_error_In _ _ Hn) B (Ok_ n term Hn) (Gd t Ht)) as (X & s1 & E1 & Cx & S1 & B1 & Ee1).
  unfold accumulate at 1. rewrite E1. cbn [bind]. rewrite (sbc_aux _ _ t S1).
  assert (Lt : t < length (sheap K s1)).
  { destruct S1 as (-> & _). destruct (bs_core _ _ B) as (-> & _). apply (hangs_lt K h0 None R H0). apply nids_ids. auto. }
  assert (Y : exists y, match oaux (hget (sheap K s) t) with None => Ok X | Some p => arr_add p X end = Ok y /\
    forall Xs, summed t Xs (oaux (hget (sheap K s) t)) -> summed t (Xs ++ [X]) (Some y)).
  { pose proof Cx as (Wx & Sx & _). destruct (Sm t (or_introl eq_refl)) as (Xs0 & Hs). destruct (oaux (hget (sheap K s) t)) as [p|].
    - destruct Hs as (_ & Wp & Sp & _). rewrite arr_add_ok by congruence. eexists. split; [reflexivity|]. intros Xs (Hx & _ & _ & Gp).
      split; [destruct Xs; discriminate|]. split; [apply wf_build|]. split; [auto|]. intros idx Hi. rewrite get_build by (rewrite Sp; auto).
      rewrite sumL_app, Gp by auto. cbn [sumL fold_right]. unfold sumL; cbn. ring.
    - exists X. split; auto. intros Xs ->. split; [discriminate|]. split; auto. split; auto. intros idx Hi. unfold sumL; cbn. ring. }
  destruct Y as (y & Ey & Hy). rewrite Ey. cbn [bind]. set (h2 := modify (sheap K s1) t (put_aux (Some y))).
  assert (Sh : shell (sheap K s) h2) by (eapply shell_trans; [apply shell_sbc; eauto|apply shell_aux]).
  destruct (IH (with_heap K s1 h2)) as (s' & E' & B' & Ee' & S' & Out & In_); auto.
  - intros x Hx. apply Hl. right. auto.
  - apply (base_shell term s1 h2 B1); [apply shell_aux|]. apply (shell_exact Q (sheap K s1)); [apply shell_aux|intros x; apply cache_aux|apply B1].
  - cbn [with_heap senv]. rewrite Ee1. auto.
  - cbn [with_heap sheap]. intros x Hx. unfold h2. rewrite hget_modify_neq by congruence. rewrite (sbc_aux _ _ x S1). apply Sm. right. auto.
  - cbn [with_heap sheap senv] in *. exists s'. split; auto. split; auto. split; [congruence|]. split; [eapply shell_trans; eauto|]. split.
    + intros x Hx. rewrite Out by (intros Z; apply Hx; right; auto). unfold h2. rewrite hget_modify_neq by (intros ->; apply Hx; left; auto). apply sbc_aux; auto.
    + intros x [<-|Hx].
      * exists X. split; auto. intros Xs Hs. rewrite Out by auto. unfold h2. rewrite hget_modify_eq by auto. cbn [put_aux oaux]. auto.
      * destruct (In_ x Hx) as (X' & C' & H'). exists X'. split; auto. intros Xs Hs. apply H'. unfold h2. rewrite hget_modify_neq by congruence.
        rewrite (sbc_aux _ _ x S1). auto.
Qed.

Lemma nids_nodup : NoDup (nids R).
Proof.
  pose proof (Permutation_NoDup (ids_split R) ND) as N. revert N. generalize (nids R) (lids R). induction l as [|x l IH]; intros m N; [constructor|].
  cbn [app] in N. apply NoDup_cons_iff in N. destruct N as (N1 & N2). constructor; [|eapply IH; eauto]. intros X. apply N1. apply in_app_iff. auto.
Qed.
Lemma tensors_run leaf s : core K h0 (sheap K s) -> sroot K s = r -> tensors K fuel leaf s = Ok (if leaf then ids R else nids R).
Proof.
  intros C Er. unfold tensors. rewrite Er. pose proof C as (_ & Ck). destruct (Ck r) as (_ & _ & -> & _). rewrite (r_axis K h0 r ks0 Or).
  apply (visitor_hangs K (sheap K s) R None fuel leaf); [eapply core_hangs; eauto|apply Hh].
Qed.

Definition grown (n : nat) (s : state K) : Prop := okall (senv K s) /\ forall t, In t (nids R) ->
  exists Xs, Forall2 (contrib t) (firstn n terms) Xs /\ summed t Xs (oaux (hget (sheap K s) t)).
Lemma firstn_snoc {X} (l : list X) n x : nth_error l n = Some x -> firstn (S n) l = firstn n l ++ [x].
Proof.
  revert n. induction l as [|y l IH]; intros [|n] E; try discriminate; cbn [nth_error] in E.
  - injection E as ->. reflexivity.
  - change (y :: firstn (S n) l = y :: (firstn n l ++ [x])). f_equal. auto.
Qed.
Lemma terms_run inv s : (forall t, In t (nids R) -> good inv t) -> core K h0 (sheap K s) -> clean K R (sheap K s) -> sroot K s = r -> grown 0 s ->
  exists s', each_term K fuel false 0 (eom_body K fuel inv) 0 terms tt s = Ok (tt, s') /\ core K h0 (sheap K s') /\ clean K R (sheap K s') /\ sroot K s' = r /\ grown (length terms) s'.
Proof.
  intros Gd C Cl Er G0. apply (each_run grown (eom_body K fuel inv) terms); auto using suits_leaf; [| |lia].
  - intros n s1 h (G1 & G2) E. split; auto. intros t Ht. destruct (G2 t Ht) as (Xs & Fx & Sx). exists Xs. split; auto. cbn [with_heap sheap]. rewrite E. auto.
  - clear s C Cl Er G0. intros n term s Hn B (Ok_ & G). unfold eom_body. rewrite (tensors_run false s (bs_core _ _ B) (bs_root _ _ B)). cbn [bind].
    destruct (acc_run inv n term Hn Gd (nids R) s nids_nodup (incl_refl _) B Ok_) as (s' & E & B' & Ee & S' & _ & In_).
    { intros t Ht. destruct (G t Ht) as (Xs & _ & Sx). eauto. }
    rewrite E. cbn [bind]. exists s'. split; auto. split; [|split; [auto|apply B']]. split; [rewrite Ee; auto|].
    intros t Ht. destruct (G t Ht) as (Xs & Fx & Sx). destruct (In_ t Ht) as (X & Cx & Hx). exists (Xs ++ [X]). rewrite (firstn_snoc terms n term Hn).
    split; [|auto]. apply Forall2_app; auto.
Qed.

(** ** The last loop, and the whole *)
Lemma finish_run icoef e0 : forall l s, NoDup l -> incl l (nids R) -> core K h0 (sheap K s) ->
  (forall t, In t l -> exists y, oaux (hget (sheap K s) t) = Some y /\ wf y /\ shape y = shape (A t)) ->
  exists s', Direct_Model.over (finish K icoef e0) l s = Ok s' /\ shell (sheap K s) (sheap K s') /\ senv K s' = senv K s /\ sroot K s' = sroot K s /\
    (forall t, ~ In t l -> oaux (hget (sheap K s') t) = oaux (hget (sheap K s) t)) /\
    forall t, In t l -> forall y, oaux (hget (sheap K s) t) = Some y -> exists D, oaux (hget (sheap K s') t) = Some D /\ wf D /\ shape D = shape (A t) /\
      forall idx, in_range idx (shape (A t)) -> get D idx = rsub (rmul icoef (get y idx)) (if t =? r then rmul (shift e0) (get (A t) idx) else r0).
Proof.
  induction l as [|t l IH]; intros s Nl Hl C Sm; cbn [Direct_Model.over].
  { exists s. split; auto. split; [apply shell_refl|]. split; auto. split; auto. split; auto. intros t []. }
  apply NoDup_cons_iff in Nl. destruct Nl as (Nt & Nl). pose proof (Hl t (or_introl eq_refl)) as Ht.
  destruct (Sm t (or_introl eq_refl)) as (y & Ey & Wy & Sy). unfold finish at 1. rewrite Ey.
  pose proof C as (Lc & Ck). destruct (Ck t) as (_ & _ & Kx & _ & _ & Ka). rewrite Kx, Ka, Ar by (auto; apply (nids_inner K h0 R None H0 t Ht)).
  assert (Lt : t < length (sheap K s)). { rewrite Lc. apply (hangs_lt K h0 None R H0). apply nids_ids. auto. }
  pose proof (fits_wf K A R None 0 F t Ht) as Wt.
  assert (Y : exists D, match oaxis (hget h0 t), e0, Some (A t) with
                | None, Some e, Some a => arr_sub K (arr_scale icoef y) (arr_scale e a)
                | None, Some _, None => Raise TypeError
                | _, _, _ => Ok (arr_scale icoef y) end = Ok D /\ wf D /\ shape D = shape (A t) /\
      forall idx, in_range idx (shape (A t)) -> get D idx = rsub (rmul icoef (get y idx)) (if t =? r then rmul (shift e0) (get (A t) idx) else r0)).
  { destruct (axis_root t Ht) as (X1 & X2). destruct (oaxis (hget h0 t)) as [ax|].
    - replace (t =? r) with false by (symmetry; apply Nat.eqb_neq; intros ->; discriminate (X2 eq_refl)). exists (arr_scale icoef y). split; auto.
      split; [apply wf_scale; auto|]. split; auto. intros idx Hi. rewrite get_scale. ring.
    - rewrite (X1 eq_refl). rewrite Nat.eqb_refl. rewrite (X1 eq_refl) in *. destruct e0 as [e|]; cbn [shift].
      + rewrite arr_sub_ok by (try apply wf_scale; auto). eexists. split; [reflexivity|]. split; [apply wf_build|]. split; auto.
        intros idx Hi. rewrite get_build by (cbn [arr_scale shape]; rewrite Sy; auto). rewrite !get_scale. reflexivity.
      + exists (arr_scale icoef y). split; auto. split; [apply wf_scale; auto|]. split; auto. intros idx Hi. rewrite get_scale. ring. }
  destruct Y as (D & ED & WD & SD & GD). rewrite ED. cbn [bind]. set (h2 := modify (sheap K s) t (put_aux (Some D))).
  destruct (IH (with_heap K s h2)) as (s' & E' & S' & Ee' & Er' & Out & In_); auto.
  - intros x Hx. apply Hl. right. auto.
  - cbn [with_heap sheap]. eapply core_trans; [exact C|apply shell_core, shell_aux].
  - cbn [with_heap sheap]. intros x Hx. unfold h2. rewrite hget_modify_neq by congruence. apply Sm. right. auto.
  - cbn [with_heap sheap senv sroot] in *. exists s'. split; auto. split; [eapply shell_trans; [apply shell_aux|eauto]|]. split; auto. split; auto. split.
    + intros x Hx. rewrite Out by (intros Z; apply Hx; right; auto). unfold h2. rewrite hget_modify_neq by (intros ->; apply Hx; left; auto). auto.
    + intros x [<-|Hx] z Ez.
      * exists D. rewrite Out by auto. unfold h2. rewrite hget_modify_eq by auto. cbn [put_aux oaux]. assert (z = y) by congruence. subst z. auto.
      * apply In_; auto. unfold h2. rewrite hget_modify_neq by congruence. auto.
Qed.

Definition derived (icoef : K) (e0 : option K) (t : id) (D : arr K) : Prop :=
  wf D /\ shape D = shape (A t) /\ exists Xs, Forall2 (contrib t) terms Xs /\
    forall idx, in_range idx (shape (A t)) ->
      get D idx = rsub (rmul icoef (sumL Xs (fun X => get X idx))) (if t =? r then rmul (shift e0) (get (A t) idx) else r0).

Lemma eom_run icoef e0 inv time s : all_terms K T sys time = terms -> terms <> [] -> (forall t, In t (nids R) -> good inv t) ->
  core K h0 (sheap K s) -> sroot K s = r -> okall (senv K s) ->
  exists s', eom K T sys fuel icoef e0 inv time s = Ok s' /\ core K h0 (sheap K s') /\ sroot K s' = r /\ okall (senv K s') /\
    forall t, In t (nids R) -> exists D, oaux (hget (sheap K s') t) = Some D /\ derived icoef e0 t D.
Proof.
  intros Et Ne Gd C Er Ok_. unfold eom. rewrite (tensors_run true s C Er). cbn [bind].
  set (ha := set_all (put_aux None) (sheap K s) (ids R)). assert (Ca : core K h0 ha) by (eapply core_trans; [exact C|apply shell_core, shell_aux_all]).
  unfold term_visitor. cbn [with_heap sheap sroot]. assert (Ha : hangs ha None R) by (eapply core_hangs; eauto).
  replace (visitor fuel ha (sroot K s) None true) with (Ok (ids R)).
  2:{ symmetry. rewrite Er. apply (visitor_hangs K ha R None fuel true Ha Hh). }
  cbn [bind]. rewrite Et. set (hr := set_all (reset_obj K) ha (ids R)).
  destruct (terms_run inv (mkState K hr (sroot K s) (senv K s)) Gd) as (s1 & E1 & C1 & Cl1 & R1 & Ok1 & G1); cbn [sheap sroot senv]; auto.
  - eapply core_trans; [exact Ca|apply core_set_all, kept_reset].
  - apply reset_clean. eauto.
  - split; auto. cbn [senv sheap]. intros t Ht. exists []. split; [constructor|]. unfold hr. rewrite set_all_get by apply reset_idem.
    assert (Ea : oaux (hget ha t) = None).
    { unfold ha. rewrite set_all_get by reflexivity. pose proof (nids_ids _ _ Ht) as Hi.
      replace (memb t (ids R)) with true by (symmetry; apply memb_In; auto).
      replace (t <? length (sheap K s)) with true; auto. symmetry. apply Nat.ltb_lt. eapply hangs_lt; [|exact Hi]. eapply core_hangs; [exact C|exact H0]. }
    assert (Eb : forall o, oaux (reset_obj K o) = oaux o) by (intros o; unfold reset_obj; destruct (oleaf o); auto).
    destruct (_ && _); rewrite ?Eb, Ea; reflexivity.
  - change (with_heap K (with_heap K s ha) hr) with (mkState K hr (sroot K s) (senv K s)). rewrite E1. cbn [bind snd]. rewrite (tensors_run false s1 C1 R1). cbn [bind].
    rewrite firstn_all in G1.
    assert (G2 : forall t, In t (nids R) -> exists Xs y, Forall2 (contrib t) terms Xs /\ oaux (hget (sheap K s1) t) = Some y /\ wf y /\ shape y = shape (A t) /\
       forall idx, in_range idx (shape (A t)) -> get y idx = sumL Xs (fun X => get X idx)).
    { intros t Ht. destruct (G1 t Ht) as (Xs & Fx & Sx). destruct (oaux (hget (sheap K s1) t)) as [y|].
      - destruct Sx as (_ & W & S & G). exists Xs, y. auto.
      - cbn [summed] in Sx. subst Xs. inversion Fx. congruence. }
    destruct (finish_run icoef e0 (nids R) s1 nids_nodup (incl_refl _) C1) as (s2 & E2 & S2 & Ee2 & Er2 & _ & In2).
    { intros t Ht. destruct (G2 t Ht) as (Xs & y & _ & Ey & W & S & _). eauto. }
    exists s2. split; auto. split; [eapply core_trans; [exact C1|apply shell_core; auto]|]. split; [congruence|]. split; [rewrite Ee2; auto|].
    intros t Ht. destruct (G2 t Ht) as (Xs & y & Fx & Ey & W & S & G). destruct (In2 t Ht y Ey) as (D & ED & WD & SD & GD). exists D. split; auto. split; auto. split; auto.
    exists Xs. split; auto. intros idx Hi. rewrite GD, G by auto. reflexivity.
Qed.
Lemma derivatives_run icoef e0 time s : all_terms K T sys time = terms -> terms <> [] -> sheap K s = h0 -> sroot K s = r ->
  exists s', derivatives K T sys fuel invert icoef e0 time s = Ok s' /\ core K h0 (sheap K s') /\ sroot K s' = r /\
    forall t, In t (nids R) -> exists D, oaux (hget (sheap K s') t) = Some D /\ derived icoef e0 t D.
Proof.
  intros Et Ne Eh Er. unfold derivatives, form_env. fold (form_body K fuel). unfold term_visitor. cbn [with_env sheap sroot]. rewrite Eh.
  replace (visitor fuel h0 (sroot K s) None true) with (Ok (ids R)).
  2:{ symmetry. rewrite Er. apply (visitor_hangs K h0 R None fuel true H0 Hh). }
  cbn [bind]. rewrite Et. set (hr := set_all (reset_obj K) h0 (ids R)).
  destruct (form_run (mkState K hr (sroot K s) (no_env K))) as (s1 & E1 & C1 & Cl1 & R1 & Ok1); cbn [sheap sroot senv]; auto.
  - apply core_set_all, kept_reset.
  - apply reset_clean. eauto.
  - intros n term _ t ks i v _ _ X. discriminate.
  - change (with_heap K (with_env K s (no_env K)) hr) with (mkState K hr (sroot K s) (no_env K)). rewrite E1. cbn [bind snd].
    destruct (form_inv_run s1 C1 R1) as (inv & s2 & E2 & C2 & R2 & Ee2 & G2). rewrite E2. cbn [bind].
    destruct (eom_run icoef e0 inv time s2 Et Ne G2 C2 R2) as (s3 & E3 & C3 & R3 & _ & G3); [rewrite Ee2; auto|].
    exists s3. auto.
Qed.

Lemma advance_run dt : forall l s, NoDup l -> incl l (nids R) -> (forall t, In t l -> t < length (sheap K s)) ->
  (forall t, In t l -> oarr (hget (sheap K s) t) = Some (A t) /\ exists D, oaux (hget (sheap K s) t) = Some D /\ wf D /\ shape D = shape (A t)) ->
  exists s', Direct_Model.over (advance K dt) l s = Ok s' /\ sroot K s' = sroot K s /\ length (sheap K s') = length (sheap K s) /\
    (forall x, oleaf (hget (sheap K s') x) = oleaf (hget (sheap K s) x) /\ oaxis (hget (sheap K s') x) = oaxis (hget (sheap K s) x) /\
       onorm (hget (sheap K s') x) = onorm (hget (sheap K s) x) /\ oacc (hget (sheap K s') x) = oacc (hget (sheap K s) x)) /\
    (forall x, ~ In x l -> hget (sheap K s') x = hget (sheap K s) x) /\
    forall t D, In t l -> oaux (hget (sheap K s) t) = Some D -> oaux (hget (sheap K s') t) = None /\ exists y, oarr (hget (sheap K s') t) = Some y /\ wf y /\ shape y = shape (A t) /\
      forall idx, in_range idx (shape (A t)) -> get y idx = radd (get (A t) idx) (rmul dt (get D idx)).
Proof.
  induction l as [|t l IH]; intros s Nl Hl Lh Sm; cbn [Direct_Model.over].
  { exists s. split; auto. split; auto. split; auto. split; [intros x; auto|]. split; auto. intros t D []. }
  apply NoDup_cons_iff in Nl. destruct Nl as (Nt & Nl). pose proof (Hl t (or_introl eq_refl)) as Ht.
  destruct (Sm t (or_introl eq_refl)) as (Ea & D & ED & WD & SD). unfold advance at 1. rewrite Ea, ED.
  pose proof (fits_wf K A R None 0 F t Ht) as Wt. pose proof (Lh t (or_introl eq_refl)) as Lt.
  rewrite arr_add_ok by (try apply wf_scale; auto). cbn [bind]. set (y := build _ _).
  set (h2 := modify (sheap K s) t (fun o => put_aux None (put_arr (Some y) o))).
  assert (N2 : forall x, x <> t -> hget h2 x = hget (sheap K s) x) by (intros x Hx; unfold h2; rewrite hget_modify_neq; auto).
  assert (T2 : hget h2 t = put_aux None (put_arr (Some y) (hget (sheap K s) t))) by (unfold h2; rewrite hget_modify_eq; auto).
  destruct (IH (with_heap K s h2)) as (s' & E' & Er' & Ln' & At' & Out & In_); auto; cbn [with_heap sheap sroot] in *.
  - intros x Hx. apply Hl. right. auto.
  - intros x Hx. unfold h2. rewrite length_modify. apply Lh. right. auto.
  - intros x Hx. rewrite N2 by congruence. apply Sm. right. auto.
  - exists s'. split; auto. split; auto. split; [rewrite Ln'; apply length_modify|]. split; [|split].
    + intros x. destruct (At' x) as (-> & -> & -> & ->). destruct (Nat.eq_dec x t) as [->|Nx]; [rewrite T2; cbn; auto|rewrite N2 by auto; auto].
    + intros x Hx. rewrite Out by (intros Z; apply Hx; right; auto). apply N2. intros ->. apply Hx. left. auto.
    + intros x D' [<-|Hx] Ex.
      * rewrite Out by auto. rewrite T2. cbn [put_aux put_arr oaux oarr]. split; auto. exists y. split; auto. split; [apply wf_build|]. split; auto.
        intros idx Hi. unfold y. rewrite get_build by auto. rewrite get_scale. congruence.
      * apply In_; auto. rewrite N2 by congruence. auto.
Qed.
End Terms.
End Net.
End DirectRun.
