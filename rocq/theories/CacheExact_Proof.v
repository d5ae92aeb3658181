(** The environments that are stored and read belong to the current network. *)
From Coq Require Import String List Arith Bool Lia Permutation Sorting.Sorted.
From Verif Require Import Py Alg ListX NdArray_Model NdArray_Proof Contract_Model Contract_Spec Contract_Proof
  Net_Model Net_Spec Sweep_Spec Sweep_Proof Trav_Proof Acyc_Proof Env_Proof TEnv_Proof EnvThm_Proof Link_Spec Link_Proof Move_Spec
  Split_Proof Relink_Proof Move_Proof MoveRoot_Proof Pair_Proof State_Spec State_Proof Contraction_Proof Mid_Proof
  Cache_Model Cache_Spec Cache_Proof.
Import ListNotations.
Local Open Scope nat_scope.
Local Open Scope list_scope.
Local Open Scope py_scope.

Section CacheExact.
Variable K : StarRing.
Implicit Types h : heap K.
Notation state := (state K).
Notation sheap := (sheap K).
Notation sroot := (sroot K).
Notation senv := (senv K).

(** ** Leaves of a term *)
Lemma hget_map_combine (f : nat -> obj K -> obj K) : forall h s x, x < length h ->
  hget (map (fun p => f (fst p) (snd p)) (combine (seq s (length h)) h)) x = f (s + x) (hget h x).
Proof.
  induction h as [|o h IH]; intros s x Hx; [cbn in Hx; lia|]. destruct x as [|x]; cbn [length seq combine map].
  - unfold hget. cbn. f_equal. lia.
  - change (hget (map (fun p => f (fst p) (snd p)) (combine (seq (S s) (length h)) h)) x = f (s + S x) (hget h x)).
    rewrite IH by (cbn in Hx; lia). f_equal. lia.
Qed.
Lemma dressed_get h term x : x < length h -> hget (dressed h term) x =
  put_cache [] (if oleaf (hget h x) then put_arr (last_of term x) (hget h x) else hget h x).
Proof.
  intros Hx. unfold dressed.
  apply (hget_map_combine (fun n o => put_cache [] (if oleaf o then put_arr (last_of term n) o else o)) h 0 x Hx).
Qed.
Lemma dressed_length h term : length (dressed h term) = length h.
Proof. unfold dressed. rewrite map_length, combine_length, seq_length. lia. Qed.
Definition over (term : list (id * arr K)) (x : id) (a : option (arr K)) : option (arr K) :=
  fold_left (fun acc p => if fst p =? x then Some (snd p) else acc) term a.

Lemma set_leaves_get term : forall h h', set_leaves K h term = Ok h' -> forall x, x < length h ->
  oarr (hget h' x) = (if oleaf (hget h x) then over term x (oarr (hget h x)) else oarr (hget h x)) /\
  ocache (hget h' x) = ocache (hget h x).
Proof.
  induction term as [|(l, a) term IH]; intros h h' E x Hx; cbn [set_leaves] in E.
  - injection E as <-. cbn. destruct (oleaf (hget h x)); auto.
  - destruct (oleaf (hget h l)) eqn:L; [|discriminate]. destruct (IH _ _ E x ltac:(rewrite length_modify; auto)) as (E1 & E2).
    rewrite E1, E2. cbn [over fold_left fst snd]. destruct (Nat.eqb_spec l x) as [->|Hl].
    + rewrite hget_modify_eq by auto. cbn. rewrite L. auto.
    + rewrite hget_modify_neq by auto. auto.
Qed.
Lemma forallb_same {A} (f g : A -> bool) l : (forall x, f x = g x) -> forallb f l = forallb g l.
Proof. intros H. induction l; cbn; congruence. Qed.
Lemma set_leaves_ok term : forall h, match set_leaves K h term with
  | Ok _ => forallb (fun p => oleaf (hget h (fst p))) term = true
  | Raise e => e = RuntimeError /\ forallb (fun p => oleaf (hget h (fst p))) term = false end.
Proof.
  induction term as [|(l, a) term IH]; intros h; cbn [set_leaves forallb fst]; auto.
  destruct (oleaf (hget h l)) eqn:L; cbn [andb]; auto. specialize (IH (modify h l (put_arr (Some a)))).
  rewrite (forallb_same (fun p => oleaf (hget (modify h l (put_arr (Some a))) (fst p))) (fun p => oleaf (hget h (fst p)))) in IH; auto.
  intros p. destruct (core_modify K h l (put_arr (Some a))) as (_ & X); [repeat split; cbn; auto; congruence|].
  destruct (X (fst p)) as (_ & -> & _). auto.
Qed.

(** ** Views of a tree *)
Definition sees (t : tree) h hd : Prop := forall x, In x (ids t) ->
  oarr (hget hd x) = oarr (hget h x) /\ oaxis (hget hd x) = oaxis (hget h x) /\ onorm (hget hd x) = onorm (hget h x).
Definition clean (t : tree) h : Prop := forall x, In x (ids t) -> oleaf (hget h x) = true -> oarr (hget h x) = None.
Lemma sees_tenv t h hd u i : sees t h hd -> incl (ids u) (ids t) -> tenv K hd false i u = tenv K h false i u.
Proof. intros H I. apply tenv_local. intros x Hx. destruct (H x (I x Hx)) as (A & B & C). repeat split; auto. discriminate. Qed.
Lemma sees_sbc t h h' hd : same_but_cache K h h' -> sees t h hd -> sees t h' hd.
Proof.
  intros S H x Hx. destruct (sbc_fields K _ _ x S) as (_ & E1 & _ & E2 & E3 & _). destruct (H x Hx) as (A & B & C).
  rewrite E1, E2, E3. auto.
Qed.

Lemma dressed_agree t h h' term : (forall x, In x (ids t) -> x < length h /\ x < length h' /\ oleaf (hget h' x) = oleaf (hget h x) /\
    oaxis (hget h' x) = oaxis (hget h x) /\ onorm (hget h' x) = onorm (hget h x) /\ (oleaf (hget h x) = false -> oarr (hget h' x) = oarr (hget h x))) ->
  sees t (dressed h term) (dressed h' term).
Proof.
  intros H x Hx. destruct (H x Hx) as (L & L' & E1 & E2 & E3 & E4). rewrite !dressed_get by auto. rewrite E1.
  destruct (oleaf (hget h x)) eqn:Lf; cbn; auto.
Qed.

(** Stored entries of term number [n] are right, for the links away from the root. *)
Definition okn (n : nat) (R : tree) hd (e : envs K) : Prop :=
  forall t j u i v, edge_in R t j u i -> e n t j = Some v -> tenv K hd false (Some i) u = Ok v.
Lemma okn_sees n R h hd e : sees R h hd -> okn n R h e <-> okn n R hd e.
Proof.
  intros S. split; intros H t j u i v E X.
  - rewrite (sees_tenv R h hd) by (auto; eapply edge_ids; eauto). eauto.
  - rewrite <- (sees_tenv R h hd) by (auto; eapply edge_ids; eauto). eauto.
Qed.

Section Run.
Variable T : Type.
Variable sys : system K T.
Variable fuel : nat.
Notation hl := (h_list K T sys).

Definition env_ok (R : tree) h (e : envs K) : Prop :=
  forall n term, nth_error hl n = Some term -> okn n R (dressed h term) e.
Lemma env_ok_agree R h h' e :
  (forall x, In x (ids R) -> x < length h /\ x < length h' /\ oleaf (hget h' x) = oleaf (hget h x) /\
    oaxis (hget h' x) = oaxis (hget h x) /\ onorm (hget h' x) = onorm (hget h x) /\ (oleaf (hget h x) = false -> oarr (hget h' x) = oarr (hget h x))) ->
  env_ok R h e -> env_ok R h' e.
Proof. intros H O n term E. apply (okn_sees n R (dressed h term)); [apply dressed_agree; auto|]. auto. Qed.
Lemma env_ok_core R h h' e : (exists up, hangs h up R) -> core K h h' -> env_ok R h e -> env_ok R h' e.
Proof.
  intros (up & Hg) (L & C). apply env_ok_agree. intros x Hx. pose proof (hangs_lt K h _ _ Hg x Hx).
  destruct (C x) as (_ & E1 & E2 & E3 & _ & E4). rewrite L. auto 10.
Qed.

(** ** Starting a term *)
Lemma load_idem uc e n o : load K uc e n (load K uc e n o) = load K uc e n o.
Proof. reflexivity. Qed.
Lemma reset_idem o : reset_obj K (reset_obj K o) = reset_obj K o.
Proof. unfold reset_obj. destruct (oleaf o) eqn:E; cbn; rewrite E; reflexivity. Qed.

Lemma memb_In x l : memb x l = true <-> In x l.
Proof. unfold memb. rewrite existsb_exists. split; [intros (y & H & E); apply Nat.eqb_eq in E; subst; auto|]. intros H. exists x. rewrite Nat.eqb_refl. auto. Qed.

Lemma begin_sees R h0 h uc e n l term h' : (exists up, hangs h up R) -> core K h0 h -> clean R h ->
  set_leaves K (set_all (load K uc e n) h l) term = Ok h' -> sees R h' (dressed h0 term).
Proof.
  intros (up & Hg) (L & C) Cl E x Hx. pose proof (hangs_lt K h _ _ Hg x Hx) as Lx.
  pose proof (core_set_all K (load K uc e n) l (kept_load K uc e n) h) as (L1 & C1).
  pose proof (core_set_leaves K term _ _ E) as (L2 & C2). destruct (C x) as (_ & P1 & P2 & P3 & _ & P4).
  destruct (C1 x) as (_ & Q1 & Q2 & Q3 & _ & Q4). destruct (C2 x) as (_ & R1 & R2 & R3 & _ & R4).
  destruct (set_leaves_get term _ _ E x ltac:(lia)) as (E1 & _). rewrite dressed_get by lia.
  assert (A1 : oarr (hget (set_all (load K uc e n) h l) x) = oarr (hget h x)).
  { rewrite set_all_get by apply load_idem. destruct (memb x l && (x <? length h)); auto. }
  rewrite E1, A1, R2, R3, Q1, Q2, Q3, P1, P2, P3. destruct (oleaf (hget h0 x)) eqn:Lf; cbn.
  - split; auto. unfold last_of. rewrite (Cl x Hx) by congruence. auto.
  - rewrite P4; auto.
Qed.

(** Links that are followed from the root. *)
Definition downs (R : tree) (x : id) (i : nat) : Prop := exists t j u, edge_in R t j u i /\ top u = x.

Lemma fold_load (e : envs K) n : forall (l : list (nat * half)) c i v,
  dget (fold_left (fun c x => match e n (fst (snd x)) (snd (snd x)) with Some v => dput c (fst x) v | None => c end) l c) i = Some v ->
  dget c i = Some v \/ exists t j, In (i, (t, j)) l /\ e n t j = Some v.
Proof.
  induction l as [|(i0, (t0, j0)) l IH]; intros c i v H; cbn [fold_left] in H; auto. apply IH in H. cbn [fst snd] in H.
  destruct H as [H|(t & j & H & E)]; [|right; exists t, j; split; auto; right; auto].
  destruct (e n t0 j0) as [v0|] eqn:E0; [|auto]. rewrite dget_dput in H. destruct (Nat.eqb_spec i i0) as [->|]; [|auto].
  injection H as ->. right. exists t0, j0. split; auto. left. auto.
Qed.

Lemma edge_up_acc h t a i u j : (exists up, hangs h up t) -> edge_in t a i u j -> In (j, (a, i)) (oacc (hget h (top u))) /\ NoDup (map fst (oacc (hget h (top u)))).
Proof.
  intros (up & H) E. pose proof (edge_hangs K h t up H _ _ _ _ E) as Hu.
  inversion Hu as [n ? ? L A| |n ? ? ks ks' L A D F]; subst; cbn [top]; rewrite A.
  - split; [left; auto|]. cbn. repeat constructor. intros [].
  - split; [apply in_app_iff; right; left; auto|]. rewrite <- A. auto.
Qed.
Lemma edge_top_inner u : inner u = true -> In (top u) (nids u).
Proof. destruct u; cbn; [discriminate|auto]. Qed.
Lemma edge_nids t a i u j : edge_in t a i u j -> incl (nids u) (nids t).
Proof.
  induction 1 as [n ks i u j H|n ks k a i u j H _ IH]; intros x Hx; right; apply in_flat_map.
  - eauto.
  - exists k. auto.
Qed.

Lemma begin_exact R h0 h e n term h' : hangs h None R -> core K h0 h -> clean R h ->
  okn n R (dressed h0 term) e ->
  set_leaves K (set_all (load K true e n) h (nids R)) term = Ok h' -> cache_exact_on K (downs R) h'.
Proof.
  intros H C Cl O E x j v u p (t & i & u0 & Ed & Et) Hc Hu Tu Lf.
  assert (Cr : core K h h').
  { eapply core_trans; [apply core_set_all, kept_load|eapply core_set_leaves; eauto]. }
  assert (H' : hangs h' None R) by (eapply core_hangs; eauto).
  pose proof (edge_hangs K h' R None H' _ _ _ _ Ed) as Hu0.
  assert (p = (t, i)) by (eapply (hangs_up_unique K h'); eauto; congruence). subst p.
  assert (u = u0) by (eapply hangs_det; eauto; congruence). subst u0.
  assert (Lx : x < length h).
  { apply (hangs_lt K h _ _ H). apply (proj1 (edge_ids _ _ _ _ _ Ed)). rewrite <- Et. apply top_ids. }
  destruct (set_leaves_get term _ _ E x ltac:(rewrite set_all_length; auto)) as (_ & Ec). rewrite Ec in Hc.
  rewrite set_all_get in Hc by apply load_idem.
  assert (Hin : In x (nids R)).
  { apply (edge_nids _ _ _ _ _ Ed). rewrite <- Et. apply edge_top_inner. apply (hangs_leafness K) in Hu. rewrite Et, Lf in Hu. destruct (inner u); auto. }
  replace (memb x (nids R)) with true in Hc by (symmetry; apply memb_In; auto).
  replace (x <? length h) with true in Hc by (symmetry; apply Nat.ltb_lt; auto). cbn [andb load put_cache ocache] in Hc.
  apply fold_load in Hc. destruct Hc as [Hc|(t' & j' & Hin' & Ev)]; [discriminate|].
  destruct (edge_up_acc h R t i u j (ex_intro _ None H) Ed) as (Ha & Dn). rewrite Et in Ha, Dn.
  pose proof (key_unique _ _ _ _ Dn Hin' Ha) as X. injection X as -> ->.
  pose proof (O _ _ _ _ _ Ed Ev) as Tv.
  assert (Se : sees R h' (dressed h0 term)) by (apply (begin_sees R h0 h true e n (nids R) term h'); auto; exists None; auto).
  rewrite (sees_tenv R h' (dressed h0 term)) in Tv; auto. eapply edge_ids; eauto.
Qed.

(** ** What one term contributes *)
Definition penv hd (ks : list (nat * tree * nat)) (i : nat) : res (option (arr K)) :=
  match find (fun k => k_i k =? i) ks with
  | Some k => tenv K hd false (Some (k_j k)) (k_t k)
  | None => Raise KeyError
  end.
Fixpoint papply hd ks (l : list nat) (tmp : arr K) : res (arr K) :=
  match l with
  | [] => Ok tmp
  | i :: l => let! v := penv hd ks i in let! tmp := pp_all tmp [(i, v)] in papply hd ks l tmp
  end.
Fixpoint pterms h0 ks (l : list nat) (a : arr K) (terms : list (list (id * arr K))) (acc : list K) : res (list K) :=
  match terms with
  | [] => Ok acc
  | term :: terms =>
      if forallb (fun p => oleaf (hget h0 (fst p))) term then
        let! x := papply (dressed h0 term) ks l a in
        let! acc := vec_add K acc (data x) in
        pterms h0 ks l a terms acc
      else Raise RuntimeError
  end.

Lemma find_kid ks i : In i (map k_i ks) -> exists k, find (fun k => k_i k =? i) ks = Some k /\ In k ks /\ k_i k = i.
Proof.
  intros H. apply in_map_iff in H. destruct H as (k & Ek & Hk).
  destruct (find (fun k => k_i k =? i) ks) as [k'|] eqn:F.
  - exists k'. split; auto. apply find_some in F. destruct F as (F1 & F2). apply Nat.eqb_eq in F2. auto.
  - pose proof (find_none _ _ F k Hk) as X. apply Nat.eqb_neq in X. congruence.
Qed.
Lemma papply_sees R hd hd' r ks : R = Nd r ks -> sees R hd hd' -> forall l tmp, papply hd' ks l tmp = papply hd ks l tmp.
Proof.
  intros -> Se. induction l as [|i l IH]; intros tmp; cbn [papply]; auto.
  replace (penv hd' ks i) with (penv hd ks i).
  - destruct (penv hd ks i); cbn [bind]; auto. destruct (pp_all _ _); cbn [bind]; auto.
  - unfold penv. destruct (find _ ks) as [k|] eqn:F; auto. apply find_some in F. destruct F as (Hk & _). symmetry.
    apply (sees_tenv (Nd r ks)); auto. intros x Hx. right. apply in_flat_map. eauto.
Qed.
Lemma covered_downs R a i u j : edge_in R a i u j -> covered (downs R) (Some (j, (a, i))) u.
Proof.
  intros E. split.
  - intros j' p X. injection X as <- _. exists a, i, u. auto.
  - intros a' i' u' j' E'. exists a', i', u'. split; auto. clear -E E'. revert a' i' u' j' E'.
    induction E as [n ks i u j H|n ks k a i u j H E IH]; intros.
    + apply (edge_deep n ks (i, u, j)); auto.
    + eapply edge_deep; eauto.
Qed.

Lemma points_dget {V} (l : list (nat * V)) k v : NoDup (map fst l) -> In (k, v) l -> dget l k = Some v.
Proof.
  induction l as [|(k0, v0) l IH]; intros D H; [destruct H|]. cbn [dget map fst] in *. inversion D as [|? ? Nin D']; subst.
  destruct (Nat.eqb_spec k k0) as [->|Hk].
  - destruct H as [H|H]; [injection H as <-; auto|]. exfalso. apply Nin. apply in_map_iff. exists (k0, v). auto.
  - destruct H as [H|H]; [injection H as <- _; congruence|auto].
Qed.
Lemma k_unique (ks : list (nat * tree * nat)) k k' : NoDup (map k_i ks) -> In k ks -> In k' ks -> k_i k = k_i k' -> k = k'.
Proof.
  induction ks as [|k0 ks IH]; intros D H H' E; [destruct H|]. cbn [map] in D. inversion D as [|? ? Nin D']; subst.
  destruct H as [<-|H], H' as [<-|H']; auto; exfalso; apply Nin; apply in_map_iff; eauto.
Qed.
Lemma proper_ok R r ks h h0 i : R = Nd r ks -> hangs h None R -> same_but_cache K h h0 -> cache_exact_on K (downs R) h0 ->
  height R <= fuel -> In i (map k_i ks) ->
  match penv h ks i with
  | Ok v => exists h2, partial_env_proper fuel false h0 r i = Ok (v, h2) /\ same_but_cache K h h2 /\ cache_exact_on K (downs R) h2
  | Raise e => partial_env_proper fuel false h0 r i = Raise e
  end.
Proof.
  intros ER H S0 Ex Hf Hi. destruct (find_kid ks i Hi) as (k & Fk & Hk & Ek). unfold penv. rewrite Fk.
  assert (Ed : edge_in R r (k_i k) (k_t k) (k_j k)) by (subst R; apply edge_kid; auto).
  pose proof (edge_hangs K h R None H _ _ _ _ Ed) as Hu.
  assert (Hh : height (k_t k) <= fuel) by (subst R; pose proof (height_kid r ks k Hk); lia).
  pose proof (partial_env_tenv_on K (downs R) h false (k_t k) (Some (k_j k, (r, k_i k))) fuel h0 Hu (covered_downs _ _ _ _ _ Ed) Hh S0 Ex) as X.
  cbn [option_map fst] in X. unfold partial_env_proper. destruct (sbc_fields K _ _ r S0) as (L & _ & Ac & _).
  subst R. inversion H as [|? ? Lf A D F|]; subst. rewrite L, Lf.
  assert (Dg : dindex (oacc (hget h0 r)) (k_i k) = Ok (top (k_t k), k_j k)).
  { unfold dindex. assert (Ac' : oacc (hget h0 r) = oacc (hget h r)) by (destruct S0 as (_ & S0); specialize (S0 r); destruct (hget h0 r), (hget h r); cbn in S0; now inversion S0).
    rewrite Ac', A. replace (dget _ (k_i k)) with (Some (top (k_t k), k_j k)); auto. symmetry. apply points_dget.
    - rewrite <- A. auto.
    - apply in_map_iff. exists k. auto. }
  rewrite Dg. cbn [bind fst snd]. exact X.
Qed.

Lemma apply_ok R r ks n cache h : R = Nd r ks -> hangs h None R -> height R <= fuel -> forall l tmp s,
  Forall (fun i => In i (map k_i ks)) l -> NoDup (map k_i ks) ->
  same_but_cache K h (sheap s) -> cache_exact_on K (downs R) (sheap s) -> NoDup (ids R) -> okn n R h (senv s) ->
  match papply h ks l tmp with
  | Ok x => exists s', apply_envs K fuel n r cache l tmp s = Ok (x, s') /\ same_but_cache K h (sheap s') /\ okn n R h (senv s') /\ cache_exact_on K (downs R) (sheap s')
  | Raise e => apply_envs K fuel n r cache l tmp s = Raise e
  end.
Proof.
  intros ER H Hf. induction l as [|i l IH]; intros tmp s Fl Dk S0 Ex Nd_ Ok_; cbn [papply apply_envs]; [eauto|].
  pose proof (Forall_inv Fl) as Hi; pose proof (Forall_inv_tail Fl) as Fl'. cbn beta in Hi. destruct (find_kid ks i Hi) as (k & Fk & Hk & Ek).
  assert (Ed : edge_in R r i (k_t k) (k_j k)) by (rewrite ER, <- Ek; apply edge_kid; auto).
  destruct (senv s n r i) as [v|] eqn:Ev.
  - assert (P : penv h ks i = Ok v) by (unfold penv; rewrite Fk; eapply Ok_; eauto). rewrite P. cbn [bind].
    destruct (pp_all tmp [(i, v)]) as [tmp'|]; cbn [bind]; auto. apply IH; auto.
  - pose proof (proper_ok R r ks h (sheap s) i ER H S0 Ex Hf Hi) as X. destruct (penv h ks i) as [v|e] eqn:P.
    + destruct X as (h2 & X & S2 & E2). rewrite X. cbn [bind]. destruct (pp_all tmp [(i, v)]) as [tmp'|]; cbn [bind]; auto.
      apply IH; auto. cbn [Cache_Model.senv]. destruct cache; auto. intros t j u i' v' Ed' Ev'.
      destruct (Nat.eq_dec t r) as [->|Ht]; [|rewrite env_put_other in Ev' by auto; eauto].
      destruct (Nat.eq_dec j i) as [->|Hj]; [|rewrite env_put_other in Ev' by auto; eauto].
      rewrite env_put_same in Ev'. injection Ev' as <-. rewrite <- P. unfold penv. rewrite Fk.
      assert (EE : u = k_t k /\ i' = k_j k).
      { clear -Ed' ER Hk Ek Dk Nd_. subst R. inversion Ed' as [? ? ? ? ? Hk'|? ks0 k0 ? ? ? ? Hk0 Ed0]; subst.
        - pose proof (k_unique ks (k_i k, u, i') k Dk Hk' Hk eq_refl) as E0. rewrite <- E0. auto.
        - exfalso. apply edge_ids in Ed0. destruct Ed0 as (_ & Hin). cbn [ids] in Nd_. inversion Nd_ as [|? ? Nin _]; subst. apply Nin.
          apply in_flat_map. exists k0. split; auto. apply nids_ids. auto. }
      destruct EE as (-> & ->). auto.
    + rewrite X. reflexivity.
Qed.

Lemma each_app {A} uc skip (body : nat -> A -> state -> res (A * state)) : forall l1 l2 n acc s,
  each_term K fuel uc skip body n (l1 ++ l2) acc s =
  (let! r := each_term K fuel uc skip body n l1 acc s in each_term K fuel uc skip body (n + length l1) l2 (fst r) (snd r)).
Proof.
  induction l1 as [|term l1 IH]; intros l2 n acc s; cbn [app each_term length].
  - rewrite Nat.add_0_r. reflexivity.
  - rewrite <- Nat.add_succ_comm. destruct (n <? skip); [apply IH|].
    destruct (visitor fuel (sheap s) (sroot s) None false) as [l|]; cbn [bind]; auto.
    destruct (set_leaves K _ term) as [h|]; cbn [bind]; auto. destruct (body n acc _) as [(acc', s')|]; cbn [bind]; auto.
Qed.

Lemma core_order h h' n : core K h h' -> order h' n = order h n.
Proof. intros (_ & C). unfold order. destruct (C n) as (_ & -> & _ & _ & -> & _). auto. Qed.
Lemma over_none term x : ~ In x (map fst term) -> over term x None = None.
Proof.
  unfold over. intros H. assert (G : forall acc, fold_left (fun acc p => if fst p =? x then Some (snd p) else acc) term acc = acc); [|apply G].
  induction term as [|(l, a) term IH]; intros acc; cbn [fold_left fst]; auto. destruct (Nat.eqb_spec l x) as [->|]; [exfalso; apply H; left; auto|].
  apply IH. intros X. apply H. right. auto.
Qed.
Lemma clean_again R h uc e n l term h1 h2 : (exists up, hangs h up R) -> clean R h ->
  set_leaves K (set_all (load K uc e n) h l) term = Ok h1 -> same_but_cache K h1 h2 ->
  clean R (set_all (reset_obj K) h2 (map fst term)).
Proof.
  intros (up & Hg) Cl E S2 x Hx Lf. pose proof (hangs_lt K h _ _ Hg x Hx) as Lx.
  rewrite set_all_get in * by apply reset_idem.
  pose proof (core_set_all K (load K uc e n) l (kept_load K uc e n) h) as (L1 & C1).
  pose proof (core_set_leaves K term _ _ E) as (L2 & C2). pose proof (core_sbc K _ _ S2) as (L3 & C3).
  destruct (memb x (map fst term) && (x <? length h2)) eqn:M.
  - unfold reset_obj in *. destruct (oleaf (hget h2 x)) eqn:L; [auto|]. cbn [put_cache oleaf] in Lf. congruence.
  - destruct (C1 x) as (_ & P1 & _). destruct (C2 x) as (_ & P2 & _). destruct (C3 x) as (_ & P3 & _).
    destruct (sbc_fields K _ _ x S2) as (_ & -> & _). destruct (set_leaves_get term _ _ E x ltac:(lia)) as (-> & _).
    assert (A1 : oarr (hget (set_all (load K uc e n) h l) x) = oarr (hget h x)).
    { rewrite set_all_get by apply load_idem. destruct (memb x l && (x <? length h)); auto. }
    rewrite A1, P1. replace (oleaf (hget h x)) with true by congruence. rewrite (Cl x Hx) by congruence. apply over_none.
    apply andb_false_iff in M. destruct M as [M|M]; [|apply Nat.ltb_ge in M; lia]. intros X. apply memb_In in X. congruence.
Qed.
Lemma pterms_leaf h h0 term : core K h0 h -> forallb (fun p => oleaf (hget h (fst p))) term = forallb (fun p : id * arr K => oleaf (hget h0 (fst p))) term.
Proof. intros (_ & C). apply forallb_same. intros p. destruct (C (fst p)) as (_ & -> & _). auto. Qed.

Lemma sbc_sees R h1 h2 hd : same_but_cache K h1 h2 -> sees R h1 hd -> sees R h2 hd.
Proof. apply sees_sbc. Qed.

Lemma diff_each R r ks h0 a cache : R = Nd r ks -> hangs h0 None R -> NoDup (ids R) -> height R <= fuel ->
  oarr (hget h0 r) = Some a -> map k_i ks = seq 0 (order h0 r) -> forall terms n acc s,
  core K h0 (sheap s) -> clean R (sheap s) -> sroot s = r ->
  (forall k term, nth_error terms k = Some term -> okn (n + k) R (dressed h0 term) (senv s)) ->
  match pterms h0 ks (seq 0 (order h0 r)) a terms acc with
  | Ok x => exists s', each_term K fuel true 0 (diff_body K fuel r cache) n terms acc s = Ok (x, s') /\
      core K h0 (sheap s') /\ clean R (sheap s') /\ sroot s' = r /\
      forall k term, nth_error terms k = Some term -> okn (n + k) R (dressed h0 term) (senv s')
  | Raise e => each_term K fuel true 0 (diff_body K fuel r cache) n terms acc s = Raise e
  end.
Proof.
  intros ER H0 ND Hf Ea Ek. induction terms as [|term terms IH]; intros n acc s C Cl Er Ok_; cbn [pterms each_term].
  { exists s. repeat split; auto; apply C. }
  replace (n <? 0) with false by reflexivity.
  assert (H : hangs (sheap s) None R) by (eapply core_hangs; eauto).
  assert (Tr : top R = r) by (subst R; auto).
  replace (visitor fuel (sheap s) (sroot s) None false) with (Ok (nids R)).
  2:{ symmetry. rewrite Er, <- Tr. apply (visitor_hangs K (sheap s) R None fuel false H Hf). }
  cbn [bind]. set (hs := set_all (load K true (senv s) n) (sheap s) (nids R)).
  assert (Cs : core K h0 hs) by (eapply core_trans; [exact C|apply core_set_all, kept_load]).
  pose proof (set_leaves_ok term hs) as X. rewrite (pterms_leaf hs h0 term Cs) in X.
  destruct (set_leaves K hs term) as [h1|e] eqn:E1; [|destruct X as (-> & ->); reflexivity]. rewrite X. cbn [bind].
  assert (C1 : core K h0 h1) by (eapply core_trans; [exact Cs|eapply core_set_leaves; eauto]).
  assert (H1 : hangs h1 None R) by (eapply core_hangs; eauto).
  assert (Se : sees R h1 (dressed h0 term)) by (apply (begin_sees R h0 (sheap s) true (senv s) n (nids R) term h1); auto; exists None; auto).
  pose proof (Ok_ 0 term eq_refl) as O0. rewrite Nat.add_0_r in O0.
  assert (Ex : cache_exact_on K (downs R) h1) by (eapply (begin_exact R h0 (sheap s)); eauto).
  change (with_heap K s h1) with (mkState K h1 (sroot s) (senv s)).
  assert (A1 : oarr (hget h1 r) = Some a).
  { destruct C1 as (_ & C1). destruct (C1 r) as (_ & _ & _ & _ & _ & P). rewrite P; auto. subst R. inversion H0; auto. }
  assert (DB : diff_body K fuel r cache n acc (mkState K h1 (sroot s) (senv s)) =
    (let! r := apply_envs K fuel n r cache (seq 0 (order h0 r)) a (mkState K h1 (sroot s) (senv s)) in
     let '(x, s) := r in let! ans := vec_add K acc (data x) in Ok (ans, s))).
  { unfold diff_body, single_eom. cbn [Cache_Model.sheap]. rewrite A1, (core_order h0 h1 r C1). reflexivity. }
  rewrite DB. clear DB.
  pose proof (apply_ok R r ks n cache h1 ER H1 Hf (seq 0 (order h0 r)) a (mkState K h1 (sroot s) (senv s))) as P.
  cbn [Cache_Model.sheap Cache_Model.senv] in P. rewrite (papply_sees R h1 (dressed h0 term) r ks ER Se).
  specialize (P ltac:(rewrite Ek; apply Forall_forall; auto) ltac:(rewrite Ek; apply seq_NoDup) (sbc_refl K h1) Ex ND
    ltac:(apply (okn_sees n R h1 (dressed h0 term)); auto)).
  destruct (papply h1 ks (seq 0 (order h0 r)) a) as [x|e]; cbn [bind]; [|rewrite P; reflexivity].
  destruct P as (s2 & P & S2 & O2 & _). rewrite P. cbn [bind].
  pose proof (apply_frame K fuel n r cache _ _ _ _ _ P) as (_ & F2 & F3). cbn [Cache_Model.sroot Cache_Model.senv] in F2, F3.
  destruct (vec_add K acc (data x)) as [acc'|]; cbn [bind]; [|reflexivity].
  assert (C2 : core K h0 (sheap s2)) by (eapply core_trans; [exact C1|apply core_sbc; auto]).
  specialize (IH (S n) acc' (with_heap K s2 (set_all (reset_obj K) (sheap s2) (map fst term)))).
  cbn [with_heap Cache_Model.sheap Cache_Model.sroot Cache_Model.senv] in IH.
  specialize (IH ltac:(eapply core_trans; [exact C2|apply core_set_all, kept_reset])
     ltac:(apply (clean_again R (sheap s) true (senv s) n (nids R) term h1 (sheap s2)); auto; exists None; auto) ltac:(congruence)).
  assert (Oth : forall k tm, nth_error terms k = Some tm -> okn (S n + k) R (dressed h0 tm) (senv s2)).
  { intros k tm Ht t j u i v Ed Ev. rewrite F3 in Ev by lia. apply (Ok_ (S k) tm Ht t j u i v Ed). rewrite <- Ev. f_equal. lia. }
  specialize (IH Oth). destruct (pterms h0 ks (seq 0 (order h0 r)) a terms acc') as [z|e]; auto.
  destruct IH as (s' & E' & C' & Cl' & R' & O'). exists s'. split; [exact E'|]. split; auto. split; auto. split; auto.
  intros k tm Ht. destruct k as [|k].
  - injection Ht as <-. rewrite Nat.add_0_r. intros t j u i v Ed Ev.
    pose proof (each_frame K fuel true 0 (diff_body K fuel r cache)) as FF.
    specialize (FF ltac:(intros; eapply diff_body_frame; eauto) _ _ _ _ _ _ E'). destruct FF as (_ & _ & FF).
    rewrite FF in Ev by lia. cbn [with_heap Cache_Model.senv] in Ev.
    rewrite (sees_tenv R h1 (dressed h0 term)); [|auto|eapply edge_ids; eauto]. eapply O2; eauto.
  - rewrite <- Nat.add_succ_comm. apply O'. auto.
Qed.

(** ** States in which a tensor is propagated *)
Definition keyed (s : state) : Prop := forall n t j v, senv s n t j = Some v -> t < length (sheap s).
Record ready (R : tree) (s : state) : Prop := {
  rd_top : exists ks, R = Nd (sroot s) ks /\ map k_i ks = seq 0 (length ks);
  rd_hangs : hangs (sheap s) None R;
  rd_nodup : NoDup (ids R);
  rd_size : length (ids R) <= fuel;
  rd_env : env_ok R (sheap s) (senv s);
  rd_keys : keyed s }.

Lemma rd_fuel R s : ready R s -> height R <= fuel.
Proof. intros Rd. pose proof (rd_size R s Rd). pose proof (size_height R). lia. Qed.
Lemma edge_below R t j u i : NoDup (ids R) -> edge_in R t j u i -> ~ In (top R) (ids u).
Proof.
  intros D E Hin. destruct E as [n ks i u j H|n ks k a i u j H E]; cbn [ids top] in *; inversion D as [|? ? Nin _]; subst; apply Nin; apply in_flat_map.
  - exists (i, u, j). auto.
  - exists k. split; auto. apply (proj1 (edge_ids _ _ _ _ _ E)). auto.
Qed.
Lemma env_ok_root R h h' e : NoDup (ids R) -> length h' = length h -> (forall x, In x (ids R) -> x < length h) ->
  (forall x, x <> top R -> kept K (hget h x) (hget h' x)) -> env_ok R h e -> env_ok R h' e.
Proof.
  intros D L B Q O n term Ht t j u i v Ed Ev. rewrite <- (O n term Ht t j u i v Ed Ev). apply tenv_local.
  intros x Hx. assert (Hr : x <> top R) by (intros ->; eapply edge_below; eauto).
  pose proof (proj1 (edge_ids _ _ _ _ _ Ed) x Hx) as Hin. rewrite !dressed_get by (try rewrite L; auto).
  destruct (Q x Hr) as (_ & -> & E2 & E3 & _ & E4). destruct (oleaf (hget h x)) eqn:Lf; cbn; repeat split; auto; discriminate.
Qed.
Lemma kids_order R r ks h : R = Nd r ks -> hangs h None R -> order h r = length ks.
Proof. intros -> H. unfold order. inversion H as [|? ? L A D F|]; subst. rewrite L, A, map_length. auto. Qed.
Lemma no_env_ok R h : env_ok R h (no_env K).
Proof. intros n term _ t j u i v _ X. discriminate. Qed.

Lemma reset_clean R h : (exists up, hangs h up R) -> clean R (set_all (reset_obj K) h (ids R)).
Proof.
  intros (up & H) x Hx Lf. rewrite set_all_get in * by apply reset_idem.
  replace (memb x (ids R)) with true in * by (symmetry; apply memb_In; auto).
  replace (x <? length h) with true in * by (symmetry; apply Nat.ltb_lt; eapply hangs_lt; eauto). cbn [andb] in *.
  unfold reset_obj in *. destruct (oleaf (hget h x)) eqn:L; cbn in *; auto. congruence.
Qed.

Lemma diff_heads R s y a time :
  ready R s -> oarr (hget (sheap s) (sroot s)) = Some a -> forall b, reshape (mkArr [length y] y) (shape a) = Ok b ->
  let h0 := modify (sheap s) (sroot s) (put_arr (Some b)) in
  let h1 := set_all (reset_obj K) h0 (ids R) in
  hangs h0 None R /\ core K h0 h1 /\ clean R h1 /\ visitor fuel h0 (sroot s) None true = Ok (ids R) /\
  oarr (hget h0 (sroot s)) = Some b /\
  (forall A uc (body : nat -> A -> state -> res (A * state)) acc e,
     term_visitor K T sys fuel uc false time body acc (mkState K h0 (sroot s) e) =
     each_term K fuel uc 0 body 0 (all_terms K T sys time) acc (mkState K h1 (sroot s) e)).
Proof.
  intros Rd Ea b Eb h0 h1. destruct (rd_top R s Rd) as (ks & ER & Ek). pose proof (rd_hangs R s Rd) as H.
  assert (Lr : sroot s < length (sheap s)) by (apply (hangs_lt K _ _ _ H); subst R; left; auto).
  assert (H0 : hangs h0 None R).
  { apply (hangs_on K (sheap s)); auto; intros x Hx; unfold h0; (destruct (Nat.eq_dec x (sroot s)) as [->|Hn];
      [rewrite hget_modify_eq by auto|rewrite hget_modify_neq by auto]); auto. }
  split; auto. split; [apply core_set_all, kept_reset|]. split; [apply reset_clean; eauto|].
  assert (V : visitor fuel h0 (sroot s) None true = Ok (ids R)).
  { pose proof (visitor_hangs K h0 R None fuel true H0 (rd_fuel R s Rd)) as V. rewrite ER in V at 1. exact V. }
  split; auto. split; [unfold h0; rewrite hget_modify_eq by auto; auto|]. intros A uc body acc e. unfold term_visitor.
  cbn [Cache_Model.sheap Cache_Model.sroot]. rewrite V. reflexivity.
Qed.

Lemma keyed_core s h : core K (sheap s) h -> keyed s -> keyed (with_heap K s h).
Proof. intros (L & _) H n t j v E. cbn [with_heap Cache_Model.sheap Cache_Model.senv] in *. rewrite L. eauto. Qed.
Lemma keyed_put s h n t i v0 : core K (sheap s) h -> t < length (sheap s) -> keyed s ->
  keyed (mkState K h (sroot s) (env_put K (senv s) n t i v0)).
Proof.
  intros (L & _) Ht H n' t' j v E. cbn [Cache_Model.sheap Cache_Model.senv] in *. rewrite L.
  unfold env_put in E. destruct (same_key n t i n' t' j) eqn:X; [|eauto]. apply same_key_eq in X. destruct X as (_ & -> & _). auto.
Qed.
Lemma proper_lt h n i v h' : partial_env_proper fuel false h n i = Ok (v, h') -> n < length h.
Proof.
  unfold partial_env_proper. destruct (oleaf (hget h n)); [discriminate|]. destruct (Nat.lt_ge_cases n (length h)) as [|Hn]; auto.
  rewrite hget_out by auto. cbn. discriminate.
Qed.
Lemma each_keyed {A} uc skip (body : nat -> A -> state -> res (A * state)) :
  (forall n acc s acc' s', body n acc s = Ok (acc', s') -> keyed s -> keyed s') ->
  forall terms n acc s acc' s', each_term K fuel uc skip body n terms acc s = Ok (acc', s') -> keyed s -> keyed s'.
Proof.
  intros B. induction terms as [|term terms IH]; intros n acc s acc' s' E Ky; cbn [each_term] in E; [injection E as _ <-; auto|].
  destruct (n <? skip); [eapply IH; eauto|]. destruct (visitor fuel (sheap s) (sroot s) None false) as [l|]; [|discriminate]. cbn [bind] in E.
  destruct (set_leaves K _ term) as [h|] eqn:E1; [|discriminate]. cbn [bind] in E.
  destruct (body n acc _) as [(acc1, s1)|] eqn:E2; [|discriminate]. cbn [bind] in E. eapply IH; [exact E|].
  apply keyed_core; [apply core_set_all, kept_reset|]. eapply B; [exact E2|]. apply keyed_core; auto.
  eapply core_trans; [apply core_set_all, kept_load|eapply core_set_leaves; eauto].
Qed.
Lemma tv_keyed {A} uc td time (body : nat -> A -> state -> res (A * state)) :
  (forall n acc s acc' s', body n acc s = Ok (acc', s') -> keyed s -> keyed s') ->
  forall acc s acc' s', term_visitor K T sys fuel uc td time body acc s = Ok (acc', s') -> keyed s -> keyed s'.
Proof.
  intros B acc s acc' s' E Ky. unfold term_visitor in E. destruct (visitor fuel (sheap s) (sroot s) None true) as [l|]; [|discriminate].
  cbn [bind] in E. eapply each_keyed; eauto. apply keyed_core; auto. apply core_set_all, kept_reset.
Qed.
Lemma apply_keyed n t cache : forall l tmp s x s', apply_envs K fuel n t cache l tmp s = Ok (x, s') -> keyed s -> keyed s'.
Proof.
  induction l as [|i l IH]; intros tmp s x s' E Ky; cbn [apply_envs] in E; [injection E as _ <-; auto|].
  destruct (senv s n t i) as [v|].
  - cbn [bind] in E. destruct (pp_all tmp [(i, v)]) as [tmp'|]; [|discriminate]. cbn [bind] in E. eapply IH; eauto.
  - destruct (partial_env_proper fuel false (sheap s) t i) as [(v, h)|] eqn:E1; [|discriminate]. cbn [bind] in E.
    destruct (pp_all tmp [(i, v)]) as [tmp'|]; [|discriminate]. cbn [bind] in E. eapply IH; [exact E|].
    pose proof (core_sbc K _ _ (proper_frame K _ _ _ _ _ _ _ E1)). destruct cache; [apply keyed_put; auto; eapply proper_lt; eauto|].
    apply (keyed_core s h); auto.
Qed.
Lemma fill_keyed n : forall l s s', fill K fuel n l s = Ok s' -> keyed s -> keyed s'.
Proof.
  induction l as [|(t, i) l IH]; intros s s' E Ky; cbn [fill] in E; [injection E as <-; auto|].
  destruct (partial_env_proper fuel false (sheap s) t i) as [(v, h)|] eqn:E1; [|discriminate]. cbn [bind] in E.
  eapply IH; [exact E|]. pose proof (core_sbc K _ _ (proper_frame K _ _ _ _ _ _ _ E1)). apply keyed_put; auto. eapply proper_lt; eauto.
Qed.
Lemma diff_body_keyed t cache n acc s acc' s' : diff_body K fuel t cache n acc s = Ok (acc', s') -> keyed s -> keyed s'.
Proof.
  unfold diff_body, single_eom. destruct (oarr (hget (sheap s) t)); [|discriminate].
  destruct (apply_envs _ _ _ _ _ _ _ _) as [(x, s1)|] eqn:E; [|discriminate]. cbn [bind].
  destruct (vec_add K acc (data x)); [|discriminate]. cbn [bind]. intros X. injection X as _ <-. eapply apply_keyed; eauto.
Qed.
Lemma diff_keyed t cache time y s x s' : diff K T sys fuel t cache time y s = Ok (x, s') -> keyed s -> keyed s'.
Proof.
  unfold diff. destruct (oarr (hget (sheap s) t)) as [a|]; [|discriminate]. destruct (reshape _ (shape a)) as [b|]; [|discriminate].
  cbn [bind]. fold (diff_body K fuel t cache). destruct (term_visitor _ _ _ _ _ _ _ _ _ _) as [(ans, s1)|] eqn:E; [|discriminate]. cbn [bind].
  intros X Ky. injection X as _ <-. assert (Ky1 : keyed s1).
  { eapply tv_keyed; [|exact E|]; [intros; eapply diff_body_keyed; eauto|].
    intros n t' j v Ev. cbn [with_heap Cache_Model.sheap Cache_Model.senv] in *. rewrite length_modify. eauto. }
  intros n t' j v Ev. cbn [with_heap Cache_Model.sheap Cache_Model.senv] in *. rewrite length_modify. eauto.
Qed.
Lemma form_keyed upd time s s' : form_env K T sys fuel upd time s = Ok s' -> keyed s'.
Proof.
  unfold form_env. fold (form_body K fuel). destruct (term_visitor _ _ _ _ _ _ _ _ _ _) as [(u, s1)|] eqn:E; [|discriminate]. cbn [bind snd].
  intros X. injection X as <-. eapply tv_keyed; [|exact E|intros n t j v Ev; discriminate].
  intros n acc s1' acc' s2 E2 Ky. unfold form_body in E2. destruct (visitor fuel (sheap s1') (sroot s1') None false) as [l|]; [|discriminate].
  cbn [bind] in E2. destruct (fill K fuel n _ s1') as [s3|] eqn:E3; [|discriminate]. cbn [bind] in E2. injection E2 as _ <-. eapply fill_keyed; eauto.
Qed.

(** Every call of [diff] gives what it would give with nothing stored. *)
Lemma diff_exact R s cache time y : f_list K T sys = None \/ f_list K T sys = Some [] -> ready R s ->
  result (diff K T sys fuel (sroot s) cache time y s) = result (diff K T sys fuel (sroot s) false time y (forget s)).
Proof.
  intros Ef Rd. unfold diff. change (sheap (forget s)) with (sheap s).
  destruct (oarr (hget (sheap s) (sroot s))) as [a|] eqn:Ea; auto.
  destruct (reshape (mkArr [length y] y) (shape a)) as [b|] eqn:Eb; auto. cbn [bind]. fold (diff_body K fuel (sroot s) cache) (diff_body K fuel (sroot s) false).
  destruct (diff_heads R s y a time Rd Ea b Eb) as (H0 & C & Cl & V & A0 & TV).
  set (h0 := modify (sheap s) (sroot s) (put_arr (Some b))) in *. set (h1 := set_all (reset_obj K) h0 (ids R)) in *.
  change (with_heap K s h0) with (mkState K h0 (sroot s) (senv s)). change (with_heap K (forget s) h0) with (mkState K h0 (sroot s) (no_env K)).
  rewrite !TV. destruct (rd_top R s Rd) as (ks & ER & Ek).
  assert (Eo : map k_i ks = seq 0 (order h0 (sroot s))) by (rewrite (kids_order R (sroot s) ks h0 ER H0); auto).
  assert (EO : env_ok R h0 (senv s)).
  { apply (env_ok_root R (sheap s)); [apply Rd|apply length_modify| | |apply Rd].
    - intros x Hx. eapply hangs_lt; eauto. apply Rd.
    - intros x Hx. unfold h0. rewrite hget_modify_neq; [apply kept_refl|]. subst R. cbn in Hx. auto. }
  unfold all_terms. replace (match f_list K T sys with None => [] | Some f => _ end) with (@nil (list (id * arr K))) by (destruct Ef as [-> | ->]; reflexivity).
  rewrite app_nil_r.
  pose proof (diff_each R (sroot s) ks h0 b cache ER H0 (rd_nodup R s Rd) (rd_fuel R s Rd) A0 Eo hl 0 (repeat r0 (length y)) (mkState K h1 (sroot s) (senv s)) C Cl eq_refl EO) as X.
  pose proof (diff_each R (sroot s) ks h0 b false ER H0 (rd_nodup R s Rd) (rd_fuel R s Rd) A0 Eo hl 0 (repeat r0 (length y)) (mkState K h1 (sroot s) (no_env K)) C Cl eq_refl
    ltac:(intros k term Ht; apply (no_env_ok R h0 k term Ht))) as Y.
  destruct (pterms h0 ks (seq 0 (order h0 (sroot s))) b hl (repeat r0 (length y))) as [z|e].
  - destruct X as (s1 & X & _), Y as (s2 & Y & _). rewrite X, Y. reflexivity.
  - rewrite X, Y. reflexivity.
Qed.
Lemma diff_ready R s cache time y x s' : ready R s -> diff K T sys fuel (sroot s) cache time y s = Ok (x, s') -> ready R s'.
Proof.
  intros Rd E. pose proof (diff_core K T sys fuel _ _ _ _ _ _ _ E) as Co. pose proof (diff_near K T sys fuel _ _ _ _ _ _ _ E) as (Ln & Er & _).
  pose proof (diff_keyed _ _ _ _ _ _ _ E (rd_keys R s Rd)) as Ky. constructor; auto; try apply Rd.
  - rewrite Er. apply Rd.
  - eapply core_hangs; [exact Co|apply Rd].
  - unfold diff in E. destruct (oarr (hget (sheap s) (sroot s))) as [a|] eqn:Ea; [|discriminate].
    destruct (reshape (mkArr [length y] y) (shape a)) as [b|] eqn:Eb; [|discriminate]. cbn [bind] in E. fold (diff_body K fuel (sroot s) cache) in E.
    destruct (diff_heads R s y a time Rd Ea b Eb) as (H0 & C & Cl & V & A0 & TV).
    set (h0 := modify (sheap s) (sroot s) (put_arr (Some b))) in *. set (h1 := set_all (reset_obj K) h0 (ids R)) in *.
    change (with_heap K s h0) with (mkState K h0 (sroot s) (senv s)) in E. rewrite TV in E.
    destruct (rd_top R s Rd) as (ks & ER & Ek).
    assert (Eo : map k_i ks = seq 0 (order h0 (sroot s))) by (rewrite (kids_order R (sroot s) ks h0 ER H0); auto).
    assert (EO : env_ok R h0 (senv s)).
    { apply (env_ok_root R (sheap s)); [apply Rd|apply length_modify| | |apply Rd].
      - intros z Hx. eapply hangs_lt; eauto. apply Rd.
      - intros z Hx. unfold h0. rewrite hget_modify_neq; [apply kept_refl|]. subst R. cbn in Hx. auto. }
    unfold all_terms in E. rewrite each_app in E.
    pose proof (diff_each R (sroot s) ks h0 b cache ER H0 (rd_nodup R s Rd) (rd_fuel R s Rd) A0 Eo hl 0 (repeat r0 (length y)) (mkState K h1 (sroot s) (senv s)) C Cl eq_refl EO) as X.
    destruct (pterms h0 ks (seq 0 (order h0 (sroot s))) b hl (repeat r0 (length y))) as [z|e]; [|rewrite X in E; discriminate].
    destruct X as (s1 & X & C1 & Cl1 & R1 & O1). rewrite X in E. cbn [bind fst snd] in E.
    destruct (each_term K fuel true 0 _ _ _ z s1) as [(ans, s2)|] eqn:E2; [|discriminate]. cbn [bind] in E. injection E as _ <-.
    apply each_frame in E2; [|intros; eapply diff_body_frame; eauto]. destruct E2 as (C2 & R2 & F2).
    cbn [with_heap Cache_Model.sheap Cache_Model.senv] in *.
    assert (C02 : core K h0 (sheap s2)) by (eapply core_trans; eauto).
    apply (env_ok_root R h0); [apply Rd| | | |].
    + rewrite length_modify. apply C02.
    + intros w Hx. eapply hangs_lt; eauto.
    + intros w Hx. rewrite hget_modify_neq; [apply C02|]. subst R. cbn in Hx. auto.
    + intros n term Ht t j u i v Ed Ev. rewrite F2 in Ev; [|assert (n < length hl) by (apply nth_error_Some; congruence); lia].
      eapply (O1 n term Ht); eauto.
Qed.

(** ** Forming all environments *)
Lemma edge_down_acc h : forall R t j u i, edge_in R t j u i -> forall up, hangs h up R ->
  In (j, (top u, i)) (oacc (hget h t)) /\ NoDup (map fst (oacc (hget h t))).
Proof.
  induction 1 as [n ks i u j H|n ks k a i u j H E IH]; intros up Hg.
  - destruct (hangs_acc K h up n ks Hg) as (D & A & _). split; auto. apply (A (i, u, j) H).
  - apply (IH (Some (k_j k, (n, k_i k)))). apply (edge_hangs K h (Nd n ks) up Hg). apply edge_kid. auto.
Qed.
Lemma rooted_at h R t : hangs h None R -> In t (nids R) ->
  exists ks, hangs h None (Nd t ks) /\ Permutation (ids R) (ids (Nd t ks)).
Proof.
  intros H Ht. destruct (in_at_depth t R Ht) as (d & Hd). destruct (reroot_any K h t d R Hd H) as (R' & Et & H' & P).
  destruct R' as [x|x ks]; [inversion H'|]. cbn [top] in Et. subst x. eauto.
Qed.

Lemma dget_in {V} (l : list (nat * V)) k v : dget l k = Some v -> In (k, v) l.
Proof.
  induction l as [|(k0, v0) l IH]; [discriminate|]. cbn [dget]. destruct (Nat.eqb_spec k k0) as [->|]; intros X; [injection X as ->; left; auto|right; auto].
Qed.
Lemma fill_ok R n h1 : hangs h1 None R -> NoDup (ids R) -> length (ids R) <= fuel -> forall l s s',
  Forall (fun p => In (fst p) (nids R)) l -> same_but_cache K h1 (sheap s) ->
  cache_exact_on K (fun x _ => In x (ids R)) (sheap s) -> okn n R h1 (senv s) ->
  fill K fuel n l s = Ok s' -> same_but_cache K h1 (sheap s') /\ okn n R h1 (senv s') /\ cache_exact_on K (fun x _ => In x (ids R)) (sheap s').
Proof.
  intros H1 ND Hf. induction l as [|(t, i) l IH]; intros s s' Fl S0 Ex O E; cbn [fill] in E; [injection E as <-; auto|].
  pose proof (Forall_inv Fl) as Ht. pose proof (Forall_inv_tail Fl) as Fl'. cbn [fst] in Ht.
  destruct (partial_env_proper fuel false (sheap s) t i) as [(v, h2)|] eqn:E1; [|discriminate]. cbn [bind] in E.
  destruct (rooted_at h1 R t H1 Ht) as (ks & Ht' & P). unfold partial_env_proper in E1.
  destruct (oleaf (hget (sheap s) t)) eqn:Lf; [discriminate|].
  assert (Ac : oacc (hget (sheap s) t) = oacc (hget h1 t)) by (pose proof (core_sbc K _ _ S0) as (_ & C); apply C).
  destruct (dindex (oacc (hget (sheap s) t)) i) as [(x, j)|] eqn:Di; [|discriminate]. cbn [bind fst snd] in E1.
  assert (Hin : In (i, (x, j)) (oacc (hget h1 t))).
  { rewrite <- Ac. unfold dindex in Di. destruct (dget _ i) as [z|] eqn:Dg; [|discriminate]. injection Di as ->. apply dget_in in Dg. auto. }
  destruct (hangs_acc K h1 None t ks Ht') as (D & _ & A & Dk & _). destruct (A _ Hin) as [(k & Hk & Ek)|]; [|discriminate].
  unfold kid_half in Ek. injection Ek as Ei Ex' Ej.
  assert (Ed : edge_in (Nd t ks) t (k_i k) (k_t k) (k_j k)) by (apply edge_kid; auto).
  pose proof (edge_hangs K h1 _ None Ht' _ _ _ _ Ed) as Hu.
  assert (Sub : incl (ids (Nd t ks)) (ids R)) by (intros z Hz; eapply Permutation_in; [symmetry; exact P|exact Hz]).
  assert (Hh : height (k_t k) <= fuel).
  { pose proof (height_kid t ks k Hk). pose proof (size_height (Nd t ks)). rewrite <- (Permutation_length P) in H0. lia. }
  pose proof (partial_env_tenv_on K (fun x _ => In x (ids R)) h1 false (k_t k) (Some (k_j k, (t, k_i k))) fuel (sheap s) Hu) as X.
  cbn [option_map fst] in X. specialize (X ltac:(split; [intros j' p' _|intros a' i' u' j' Ed']; apply Sub;
      [apply (proj1 (edge_ids _ _ _ _ _ Ed)), top_ids|apply (proj1 (edge_ids _ _ _ _ _ Ed)), (proj1 (edge_ids _ _ _ _ _ Ed')), top_ids]) Hh S0 Ex).
  rewrite <- Ex', <- Ej in X. destruct (tenv K h1 false (Some j) (k_t k)) as [v'|e] eqn:Tv; [|rewrite X in E1; discriminate].
  destruct X as (h2' & X & S2 & E2). rewrite X in E1. injection E1 as -> ->.
  eapply IH; [exact Fl'| | | |exact E]; auto. cbn [Cache_Model.senv]. intros t' j' u i' v'' Ed' Ev'.
  destruct (Nat.eq_dec t' t) as [->|Hn]; [|rewrite env_put_other in Ev' by auto; eauto].
  destruct (Nat.eq_dec j' i) as [->|Hj]; [|rewrite env_put_other in Ev' by auto; eauto].
  rewrite env_put_same in Ev'. injection Ev' as <-.
  destruct (edge_down_acc h1 R t i u i' Ed' None H1) as (Hin' & _).
  pose proof (key_unique _ _ _ _ D Hin' Hin) as Q. injection Q as Q1 Q2.
  pose proof (edge_hangs K h1 R None H1 _ _ _ _ Ed') as Hu'. rewrite Q2 in *. rewrite <- Ei, <- Ej in Hu.
  assert (u = k_t k) as -> by (eapply (hangs_det K h1); eauto; congruence). exact Tv.
Qed.

Lemma empty_exact R h uc n e l term h' : (exists up, hangs h up R) -> uc = false ->
  l = nids R -> set_leaves K (set_all (load K uc e n) h l) term = Ok h' -> cache_exact_on K (fun x _ => In x (ids R)) h'.
Proof.
  intros (up & Hg) -> -> E x j v u p Hx Hc Hu Tu Lf. exfalso.
  assert (Lx : x < length h) by (eapply hangs_lt; eauto).
  destruct (set_leaves_get term _ _ E x ltac:(rewrite set_all_length; auto)) as (_ & Ec). rewrite Ec in Hc.
  rewrite set_all_get in Hc by apply load_idem.
  assert (Hin : In x (nids R)).
  { eapply Permutation_in in Hx; [|apply ids_split]. apply in_app_iff in Hx. destruct Hx as [|Hx]; auto.
    pose proof (lids_leaf K h R up Hg x Hx) as L. assert (Cr : core K h h').
    { eapply core_trans; [apply core_set_all, kept_load|eapply core_set_leaves; eauto]. }
    destruct Cr as (_ & Cr). destruct (Cr x) as (_ & P & _). congruence. }
  replace (memb x (nids R)) with true in Hc by (symmetry; apply memb_In; auto).
  replace (x <? length h) with true in Hc by (symmetry; apply Nat.ltb_lt; auto). cbn in Hc. discriminate.
Qed.

Lemma form_each R h0 : hangs h0 None R -> NoDup (ids R) -> length (ids R) <= fuel -> forall terms n s u s',
  core K h0 (sheap s) -> clean R (sheap s) -> sroot s = top R ->
  (forall k t j, n <= k -> senv s k t j = None) ->
  each_term K fuel false 0 (form_body K fuel) n terms tt s = Ok (u, s') ->
  core K h0 (sheap s') /\ (forall k t j, n + length terms <= k -> senv s' k t j = None) /\
  forall k term, nth_error terms k = Some term -> okn (n + k) R (dressed h0 term) (senv s').
Proof.
  intros H0 ND Hf. induction terms as [|term terms IH]; intros n s u s' C Cl Er Em E; cbn [each_term] in E.
  { injection E as _ <-. split; auto. split; [intros k t j Hk; apply Em; cbn in Hk; lia|]. intros [|k] tm X; discriminate. }
  change (n <? 0) with false in E. cbv iota in E.
  assert (H : hangs (sheap s) None R) by (eapply core_hangs; eauto).
  assert (Hh : height R <= fuel) by (pose proof (size_height R); lia).
  replace (visitor fuel (sheap s) (sroot s) None false) with (Ok (nids R)) in E.
  2:{ symmetry. rewrite Er. apply (visitor_hangs K (sheap s) R None fuel false H Hh). }
  cbn [bind] in E. set (hs := set_all (load K false (senv s) n) (sheap s) (nids R)) in *.
  destruct (set_leaves K hs term) as [h1|e] eqn:E1; [|discriminate]. cbn [bind] in E.
  assert (C1 : core K h0 h1) by (eapply core_trans; [exact C|eapply core_trans; [apply core_set_all, kept_load|eapply core_set_leaves; eauto]]).
  assert (H1 : hangs h1 None R) by (eapply core_hangs; eauto).
  assert (Se : sees R h1 (dressed h0 term)) by (apply (begin_sees R h0 (sheap s) false (senv s) n (nids R) term h1); auto; exists None; auto).
  destruct (form_body K fuel n tt _) as [(u2, s2)|] eqn:E2; [|discriminate]. cbn [bind] in E.
  pose proof (form_body_frame K fuel n _ _ _ _ E2) as (C2 & R2 & F2). cbn [with_heap Cache_Model.sheap Cache_Model.sroot Cache_Model.senv] in C2, R2, F2.
  unfold form_body in E2. cbn [with_heap Cache_Model.sheap Cache_Model.sroot] in E2.
  replace (visitor fuel h1 (sroot s) None false) with (Ok (nids R)) in E2.
  2:{ symmetry. rewrite Er. apply (visitor_hangs K h1 R None fuel false H1 Hh). }
  cbn [bind] in E2. destruct (fill K fuel n _ _) as [s3|] eqn:E3; [|discriminate]. cbn [bind] in E2. injection E2 as _ <-.
  apply (fill_ok R n h1 H1 ND Hf) in E3; cbn [with_heap Cache_Model.sheap Cache_Model.senv].
  2:{ apply Forall_forall. intros p Hp. apply in_flat_map in Hp. destruct Hp as (t & Ht & Hp). apply in_map_iff in Hp. destruct Hp as (i & <- & _). auto. }
  2:{ apply sbc_refl. }
  2:{ eapply (empty_exact R (sheap s) false n (senv s) (nids R) term); eauto. }
  2:{ intros t j w i v _ Ev. cbn [with_heap Cache_Model.senv] in Ev. rewrite Em in Ev by lia. discriminate. }
  destruct E3 as (S3 & O3 & _).
  pose proof (each_frame K fuel false 0 (form_body K fuel) ltac:(intros; eapply form_body_frame; eauto) _ _ _ _ _ _ E) as (_ & _ & FF).
  cbn [with_heap Cache_Model.senv] in FF. destruct u2.
  apply IH in E.
  2:{ cbn [with_heap Cache_Model.sheap]. eapply core_trans; [exact C1|]. eapply core_trans; [exact C2|apply core_set_all, kept_reset]. }
  2:{ cbn [with_heap Cache_Model.sheap]. apply (clean_again R (sheap s) false (senv s) n (nids R) term h1 (sheap s3)); auto; exists None; auto. }
  2:{ cbn [with_heap Cache_Model.sroot]. congruence. }
  2:{ cbn [with_heap Cache_Model.senv]. intros k t j Hk. rewrite F2 by lia. apply Em. lia. }
  destruct E as (C' & Em' & O'). split; auto. split; [intros k t j Hk; apply Em'; cbn [length] in Hk; lia|].
  intros [|k] tm Ht; [|rewrite <- Nat.add_succ_comm; apply O'; auto].
  injection Ht as <-. rewrite Nat.add_0_r. intros t j w i v Ed Ev. rewrite FF in Ev by lia.
  rewrite (sees_tenv R h1 (dressed h0 term)); [|auto|eapply edge_ids; eauto]. eapply O3; eauto.
Qed.
Lemma form_ready R s upd time s' : (exists ks, R = Nd (sroot s) ks /\ map k_i ks = seq 0 (length ks)) -> hangs (sheap s) None R ->
  NoDup (ids R) -> length (ids R) <= fuel -> form_env K T sys fuel upd time s = Ok s' -> ready R s'.
Proof.
  intros Tp H ND Hf E. pose proof (form_keyed _ _ _ _ E) as Ky. pose proof (form_frame K T sys fuel _ _ _ _ E) as (Co & Ro & Fr).
  cbn [with_env Cache_Model.sheap Cache_Model.sroot Cache_Model.senv] in Co, Ro, Fr.
  constructor; auto; [rewrite Ro; auto|eapply core_hangs; eauto|].
  destruct upd.
  - intros n term Ht t j u i v Ed Ev. rewrite Fr in Ev by (apply nth_error_Some; congruence). discriminate.
  - unfold form_env in E. fold (form_body K fuel) in E. unfold term_visitor in E. cbn [with_env Cache_Model.sheap Cache_Model.sroot] in E.
    destruct Tp as (ks & ER & Ek). assert (Et : sroot s = top R) by (subst R; auto).
    replace (visitor fuel (sheap s) (sroot s) None true) with (Ok (ids R)) in E.
    2:{ symmetry. rewrite Et. apply (visitor_hangs K (sheap s) R None fuel true H). pose proof (size_height R). lia. }
    cbn [bind] in E. unfold all_terms in E. rewrite each_app in E.
    destruct (each_term K fuel false 0 (form_body K fuel) 0 hl tt _) as [(u1, s1)|] eqn:E1; [|discriminate]. cbn [bind fst snd] in E. destruct u1.
    destruct (each_term K fuel false 0 (form_body K fuel) _ _ tt s1) as [(u2, s2)|] eqn:E2; [|discriminate]. cbn [bind snd] in E. injection E as <-.
    apply (form_each R (sheap s) H ND Hf) in E1; cbn [with_heap with_env Cache_Model.sheap Cache_Model.sroot Cache_Model.senv]; auto.
    2:{ apply core_set_all, kept_reset. }
    2:{ apply reset_clean. eauto. }
    destruct E1 as (C1 & _ & O1). apply each_frame in E2; [|intros; eapply form_body_frame; eauto]. destruct E2 as (C2 & _ & F2).
    apply (env_ok_core R (sheap s)); eauto. intros n term Ht t j u i v Ed Ev.
    rewrite F2 in Ev; [|assert (n < length hl) by (apply nth_error_Some; congruence); lia]. eapply (O1 n term Ht); eauto.
Qed.

Lemma near_ready R s s' : ready R s -> near K (sroot s) s s' -> senv s' = senv s -> ready R s'.
Proof.
  intros Rd (L & Er & Q & At & _) Ee. destruct (rd_top R s Rd) as (ks & ER & Ek). constructor; try apply Rd.
  - rewrite Er. eauto.
  - apply (hangs_on K (sheap s)); [|apply Rd]. intros x _. destruct (At x) as (_ & -> & _ & _ & ->). auto.
  - rewrite Ee. apply (env_ok_root R (sheap s)); try apply Rd; auto.
    + intros x Hx. eapply hangs_lt; eauto. apply Rd.
    + intros x Hx. apply Q. subst R. auto.
  - intros n t j v Ev. rewrite L. rewrite Ee in Ev. eapply (rd_keys R s Rd); eauto.
Qed.
Definition good (log : list (record K T)) : Prop := forall s cache time y, In (Called K T s cache time y) log -> exists R, ready R s.
Lemma good_nil : good []. Proof. intros s cache time y []. Qed.
Lemma good_app l l' : good l -> good l' -> good (l ++ l').
Proof. intros H H' s cache time y X. apply in_app_iff in X. destruct X; eauto. Qed.

Lemma call_ready R s cache c l r : ready R s -> do_call K T sys fuel (sroot s) cache c s = (l, r) ->
  good l /\ forall s', r = Ok s' -> ready R s' /\ sroot s' = sroot s.
Proof.
  intros Rd E. assert (N : forall s', r = Ok s' -> sroot s' = sroot s).
  { intros s' ->. apply call_near in E. apply E. }
  destruct c as [time y|y|time]; cbn [do_call] in E; injection E as <- <-.
  - split; [intros s0 c0 t0 y0 [X|[]]; injection X as <- _ _ _; eauto|]. intros s' X. split; [|auto].
    destruct (diff K T sys fuel (sroot s) cache time y s) as [(x, s1)|] eqn:E; [|discriminate]. cbn [bind snd] in X. injection X as <-.
    eapply diff_ready; eauto.
  - split; [apply good_nil|]. intros s' X. split; auto. apply (near_ready R s); auto; [eapply update_near; eauto|].
    unfold update in X. destruct (oarr _) as [a|]; [|discriminate]. destruct (reshape _ _); [|discriminate]. cbn [bind] in X. injection X as <-. auto.
  - split; [apply good_nil|]. intros s' X. split; auto. eapply form_ready; eauto; apply Rd.
Qed.
Lemma calls_ready R cache : forall cs s l r, ready R s -> foreach K T (do_call K T sys fuel (sroot s) cache) cs s = (l, r) ->
  good l /\ forall s', r = Ok s' -> ready R s' /\ sroot s' = sroot s /\ near K (sroot s) s s'.
Proof.
  induction cs as [|c cs IH]; intros s l r Rd E; cbn [foreach] in E.
  - injection E as <- <-. split; [apply good_nil|]. intros s' X. injection X as <-. split; [|split]; auto. apply near_refl.
  - unfold andthen in E. destruct (do_call K T sys fuel (sroot s) cache c s) as (l1, r1) eqn:E1.
    pose proof (call_ready R s cache c l1 r1 Rd E1) as (G1 & X1). destruct r1 as [s1|e].
    + destruct (X1 s1 eq_refl) as (Rd1 & Er). pose proof (call_near K T sys fuel _ _ _ _ _ _ E1) as N1. rewrite <- Er in E.
      destruct (foreach K T (do_call K T sys fuel (sroot s1) cache) cs s1) as (l2, r2) eqn:E2. injection E as <- <-.
      destruct (IH s1 l2 r2 Rd1 E2) as (G2 & X2). split; [apply good_app; auto|]. intros s' X. destruct (X2 s' X) as (A & B & C).
      split; auto. split; [congruence|]. eapply near_trans; eauto. rewrite <- Er. auto.
    + injection E as <- <-. split; auto. discriminate.
Qed.
Lemma prop_ready R s t cache cs l r : ready R (mkState K (sheap s) t (senv s)) -> split_prop K T sys fuel t cache cs s = (l, r) ->
  good l /\ forall s', r = Ok s' -> ready R s' /\ sroot s' = t /\ near K t (mkState K (sheap s) t (senv s)) s'.
Proof.
  intros Rd E. unfold split_prop in E. destruct (negb _); [injection E as <- <-; split; [apply good_nil|discriminate]|].
  apply (calls_ready R cache cs (mkState K (sheap s) t (senv s)) l r Rd E).
Qed.

(** A stored entry of the root is the environment computed anew. *)
Lemma ready_fresh R s n term i v : ready R s -> nth_error hl n = Some term -> i < order (sheap s) (sroot s) ->
  senv s n (sroot s) i = Some v -> fresh_env fuel (sheap s) (sroot s) term i = Ok v.
Proof.
  intros Rd Ht Hi Ev. destruct (rd_top R s Rd) as (ks & ER & Ek).
  assert (HL : hangs (dressed (sheap s) term) None R).
  { apply (hangs_on K (sheap s)); [|apply Rd]. intros x Hx. rewrite dressed_get by (eapply hangs_lt; eauto; apply Rd).
    destruct (oleaf (hget (sheap s) x)) eqn:Lf; cbn; rewrite ?Lf; auto. }
  rewrite (kids_order R _ ks _ ER (rd_hangs R s Rd)) in Hi.
  assert (Ii : In i (map k_i ks)) by (rewrite Ek; apply in_seq; lia).
  unfold fresh_env. pose proof (proper_ok R (sroot s) ks (dressed (sheap s) term) (dressed (sheap s) term) i ER HL (sbc_refl K _)) as X.
  specialize (X ltac:(intros x j v0 u p _ Hc; exfalso; destruct (Nat.lt_ge_cases x (length (sheap s))) as [Hl|Hl];
    [rewrite dressed_get in Hc by auto; cbn in Hc; discriminate|rewrite hget_out in Hc by (rewrite dressed_length; auto); discriminate])
    (rd_fuel R s Rd) Ii).
  assert (P : penv (dressed (sheap s) term) ks i = Ok v).
  { destruct (find_kid ks i Ii) as (k & Fk & Hk & Eki). unfold penv. rewrite Fk. eapply (rd_env R s Rd n term Ht (sroot s) i); eauto.
    subst R. rewrite <- Eki. apply edge_kid. auto. }
  rewrite P in X. destruct X as (h2 & -> & _). reflexivity.
Qed.
(** So is every stored entry of an axis that leads away from the root. *)
Lemma edges_edge_in : forall R t i x j, In (t, i, x, j) (edges R) -> exists u, edge_in R t i u j /\ top u = x.
Proof.
  induction R as [n|n ks IH] using tree_ind'; intros t i x j H; [destruct H|]. cbn [edges] in H. apply in_flat_map in H.
  destruct H as (k & Hk & [E|H]).
  - injection E as <- <- <- <-. exists (k_t k). split; auto. apply edge_kid. auto.
  - rewrite Forall_forall in IH. destruct (IH k Hk _ _ _ _ H) as (u & E & Ex). exists u. split; auto. eapply edge_deep; eauto.
Qed.
Lemma edge_height R t i u j : edge_in R t i u j -> height u <= height R.
Proof.
  induction 1 as [n ks i u j H|n ks k a i u j H E IH].
  - pose proof (height_kid n ks (i, u, j) H). cbn [k_t fst snd] in *. lia.
  - pose proof (height_kid n ks k H). lia.
Qed.
Lemma edge_fresh R s n term t i x j v : ready R s -> nth_error hl n = Some term -> In (t, i, x, j) (edges R) ->
  senv s n t i = Some v -> fresh_env fuel (sheap s) t term i = Ok v.
Proof.
  intros Rd Ht He Ev. destruct (edges_edge_in R t i x j He) as (u & Ed & Ex).
  assert (HL : hangs (dressed (sheap s) term) None R).
  { apply (hangs_on K (sheap s)); [|apply Rd]. intros y Hy. rewrite dressed_get by (eapply hangs_lt; eauto; apply Rd).
    destruct (oleaf (hget (sheap s) y)) eqn:Lf; cbn; rewrite ?Lf; auto. }
  pose proof (rd_env R s Rd n term Ht t i u j v Ed Ev) as TV.
  pose proof (edge_hangs K _ R None HL t i u j Ed) as Hu.
  destruct (edge_down_acc (dressed (sheap s) term) R t i u j Ed None HL) as (Hin & ND).
  assert (Lt : oleaf (hget (dressed (sheap s) term) t) = false).
  { apply (nids_inner K _ _ _ HL t). apply (edge_ids _ _ _ _ _ Ed). }
  pose proof (partial_env_tenv K (dressed (sheap s) term) false u (Some (j, (t, i))) fuel (dressed (sheap s) term) Hu) as X.
  specialize (X ltac:(pose proof (edge_height R t i u j Ed); pose proof (rd_fuel R s Rd); lia) (sbc_refl K _)).
  specialize (X ltac:(apply reset_exact; intros y; destruct (Nat.lt_ge_cases y (length (sheap s))) as [Hl|Hl];
    [rewrite dressed_get by auto; reflexivity|rewrite hget_out by (rewrite dressed_length; auto); reflexivity])).
  cbn [option_map fst] in X. rewrite TV in X. destruct X as (h2 & E2 & _).
  unfold fresh_env, partial_env_proper. rewrite Lt. unfold dindex. replace (dget (oacc (hget (dressed (sheap s) term) t)) i) with (Some (top u, j)) by (symmetry; apply points_dget; auto). cbn [bind fst snd]. rewrite E2. reflexivity.
Qed.
End Run.
End CacheExact.
