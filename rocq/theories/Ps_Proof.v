(** [propagate2.py]: what [_form_env] stores and what [diff] computes. *)
From Coq Require Import String List Arith Bool Lia Permutation.
From Verif Require Import Py Alg ListX NdArray_Model NdArray_Proof Contract_Model Net_Model Net_Spec Trav_Proof Acyc_Proof Env_Proof TEnv_Proof EnvThm_Proof
  Link_Spec Link_Proof State_Proof Move_Spec Split_Proof Relink_Proof Move_Proof MoveRoot_Proof Contraction_Proof Cache_Model Cache_Spec Cache_Proof CacheExact_Proof Ps_Spec.
From Verif Require Ps_Model.
Import ListNotations.
Local Open Scope nat_scope.
Local Open Scope list_scope.
Local Open Scope py_scope.

Section Ps.
Variable K : StarRing.
Implicit Types h : heap K.
Implicit Types P : id -> nat -> Prop.
Notation state := (state K).
Notation sheap := (sheap K).
Notation sroot := (sroot K).
Notation senv := (senv K).
Notation term_t := (list (id * arr K)).

(** ** Cached entries stay *)
Definition full h (x : id) (k : nat) : Prop := dget (ocache (hget h x)) k <> None.
Lemma full_put h n k0 (v : option (arr K)) x k : full h x k -> full (modify h n (fun o => put_cache (dput (ocache o) k0 v) o)) x k.
Proof.
  unfold full. intros H. destruct (Nat.lt_ge_cases n (length h)) as [L|L]; [|rewrite modify_out by auto; auto].
  destruct (Nat.eq_dec n x) as [->|N]; [|rewrite hget_modify_neq by auto; auto]. rewrite hget_modify_eq by auto. cbn [put_cache ocache].
  rewrite dget_dput. destruct (k =? k0); auto. discriminate.
Qed.
Lemma env_list_full (f : heap K -> id -> nat -> res (option (arr K) * heap K)) x k :
  (forall h c j v h', f h c j = Ok (v, h') -> full h x k -> full h' x k) ->
  forall l h es h', env_list f h l = Ok (es, h') -> full h x k -> full h' x k.
Proof.
  intros F. induction l as [|((i, c), j) l IH]; intros h es h' E H; cbn [env_list] in E; [injection E as _ <-; auto|].
  destruct (f h c j) as [(v, h1)|] eqn:E1; [|discriminate]. cbn [bind] in E.
  destruct (env_list f h1 l) as [(es', h2)|] eqn:E2; [|discriminate]. cbn [bind] in E. injection E as _ <-.
  exact (IH _ _ _ E2 (F _ _ _ _ _ E1 H)).
Qed.
Lemma partial_env_full x k : forall fuel h n i v h', partial_env fuel false h n i = Ok (v, h') -> full h x k -> full h' x k.
Proof.
  induction fuel as [|fuel IH]; intros h n i v h' E H; cbn [partial_env] in E; [discriminate|].
  destruct (oleaf (hget h n)); [injection E as _ <-; auto|].
  destruct (match i with Some k0 => dget (ocache (hget h n)) k0 | None => None end) as [w|]; [injection E as _ <-; auto|].
  destruct (env_list _ h _) as [(es, h1)|] eqn:E1; [|discriminate]. cbn [bind] in E.
  assert (H1 : full h1 x k).
  { refine (env_list_full _ x k _ _ _ _ _ E1 H). intros h2 c j v2 h3 E3 F3. exact (IH _ _ _ _ _ E3 F3). }
  match type of E with bind ?m _ = _ => destruct m as [ans|] eqn:E2; [|discriminate] end. cbn [bind] in E.
  destruct i as [k0|]; injection E as _ <-; auto. apply full_put. auto.
Qed.
Lemma partial_env_stored fuel h n k v h' : partial_env fuel false h n (Some k) = Ok (v, h') -> oleaf (hget h n) = false -> n < length h -> full h' n k.
Proof.
  destruct fuel as [|fuel]; [discriminate|]. cbn [partial_env]. intros E L Ln. rewrite L in E.
  destruct (dget (ocache (hget h n)) k) as [w|] eqn:D; [injection E as _ <-; unfold full; congruence|].
  destruct (env_list _ h _) as [(es, h1)|] eqn:E1; [|discriminate]. cbn [bind] in E.
  match type of E with bind ?m _ = _ => destruct m as [ans|] eqn:E2; [|discriminate] end. cbn [bind] in E. injection E as _ <-.
  assert (L1 : length h1 = length h).
  { assert (G : forall l h es h', env_list (fun h c j => partial_env fuel false h c (Some j)) h l = Ok (es, h') -> length h' = length h); [|eauto].
    induction l as [|((i, c), j) l IH]; intros g es' g' E; cbn [env_list] in E; [injection E as _ <-; auto|].
    destruct (partial_env fuel false g c (Some j)) as [(v1, g1)|] eqn:F1; [|discriminate]. cbn [bind] in E.
    destruct (env_list _ g1 l) as [(es2, g2)|] eqn:F2; [|discriminate]. cbn [bind] in E. injection E as _ <-.
    rewrite (IH _ _ _ F2). apply partial_env_frame in F1. apply F1. }
  unfold full. rewrite hget_modify_eq by lia. cbn [put_cache ocache]. rewrite dget_dput, Nat.eqb_refl. discriminate.
Qed.
Lemma proper_full fuel h n i v h' x k : partial_env_proper fuel false h n i = Ok (v, h') -> full h x k -> full h' x k.
Proof.
  unfold partial_env_proper. destruct (oleaf _); [discriminate|]. destruct (dindex _ i) as [(c, j)|]; [|discriminate]. cbn [bind]. apply partial_env_full.
Qed.

(** ** Arrays of a term *)
Lemma set_arrays_leaves (term : term_t) : forall h, (forall l m, In (l, m) term -> oleaf (hget h l) = true) -> set_leaves K h term = Ok (Ps_Model.set_arrays K h term).
Proof.
  induction term as [|(l, a) term IH]; intros h H; cbn [set_leaves Ps_Model.set_arrays]; auto. rewrite (H l a) by (left; auto). apply IH.
  intros l' m Hin. rewrite <- (H l' m) by (right; auto). destruct (core_modify K h l (put_arr (Some a))) as (_ & X).
  { repeat split; cbn; auto. rewrite (H l a) by (left; auto). discriminate. }
  apply X.
Qed.
Lemma load_nothing h : set_all (load K false (no_env K) 0) h [] = h. Proof. auto. Qed.

Section Terms.
Variable fuel : nat.
Variable R : tree.
Variable r : id.
Variable ks : list (nat * tree * nat).
Hypothesis ER : R = Nd r ks.
Variable h0 : heap K.
Hypothesis H0 : hangs h0 None R.
Hypothesis ND : NoDup (ids R).
Hypothesis Hf : length (ids R) <= fuel.
Lemma Hh : height R <= fuel.
Proof. pose proof (size_height R). lia. Qed.

(** ** The terms that count *)
Notation pick u t0 tn := (if inner u then t0 else tn : term_t).
(** Stored entries of term number [n]. *)
Definition okm (n : nat) (t0 tn : term_t) (e : envs K) : Prop :=
  forall t j u i v, edge_in R t j u i -> e n t j = Some v -> tenv K (dressed h0 (pick u t0 tn)) false (Some i) u = Ok v.

(** A state before a term. *)
Record rest (s : state) : Prop := { rs_core : core K h0 (sheap s); rs_clean : clean K R (sheap s); rs_root : sroot s = r }.

Lemma begin s (term : term_t) : rest s -> (forall l m, In (l, m) term -> oleaf (hget h0 l) = true) ->
  let h1 := Ps_Model.set_arrays K (sheap s) term in
  core K h0 h1 /\ hangs h1 None R /\ sees K R h1 (dressed h0 term) /\ (forall x, x < length h0 -> ocache (hget h1 x) = ocache (hget (sheap s) x)) /\
  forall h2, same_but_cache K h1 h2 -> rest (with_heap K s (set_all (reset_obj K) h2 (map fst term))).
Proof.
  intros [C Cl Er] Sl h1. assert (E : set_leaves K (sheap s) term = Ok h1).
  { apply set_arrays_leaves. intros l m Hin. destruct C as (_ & C). destruct (C l) as (_ & -> & _). eauto. }
  assert (C1 : core K h0 h1) by (eapply core_trans; [exact C|eapply core_set_leaves; eauto]).
  assert (Hs : hangs (sheap s) None R) by (eapply core_hangs; eauto).
  split; auto. split; [eapply core_hangs; eauto|]. split; [|split].
  - apply (begin_sees K R h0 (sheap s) false (no_env K) 0 [] term h1); auto. eauto.
  - intros x Hx. apply (set_leaves_get K term _ _ E). destruct C as (-> & _). auto.
  - intros h2 S2. constructor; cbn [with_heap Cache_Model.sheap Cache_Model.sroot]; auto.
    + eapply core_trans; [exact C1|]. eapply core_trans; [apply core_sbc; eauto|apply core_set_all, kept_reset].
    + apply (clean_again K R (sheap s) false (no_env K) 0 [] term h1 h2); auto. eauto.
Qed.
Lemma empty_caches h (Q : id -> nat -> Prop) : (forall x, In x (ids R) -> oleaf (hget h x) = false -> ocache (hget h x) = []) -> (forall x j, Q x j -> In x (ids R)) -> cache_exact_on K Q h.
Proof. intros E QI x j v t p Hq Hc _ _ L. rewrite (E x (QI _ _ Hq) L) in Hc. discriminate. Qed.

(** Entries that were cached while the first term was in the leaves. *)
Definition warm (P : id -> nat -> Prop) (t0 : term_t) h : Prop :=
  forall t j u i, edge_in R t j u i -> inner u = true -> P t j -> exists v, dget (ocache (hget h (top u))) i = Some v /\ tenv K (dressed h0 t0) false (Some i) u = Ok v.
Lemma edge_lt t j u i : edge_in R t j u i -> top u < length h0 /\ oleaf (hget h0 (top u)) = negb (inner u).
Proof.
  intros Ed. split; [apply (hangs_lt K h0 None R H0); apply (proj1 (edge_ids _ _ _ _ _ Ed)), top_ids|].
  apply (hangs_leafness K h0 _ _ (edge_hangs K h0 R None H0 _ _ _ _ Ed)).
Qed.
Lemma warm_full P t0 h (Q : id -> nat -> Prop) : sees K R h (dressed h0 t0) -> hangs h None R -> cache_exact_on K Q h -> (forall t j u i, edge_in R t j u i -> Q (top u) i) ->
  (forall t j u i, edge_in R t j u i -> inner u = true -> P t j -> full h (top u) i) -> warm P t0 h.
Proof.
  intros Se H Ex QI Fu t j u i Ed In_ Hp. specialize (Fu t j u i Ed In_ Hp). unfold full in Fu.
  destruct (dget (ocache (hget h (top u))) i) as [v|] eqn:D; [|congruence]. exists v. split; auto.
  rewrite (sees_tenv K R h (dressed h0 t0)) by (auto; eapply edge_ids; eauto).
  apply (Ex (top u) i v u (t, j)); auto; [eauto|eapply edge_hangs; eauto|].
  pose proof (hangs_leafness K h _ _ (edge_hangs K h R None H _ _ _ _ Ed)) as L. rewrite In_ in L. auto.
Qed.
Lemma warm_again P t0 h h' : (forall x, x < length h0 -> oleaf (hget h0 x) = false -> ocache (hget h' x) = ocache (hget h x)) -> warm P t0 h -> warm P t0 h'.
Proof.
  intros E W t j u i Ed In_ Hp. destruct (edge_lt _ _ _ _ Ed) as (L & Lf). rewrite In_ in Lf. rewrite E by auto. eauto.
Qed.
Lemma reset_leaves_cache h (l : list id) x : oleaf (hget h x) = false -> ~ In x l -> hget (set_all (reset_obj K) h l) x = hget h x.
Proof.
  intros L N. rewrite set_all_get by apply reset_idem. destruct (memb x l && (x <? length h)) eqn:E; auto.
  apply andb_true_iff in E. destruct E as (E & _). apply memb_In in E. contradiction.
Qed.
(** The caches of the tensors survive from one term to the next. *)
Lemma next_cache (term : term_t) h2 x : core K h0 h2 -> (forall l m, In (l, m) term -> oleaf (hget h0 l) = true) -> oleaf (hget h0 x) = false ->
  ocache (hget (set_all (reset_obj K) h2 (map fst term)) x) = ocache (hget h2 x).
Proof.
  intros (_ & C) Sl L. rewrite reset_leaves_cache; auto.
  - destruct (C x) as (_ & -> & _). auto.
  - intros Hin. apply in_map_iff in Hin. destruct Hin as ((l, m) & <- & Hin). cbn [fst] in L. rewrite (Sl _ _ Hin) in L. discriminate.
Qed.

(** An environment read while a later term is in the leaves. *)
Lemma warm_read P t0 tn h t j u i : hangs h None R -> core K h0 h -> sees K R h (dressed h0 tn) -> warm P t0 h -> edge_in R t j u i -> P t j ->
  exists v, partial_env_proper fuel false h t j = Ok (v, h) /\ tenv K (dressed h0 (pick u t0 tn)) false (Some i) u = Ok v.
Proof.
  intros H C Se W Ed Hp. destruct (edge_down_acc K h R t j u i Ed None H) as (Ha & Na).
  assert (Lt : oleaf (hget h t) = false) by (apply (nids_inner K h R None H); apply (edge_ids _ _ _ _ _ Ed)).
  assert (Fu : exists f, fuel = S f).
  { pose proof Hf as X. rewrite ER in X. cbn [ids length] in X. exists (pred fuel). lia. }
  destruct Fu as (f & Ef). unfold partial_env_proper. rewrite Lt. unfold dindex. rewrite (points_dget _ _ _ Na Ha). cbn [bind fst snd]. rewrite Ef. cbn [partial_env].
  pose proof (hangs_leafness K h _ _ (edge_hangs K h R None H _ _ _ _ Ed)) as L. rewrite L.
  destruct (inner u) eqn:In_; cbn [negb].
  - destruct (W t j u i Ed In_ Hp) as (v & D & T). exists v. rewrite D. auto.
  - destruct u as [l|]; [|discriminate]. exists (oarr (hget h l)). cbn [top]. split; auto. cbn [tenv].
    destruct (Se l) as (-> & _); auto. apply (proj1 (edge_ids _ _ _ _ _ Ed)). left. auto.
Qed.

(** ** [diff] *)
Hypothesis Ik : map k_i ks = seq 0 (order h0 r).
Lemma kid_edge i : In i (map k_i ks) -> exists k, find (fun k => k_i k =? i) ks = Some k /\ In k ks /\ k_i k = i /\ edge_in R r i (k_t k) (k_j k).
Proof.
  intros Hi. destruct (find_kid ks i Hi) as (k & Fk & Hk & Ek). exists k. split; auto. split; auto. split; auto. rewrite ER, <- Ek. apply edge_kid. auto.
Qed.
(** The environments of the neighbours for the mixture of two terms. *)
Lemma last_of_app (a b : term_t) l : last_of (a ++ b) l = match last_of b l with Some m => Some m | None => last_of a l end.
Proof.
  unfold last_of. rewrite fold_left_app.
  assert (G : forall b acc, fold_left (fun acc p => if fst p =? l then Some (snd p) else acc) b acc =
    match fold_left (fun acc p => if fst p =? l then Some (snd p) else acc) b (None : option (arr K)) with Some m => Some m | None => acc end); [|apply G].
  clear. induction b as [|p b IH]; intros acc; cbn [fold_left]; auto. rewrite (IH (if fst p =? l then Some (snd p) else acc)), (IH (if fst p =? l then Some (snd p) else None)).
  destruct (fold_left _ b None); auto. destruct (fst p =? l); auto.
Qed.
Lemma last_of_filter (f : id -> bool) (a : term_t) l : last_of (filter (fun p => f (fst p)) a) l = if f l then last_of a l else None.
Proof.
  unfold last_of. assert (G : forall acc, fold_left (fun acc p => if fst p =? l then Some (snd p) else acc) (filter (fun p => f (fst p)) a) acc =
    if f l then fold_left (fun acc p => if fst p =? l then Some (snd p) else acc) a acc else acc).
  { induction a as [|p a IH]; intros acc; cbn [filter fold_left]; [destruct (f l); auto|]. destruct (f (fst p)) eqn:E; cbn [fold_left]; rewrite IH.
    - destruct (Nat.eqb_spec (fst p) l) as [Q|]; auto. rewrite <- Q, E. auto.
    - destruct (Nat.eqb_spec (fst p) l) as [Q|]; auto. rewrite <- Q, E. auto. }
  rewrite G. auto.
Qed.
Lemma last_of_mixed (t0 tn : term_t) l : last_of (mixed ks t0 tn) l = if joined ks l then last_of tn l else last_of t0 l.
Proof.
  unfold mixed. rewrite last_of_app, (last_of_filter (fun x => negb (joined ks x))), (last_of_filter (joined ks)). destruct (joined ks l); cbn [negb]; auto.
  destruct (last_of t0 l); auto.
Qed.
Lemma joined_in l : joined ks l = true <-> exists k, In k ks /\ k_t k = Lf l.
Proof.
  unfold joined. rewrite existsb_exists. split; intros (k & Hk & E).
  - exists k. split; auto. unfold k_t. destruct (snd (fst k)) as [x|]; [|discriminate]. apply Nat.eqb_eq in E. subst. auto.
  - exists k. split; auto. unfold k_t in E. rewrite E. apply Nat.eqb_refl.
Qed.
Lemma dressed_last h (ta tb : term_t) u i : (forall x, In x (ids u) -> x < length h) -> (forall l, In l (ids u) -> oleaf (hget h l) = true -> last_of ta l = last_of tb l) ->
  tenv K (dressed h ta) false i u = tenv K (dressed h tb) false i u.
Proof.
  intros L E. apply tenv_local. intros x Hx. rewrite !dressed_get by auto. destruct (oleaf (hget h x)) eqn:Lf; cbn; [rewrite (E x Hx Lf)|]; repeat split; auto; discriminate.
Qed.
Lemma kid_disjoint k k' x : In k ks -> In k' ks -> In x (ids (k_t k)) -> In x (ids (k_t k')) -> k = k'.
Proof.
  intros Hk Hk' Hx Hx'. pose proof ND as N. rewrite ER in N. cbn [ids] in N. apply NoDup_cons_iff in N. destruct N as (_ & N).
  apply (k_unique ks k k'); auto; [rewrite Ik; apply seq_NoDup|].
  revert N Hk Hk'. clear -Hx Hx'. induction ks as [|k0 l IH]; intros N Hk Hk'; [destruct Hk|]. cbn [flat_map] in N.
  assert (G : forall z, In z l -> In x (ids (k_t z)) -> In x (ids (k_t k0)) -> False).
  { intros z Hz X1 X2. revert N. clear -Hz X1 X2. induction (ids (k_t k0)) as [|y m IH]; [destruct X2|]. intros N. cbn in N. apply NoDup_cons_iff in N. destruct N as (Nn & N).
    destruct X2 as [->|X2]; auto. apply Nn. apply in_app_iff. right. apply in_flat_map. eauto. }
  destruct Hk as [<-|Hk], Hk' as [<-|Hk']; auto; try (exfalso; eauto; fail).
  apply IH; auto. clear -N. induction (ids (k_t k0)); auto. cbn in N. inversion N; auto.
Qed.
Lemma penv_mixed (t0 tn : term_t) i k : In k ks -> k_i k = i -> find (fun k => k_i k =? i) ks = Some k ->
  penv K (dressed h0 (mixed ks t0 tn)) ks i = tenv K (dressed h0 (pick (k_t k) t0 tn)) false (Some (k_j k)) (k_t k).
Proof.
  intros Hk Ek Fk. unfold penv. rewrite Fk. apply dressed_last.
  - intros x Hx. apply (hangs_lt K h0 None R H0). rewrite ER. right. apply in_flat_map. eauto.
  - intros l Hl _. rewrite last_of_mixed. destruct (joined ks l) eqn:J.
    + apply joined_in in J. destruct J as (k' & Hk' & E'). assert (k' = k) as ->.
      { apply (kid_disjoint k' k l); auto. rewrite E'. left. auto. }
      rewrite E'. auto.
    + destruct (k_t k) as [x|] eqn:E; auto. exfalso. cbn [ids] in Hl. destruct Hl as [<-|[]].
      assert (J' : joined ks x = true) by (apply joined_in; eauto). congruence.
Qed.
Lemma papply_same hd hd' l tmp : (forall i, In i l -> penv K hd ks i = penv K hd' ks i) -> papply K hd ks l tmp = papply K hd' ks l tmp.
Proof.
  revert tmp. induction l as [|i l IH]; intros tmp H; cbn [papply]; auto. rewrite H by (left; auto). destruct (penv K hd' ks i); cbn [bind]; auto.
  destruct (pp_all tmp _); cbn [bind]; auto. apply IH. intros j Hj. apply H. right. auto.
Qed.
Lemma mixed_first (t0 : term_t) l tmp : Forall (fun i => In i (map k_i ks)) l -> papply K (dressed h0 (mixed ks t0 t0)) ks l tmp = papply K (dressed h0 t0) ks l tmp.
Proof.
  intros Fl. apply papply_same. intros i Hi. rewrite Forall_forall in Fl. destruct (kid_edge i (Fl i Hi)) as (k & Fk & Hk & Ek & _).
  rewrite (penv_mixed t0 t0 i k Hk Ek Fk). unfold penv. rewrite Fk. destruct (inner (k_t k)); auto.
Qed.

(** Reading while a later term is in the leaves. *)
Lemma apply_late (t0 tn : term_t) n (e : envs K) h : hangs h None R -> core K h0 h -> sees K R h (dressed h0 tn) -> okm n t0 tn e ->
  warm (fun t j => t = r /\ e n t j = None) t0 h -> forall l tmp, Forall (fun i => In i (map k_i ks)) l ->
  apply_envs K fuel n r false l tmp (mkState K h r e) = (let! x := papply K (dressed h0 (mixed ks t0 tn)) ks l tmp in Ok (x, mkState K h r e)).
Proof.
  intros H C Se Ok_ W. induction l as [|i l IH]; intros tmp Fl; cbn [papply apply_envs bind]; auto.
  pose proof (Forall_inv Fl) as Hi; pose proof (Forall_inv_tail Fl) as Fl'. cbn beta in Hi. destruct (kid_edge i Hi) as (k & Fk & Hk & Ek & Ed).
  rewrite (penv_mixed t0 tn i k Hk Ek Fk). cbn [Cache_Model.senv Cache_Model.sheap Cache_Model.sroot].
  destruct (e n r i) as [v|] eqn:Ev.
  - rewrite (Ok_ r i _ _ v Ed Ev). cbn [bind]. destruct (pp_all tmp [(i, v)]); cbn [bind]; auto.
  - destruct (warm_read _ t0 tn h r i _ _ H C Se W Ed (conj eq_refl Ev)) as (v & -> & ->). cbn [bind]. destruct (pp_all tmp [(i, v)]); cbn [bind]; auto.
Qed.
Lemma apply_fills n (e : envs K) h : forall l tmp x s', length h = length h0 -> (forall t, oleaf (hget h t) = oleaf (hget h0 t)) -> hangs h None R ->
  apply_envs K fuel n r false l tmp (mkState K h r e) = Ok (x, s') ->
  (forall y k, full h y k -> full (sheap s') y k) /\
  (forall i k, In i l -> In k ks -> k_i k = i -> inner (k_t k) = true -> e n r i = None -> full (sheap s') (top (k_t k)) (k_j k)).
Proof.
  intros l. revert h. induction l as [|i l IH]; intros h tmp x s' L Lf H E; cbn [apply_envs] in E.
  { injection E as _ <-. split; auto. intros i k []. }
  cbn [Cache_Model.senv Cache_Model.sheap Cache_Model.sroot] in E. destruct (e n r i) as [v|] eqn:Ev.
  - cbn [bind] in E. destruct (pp_all tmp [(i, v)]) as [tmp'|]; [|discriminate]. cbn [bind] in E. destruct (IH h tmp' x s' L Lf H E) as (A & B). split; auto.
    intros i' k [<-|Hi'] Hk Ek In_ En; [congruence|eauto].
  - destruct (partial_env_proper fuel false h r i) as [(v, h2)|] eqn:E1; [|discriminate]. cbn [bind] in E.
    destruct (pp_all tmp [(i, v)]) as [tmp'|]; [|discriminate]. cbn [bind] in E.
    pose proof (proper_frame K fuel false h r i v h2 E1) as S2. pose proof (core_sbc K _ _ S2) as (L2 & C2).
    destruct (IH h2 tmp' x s') as (A & B); auto; [lia|intros t; destruct (C2 t) as (_ & -> & _); auto|eapply core_hangs; [apply core_sbc; eauto|auto]|].
    split; [intros y k Fy; apply A; eapply proper_full; eauto|].
    intros i' k [<-|Hi'] Hk Ek In_ En; [|eapply B; eauto].
    assert (Ed : edge_in R r i (k_t k) (k_j k)) by (rewrite ER, <- Ek; apply edge_kid; auto).
    apply A. unfold partial_env_proper in E1. destruct (oleaf (hget h r)); [discriminate|].
    destruct (edge_down_acc K h R r i _ _ Ed None H) as (Ha & Na). unfold dindex in E1. rewrite (points_dget _ _ _ Na Ha) in E1. cbn [bind fst snd] in E1.
    destruct (edge_lt _ _ _ _ Ed) as (X1 & X2). rewrite In_ in X2. cbn [negb] in X2. rewrite <- Lf in X2.
    eapply partial_env_stored; eauto. lia.
Qed.

Lemma apply_quiet n : forall l tmp s x s', apply_envs K fuel n r false l tmp s = Ok (x, s') -> sroot s' = sroot s /\ senv s' = senv s.
Proof.
  induction l as [|i l IH]; intros tmp s x s' E; cbn [apply_envs] in E; [injection E as _ <-; auto|].
  destruct (senv s n r i) as [v|].
  - cbn [bind] in E. destruct (pp_all tmp [(i, v)]) as [tmp'|]; [|discriminate]. cbn [bind] in E. eauto.
  - destruct (partial_env_proper fuel false (sheap s) r i) as [(v, h)|]; [|discriminate]. cbn [bind] in E.
    destruct (pp_all tmp [(i, v)]) as [tmp'|]; [|discriminate]. cbn [bind] in E. apply IH in E. auto.
Qed.
Lemma diff_late (t0 : term_t) a : oarr (hget h0 r) = Some a -> oaxis (hget h0 r) = None -> forall terms n acc s,
  (forall term l m, In term terms -> In (l, m) term -> oleaf (hget h0 l) = true) -> (forall l m, In (l, m) t0 -> oleaf (hget h0 l) = true) ->
  rest s -> (forall k tn, nth_error terms k = Some tn -> okm (n + k) t0 tn (senv s) /\ warm (fun t j => t = r /\ senv s (n + k) t j = None) t0 (sheap s)) ->
  match pterms K h0 ks (seq 0 (order h0 r)) a (map (mixed ks t0) terms) acc with
  | Ok x => exists s', Ps_Model.each_term K (Ps_Model.diff_term K fuel r) n terms acc s = Ok (x, s') /\ rest s' /\ senv s' = senv s
  | Raise e => Ps_Model.each_term K (Ps_Model.diff_term K fuel r) n terms acc s = Raise e
  end.
Proof.
  intros Ea Ex terms. induction terms as [|tn terms IH]; intros n acc s Sl S0 Rs Ok_; cbn [map pterms Ps_Model.each_term]; [eauto|].
  destruct (begin s tn Rs (fun l m => Sl tn l m (or_introl eq_refl))) as (C1 & H1 & Se & Ca & Nx). set (h1 := Ps_Model.set_arrays K (sheap s) tn) in *.
  replace (forallb (fun p => oleaf (hget h0 (fst p))) (mixed ks t0 tn)) with true.
  2:{ symmetry. apply forallb_forall. intros (l, m) Hp. cbn [fst]. unfold mixed in Hp. apply in_app_iff in Hp.
      destruct Hp as [Hp|Hp]; apply filter_In in Hp; destruct Hp as (Hp & _); eauto. eapply Sl; eauto. left. auto. }
  assert (Hr : sroot s = r) by apply Rs. destruct (Ok_ 0 tn eq_refl) as (O1 & W1). rewrite Nat.add_0_r in O1, W1.
  assert (W1' : warm (fun t j => t = r /\ senv s n t j = None) t0 h1) by (eapply warm_again; [|exact W1]; auto).
  unfold Ps_Model.diff_term at 1 3, Ps_Model.single_diff. cbn [with_heap Cache_Model.sheap Cache_Model.sroot].
  pose proof C1 as (L1 & K1). destruct (K1 r) as (_ & Q1 & Q2 & _ & _ & Q3). rewrite Q2, Ex, (core_order K h0 h1 r C1). cbn [is_none].
  assert (Lr : oleaf (hget h0 r) = false) by (pose proof H0 as X; rewrite ER in X; inversion X; auto). rewrite (Q3 Lr), Ea.
  replace (with_heap K s h1) with (mkState K h1 r (senv s)) by (unfold with_heap; rewrite Hr; auto).
  rewrite (apply_late t0 tn n (senv s) h1 H1 C1 Se O1 W1') by (rewrite Ik; apply Forall_forall; auto).
  destruct (papply K (dressed h0 (mixed ks t0 tn)) ks (seq 0 (order h0 r)) a) as [x|]; cbn [bind]; auto.
  destruct (vec_add K acc (data x)) as [acc'|]; cbn [bind]; auto.
  cbn [with_heap Cache_Model.sheap Cache_Model.sroot Cache_Model.senv].
  specialize (IH (S n) acc' (mkState K (set_all (reset_obj K) h1 (map fst tn)) r (senv s))).
  specialize (IH ltac:(intros tm l m Ht; apply (Sl tm); right; auto) S0).
  pose proof (Nx h1 (sbc_refl K h1)) as Rs'. unfold with_heap in Rs'. rewrite Hr in Rs'. specialize (IH Rs'). cbn [Cache_Model.senv Cache_Model.sheap] in IH.
  assert (Oth : forall k tm, nth_error terms k = Some tm -> okm (S n + k) t0 tm (senv s) /\ warm (fun t j => t = r /\ senv s (S n + k) t j = None) t0 (set_all (reset_obj K) h1 (map fst tn))).
  { intros k tm Hk. destruct (Ok_ (S k) tm Hk) as (O2 & W2). rewrite <- Nat.add_succ_comm in O2, W2. split; auto.
    eapply warm_again; [|exact W2]. intros z Hz Lz. rewrite (next_cache tn h1 z C1) by (auto; intros; eapply Sl; eauto; left; auto). auto. }
  specialize (IH Oth). destruct (pterms K h0 ks (seq 0 (order h0 r)) a (map (mixed ks t0) terms) acc') as [z|]; auto.
Qed.

Lemma root_edge j u i : edge_in R r j u i -> In (j, u, i) ks.
Proof.
  rewrite ER. intros E. pose proof ND as D. rewrite ER in D. inversion E as [? ? ? ? ? X|? ? k ? ? ? ? X E']; subst; auto.
  exfalso. cbn [ids] in D. apply NoDup_cons_iff in D. destruct D as (D & _). apply D. apply in_flat_map. exists k. split; auto. apply nids_ids. apply (edge_ids _ _ _ _ _ E').
Qed.
Lemma diff_all (t0 : term_t) a terms acc s : oarr (hget h0 r) = Some a -> oaxis (hget h0 r) = None ->
  (forall term l m, In term (t0 :: terms) -> In (l, m) term -> oleaf (hget h0 l) = true) ->
  rest s -> (forall x, In x (ids R) -> oleaf (hget h0 x) = false -> ocache (hget (sheap s) x) = []) ->
  (forall k tn, nth_error (t0 :: terms) k = Some tn -> okm k t0 tn (senv s)) ->
  (forall n t j, n < length (t0 :: terms) -> senv s n t j = None -> senv s 0 t j = None) ->
  match pterms K h0 ks (seq 0 (order h0 r)) a (map (mixed ks t0) (t0 :: terms)) acc with
  | Ok x => exists s', Ps_Model.each_term K (Ps_Model.diff_term K fuel r) 0 (t0 :: terms) acc s = Ok (x, s') /\ rest s' /\ senv s' = senv s
  | Raise e => Ps_Model.each_term K (Ps_Model.diff_term K fuel r) 0 (t0 :: terms) acc s = Raise e
  end.
Proof.
  intros Ea Ex Sl Rs Em Ok_ Un. cbn [map pterms Ps_Model.each_term].
  destruct (begin s t0 Rs (fun l m => Sl t0 l m (or_introl eq_refl))) as (C1 & H1 & Se & Ca & Nx). set (h1 := Ps_Model.set_arrays K (sheap s) t0) in *.
  replace (forallb (fun p => oleaf (hget h0 (fst p))) (mixed ks t0 t0)) with true.
  2:{ symmetry. apply forallb_forall. intros (l, m) Hp. cbn [fst]. unfold mixed in Hp. apply in_app_iff in Hp.
      destruct Hp as [Hp|Hp]; apply filter_In in Hp; destruct Hp as (Hp & _); eapply Sl; eauto; left; auto. }
  assert (Hr : sroot s = r) by apply Rs. pose proof (Ok_ 0 t0 eq_refl) as O1.
  unfold Ps_Model.diff_term at 1 3, Ps_Model.single_diff. cbn [with_heap Cache_Model.sheap Cache_Model.sroot].
  pose proof C1 as (L1 & K1). destruct (K1 r) as (_ & Q1 & Q2 & _ & _ & Q3). rewrite Q2, Ex, (core_order K h0 h1 r C1). cbn [is_none].
  assert (Lr : oleaf (hget h0 r) = false) by (pose proof H0 as X; rewrite ER in X; inversion X; auto). rewrite (Q3 Lr), Ea.
  replace (with_heap K s h1) with (mkState K h1 r (senv s)) by (unfold with_heap; rewrite Hr; auto).
  assert (Fl : Forall (fun i => In i (map k_i ks)) (seq 0 (order h0 r))) by (rewrite Ik; apply Forall_forall; auto).
  rewrite (mixed_first t0 _ a Fl).
  assert (Ex1 : cache_exact_on K (downs R) h1).
  { apply empty_caches.
    - intros x Hx Lx. pose proof (hangs_lt K h0 None R H0 x Hx) as Lt. rewrite Ca by auto. apply Em; auto. destruct (K1 x) as (_ & <- & _). auto.
    - intros x j (t & q & u & Ed & <-). apply (proj1 (edge_ids _ _ _ _ _ Ed)), top_ids. }
  assert (O1' : okn K 0 R h1 (senv s)).
  { apply (okn_sees K 0 R h1 (dressed h0 t0)); auto. intros t j u i v Ed Ev. specialize (O1 t j u i v Ed Ev). destruct (inner u); auto. }
  pose proof (apply_ok K fuel R r ks 0 false h1 ER H1 Hh (seq 0 (order h0 r)) a (mkState K h1 r (senv s)) Fl ltac:(rewrite Ik; apply seq_NoDup) (sbc_refl K h1) Ex1 ND O1') as X.
  rewrite (papply_sees K R h1 (dressed h0 t0) r ks ER Se).
  destruct (papply K h1 ks (seq 0 (order h0 r)) a) as [x|]; [|rewrite X; cbn [bind]; auto].
  destruct X as (s1 & X & S1 & _ & Ex2). rewrite X. cbn [bind].
  pose proof (apply_quiet 0 (seq 0 (order h0 r)) a _ _ _ X) as (Rq & Eq_). cbn [Cache_Model.senv Cache_Model.sroot] in Rq, Eq_.
  destruct (apply_fills 0 (senv s) h1 _ _ _ _ L1 ltac:(intros t; apply K1) H1 X) as (_ & Fu).
  destruct (vec_add K acc (data x)) as [acc'|]; cbn [bind]; auto.
  assert (H2 : hangs (sheap s1) None R) by (eapply core_hangs; [apply core_sbc; exact S1|auto]).
  assert (C2 : core K h0 (sheap s1)) by (eapply core_trans; [exact C1|apply core_sbc; auto]).
  assert (W : warm (fun t j => t = r /\ senv s 0 t j = None) t0 (sheap s1)).
  { eapply warm_full; [eapply sees_sbc; eauto|auto|exact Ex2| |].
    - intros t j u i Ed. exists t, j, u. auto.
    - intros t j u i Ed In_ (-> & En). pose proof (root_edge j u i Ed) as Hk. apply (Fu j (j, u, i)); auto. rewrite <- Ik. apply in_map_iff. exists (j, u, i). auto. }
  replace (with_heap K s1 _) with (with_heap K s (set_all (reset_obj K) (sheap s1) (map fst t0))) by (unfold with_heap; rewrite Rq, Eq_, Hr; auto).
  pose proof (Nx (sheap s1) S1) as Rs'.
  apply (diff_late t0 a Ea Ex terms 1 acc' (with_heap K s (set_all (reset_obj K) (sheap s1) (map fst t0)))); auto.
  - intros tm l m Ht. apply (Sl tm). right. auto.
  - intros l m. apply (Sl t0). left. auto.
  - intros k tn Hk. cbn [with_heap Cache_Model.sheap Cache_Model.senv]. split; [apply (Ok_ (S k)); auto|].
    eapply warm_again; [|intros t j u i Ed In_ (-> & En); apply (W r j u i Ed In_); split; auto; eapply (Un (1 + k)); eauto].
    + intros z Hz Lz. apply (next_cache t0 (sheap s1)); auto. intros l m. apply (Sl t0). left. auto.
    + cbn [length]. apply -> Nat.succ_lt_mono. apply nth_error_Some. congruence.
Qed.

(** ** [_form_env] *)
Notation slots := (flat_map (fun t => map (fun i => (t, i)) (seq 0 (order h0 t))) (nids R)).
Lemma fill_fills n : forall l s s', fill K fuel n l s = Ok s' -> length (sheap s) = length h0 -> (forall t, oleaf (hget (sheap s) t) = oleaf (hget h0 t)) -> (forall t, oacc (hget (sheap s) t) = oacc (hget h0 t)) ->
  (forall y k, full (sheap s) y k -> full (sheap s') y k) /\
  (forall t i c j, In (t, i) l -> dget (oacc (hget h0 t)) i = Some (c, j) -> oleaf (hget h0 c) = false -> c < length h0 -> full (sheap s') c j) /\
  (forall t i, In (t, i) l -> senv s' n t i <> None) /\ (forall t i, senv s n t i <> None -> senv s' n t i <> None) /\
  (forall t i, senv s' n t i <> None -> senv s n t i <> None \/ In (t, i) l).
Proof.
  induction l as [|(t, i) l IH]; intros s s' E L Lf Ac; cbn [fill] in E.
  { injection E as <-. split; auto. split; [intros t i c j []|]. split; [intros t i []|]. auto. }
  destruct (partial_env_proper fuel false (sheap s) t i) as [(v, h2)|] eqn:E1; [|discriminate]. cbn [bind] in E.
  pose proof (proper_frame K fuel false _ t i v h2 E1) as S2. pose proof (core_sbc K _ _ S2) as (L2 & C2).
  destruct (IH _ _ E) as (A & B & B1 & B2 & B3); cbn [Cache_Model.sheap Cache_Model.senv] in *; [lia|intros x; destruct (C2 x) as (_ & -> & _); auto|intros x; destruct (C2 x) as (_ & _ & _ & _ & -> & _); auto|].
  assert (Hit : forall t' i', senv s n t' i' <> None \/ (t', i') = (t, i) -> env_put K (senv s) n t i v n t' i' <> None).
  { intros t' i' Q. unfold env_put. destruct (same_key n t i n t' i') eqn:Sk; [discriminate|]. destruct Q as [Q|Q]; auto. injection Q as -> ->. rewrite (proj2 (same_key_eq n t i n t i)) in Sk; auto; discriminate. }
  split; [intros y k F; apply A; eapply proper_full; eauto|]. split; [|split; [|split]].
  - intros t' i' c j [Q|Hin] Dg Lc Bc; [|eapply B; eauto]. injection Q as -> ->. apply A. unfold partial_env_proper in E1. rewrite Ac in E1.
    destruct (oleaf (hget (sheap s) t')); [discriminate|]. unfold dindex in E1. rewrite Dg in E1. cbn [bind fst snd] in E1.
    rewrite <- Lf in Lc. eapply partial_env_stored; eauto. lia.
  - intros t' i' [Q|Hin]; auto.
  - intros t' i' Q. apply B2. apply Hit. auto.
  - intros t' i' Q. destruct (B3 t' i' Q) as [Q'|]; [|right; right; auto]. unfold env_put in Q'.
    destruct (same_key n t i n t' i') eqn:Sk; auto. right. left. apply same_key_eq in Sk. destruct Sk as (_ & -> & ->). auto.
Qed.
(** With every entry cached, filling changes no tensor. *)
Lemma fill_late n h : core K h0 h -> (forall t i c j, In (t, i) slots -> dget (oacc (hget h0 t)) i = Some (c, j) -> oleaf (hget h0 c) = false -> c < length h0 -> full h c j) ->
  hangs h None R -> forall l s s', incl l slots -> sheap s = h -> fill K fuel n l s = Ok s' ->
  sheap s' = h /\ sroot s' = sroot s /\ (forall n' t i, n' <> n -> senv s' n' t i = senv s n' t i) /\
  (forall t i v, senv s' n t i = Some v -> senv s n t i = Some v \/ (In (t, i) l /\ partial_env_proper fuel false h t i = Ok (v, h))).
Proof.
  intros C Fu H. induction l as [|(t, i) l IH]; intros s s' I Es E; cbn [fill] in E; [injection E as <-; auto|].
  destruct (partial_env_proper fuel false (sheap s) t i) as [(v, h2)|] eqn:E1; [|discriminate]. cbn [bind] in E. rewrite Es in E1.
  assert (h2 = h) as ->.
  { pose proof E1 as Q. unfold partial_env_proper in Q. destruct (oleaf (hget h t)); [discriminate|]. destruct (dindex (oacc (hget h t)) i) as [(c, j)|] eqn:Di; [|discriminate]. cbn [bind fst snd] in Q.
    destruct (Compare_dec.lt_dec c (length h0)) as [Lc|Lc].
    - destruct (oleaf (hget h0 c)) eqn:Lf.
      + destruct fuel as [|f]; [discriminate|]. cbn [partial_env] in Q. destruct C as (_ & C). destruct (C c) as (_ & X & _). rewrite X, Lf in Q. injection Q as _ <-. auto.
      + assert (F : full h c j).
        { apply (Fu t i); auto; [apply I; left; auto|]. unfold dindex in Di. destruct C as (_ & C). destruct (C t) as (_ & _ & _ & _ & X & _). rewrite X in Di. destruct (dget _ i) as [z|]; [|discriminate]. injection Di as ->. auto. }
        destruct fuel as [|f]; [discriminate|]. cbn [partial_env] in Q. destruct C as (_ & C). destruct (C c) as (_ & X & _). rewrite X, Lf in Q. unfold full in F.
        destruct (dget (ocache (hget h c)) j) as [w|]; [|congruence]. injection Q as _ <-. auto.
    - destruct fuel as [|f]; [discriminate|]. cbn [partial_env] in Q. destruct C as (Lh & _). rewrite (hget_out K h c) in Q by lia. cbn [no_obj oleaf] in Q. injection Q as _ <-. auto. }
  destruct (IH (mkState K h (sroot s) (env_put K (senv s) n t i v)) s' ltac:(intros z Hz; apply I; right; auto) eq_refl E) as (A & B & D & F). cbn [Cache_Model.sheap Cache_Model.senv Cache_Model.sroot] in *.
  split; auto. split; auto. split; [intros n' t' i' Hn; rewrite D by auto; apply env_put_other; auto|].
  intros t' i' v' Ev. destruct (F t' i' v' Ev) as [Q|(Q1 & Q2)]; [|right; split; auto; right; auto]. unfold env_put in Q. destruct (same_key n t i n t' i') eqn:Sk; auto.
  apply same_key_eq in Sk. destruct Sk as (_ & -> & ->). injection Q as <-. right. split; auto. left. auto.
Qed.

Lemma form_slots n u s h1 u' s' : core K h0 h1 -> hangs h1 None R -> sroot s = r -> Ps_Model.form_term K fuel n u (with_heap K s h1) = Ok (u', s') ->
  fill K fuel n slots (mkState K h1 r (senv s)) = Ok s'.
Proof.
  intros C H Er E. unfold Ps_Model.form_term in E. cbn [with_heap Cache_Model.sheap Cache_Model.sroot] in E.
  replace (visitor fuel h1 (sroot s) None false) with (Ok (nids R)) in E.
  2:{ symmetry. rewrite Er. pose proof (visitor_hangs K h1 R None fuel false H Hh) as V. rewrite ER in V at 1. exact V. }
  cbn [bind] in E. replace (flat_map _ (nids R)) with slots in E.
  2:{ apply flat_map_ext. intros t. rewrite (core_order K h0 h1 t C). auto. }
  replace (with_heap K s h1) with (mkState K h1 r (senv s)) in E by (unfold with_heap; rewrite Er; auto).
  destruct (fill K fuel n slots _) as [s2|]; [|discriminate]. cbn [bind] in E. injection E as _ ->. auto.
Qed.
Definition stocked h : Prop := forall t i c j, In (t, i) slots -> dget (oacc (hget h0 t)) i = Some (c, j) -> oleaf (hget h0 c) = false -> c < length h0 -> full h c j.
Lemma stocked_same h h' : (forall x, x < length h0 -> oleaf (hget h0 x) = false -> ocache (hget h' x) = ocache (hget h x)) -> stocked h -> stocked h'.
Proof. intros E W t i c j A B D F. unfold full. rewrite E by auto. apply (W t i c j A B D F). Qed.

Lemma form_late (t0 : term_t) : forall terms n u s u' s', (forall term l m, In term terms -> In (l, m) term -> oleaf (hget h0 l) = true) ->
  rest s -> stocked (sheap s) -> warm (fun t j => In (t, j) slots) t0 (sheap s) -> (forall k t j, n <= k -> senv s k t j = None) ->
  Ps_Model.each_term K (Ps_Model.form_term K fuel) n terms u s = Ok (u', s') ->
  rest s' /\ (forall k t j, k < n -> senv s' k t j = senv s k t j) /\ (forall k t j, n + length terms <= k -> senv s' k t j = None) /\
  (forall k tn, nth_error terms k = Some tn -> okm (n + k) t0 tn (senv s') /\ forall t j, senv s' (n + k) t j <> None <-> In (t, j) slots).
Proof.
  induction terms as [|tn terms IH]; intros n u s u' s' Sl Rs St W Em E; cbn [Ps_Model.each_term] in E.
  { injection E as _ <-. split; auto. split; auto. split; [intros k t j Hk; apply Em; cbn in Hk; lia|]. intros [|k] tm X; discriminate. }
  destruct (begin s tn Rs (fun l m => Sl tn l m (or_introl eq_refl))) as (C1 & H1 & Se & Ca & Nx). set (h1 := Ps_Model.set_arrays K (sheap s) tn) in *.
  destruct (Ps_Model.form_term K fuel n u (with_heap K s h1)) as [(u2, s2)|] eqn:E2; [|discriminate]. cbn [bind] in E.
  apply (form_slots n u s h1 u2 s2 C1 H1 (rs_root s Rs)) in E2.
  assert (St1 : stocked h1) by (eapply stocked_same; [|exact St]; auto).
  assert (W1 : warm (fun t j => In (t, j) slots) t0 h1) by (eapply warm_again; [|exact W]; auto).
  destruct (fill_late n h1 C1 St1 H1 slots (mkState K h1 r (senv s)) s2 (fun z Hz => Hz) eq_refl E2) as (A1 & A2 & A3 & A4).
  pose proof C1 as (L1 & K1).
  destruct (fill_fills n slots (mkState K h1 r (senv s)) s2 E2 L1 ltac:(intros t; apply K1) ltac:(intros t; apply K1)) as (_ & _ & B1 & _ & B3).
  cbn [Cache_Model.sheap Cache_Model.senv Cache_Model.sroot] in *.
  set (s3 := with_heap K s2 (set_all (reset_obj K) (sheap s2) (map fst tn))) in *.
  assert (Rs3 : rest s3).
  { pose proof (Nx h1 (sbc_refl K h1)) as X. destruct X as [X1 X2 X3]. unfold s3. rewrite A1. constructor; auto. }
  assert (Q3 : forall x, x < length h0 -> oleaf (hget h0 x) = false -> ocache (hget (sheap s3) x) = ocache (hget h1 x)).
  { intros x Hx Lx. unfold s3. cbn [with_heap Cache_Model.sheap]. rewrite A1. apply (next_cache tn h1); auto. intros l m. apply (Sl tn). left. auto. }
  destruct (IH (S n) u2 s3 u' s') as (R4 & F1 & F2 & F3); auto.
  { intros tm l m Ht. apply (Sl tm). right. auto. }
  { eapply stocked_same; [|exact St1]. auto. }
  { eapply warm_again; [|exact W1]. auto. }
  { intros k t j Hk. unfold s3. cbn [with_heap Cache_Model.senv]. rewrite A3 by lia. apply Em. lia. }
  split; auto. unfold s3 in F1. cbn [with_heap Cache_Model.senv] in F1. split; [intros k t j Hk; rewrite F1, A3 by lia; auto|].
  split; [intros k t j Hk; apply F2; cbn [length] in Hk; lia|].
  intros [|k] tm Hk; [|rewrite <- Nat.add_succ_comm; apply F3; auto]. injection Hk as <-. rewrite Nat.add_0_r. split.
  - intros t j v' i v Ed Ev. rewrite F1 in Ev by lia. destruct (A4 t j v Ev) as [Q|(Q1 & Q2)]; [rewrite Em in Q by lia; discriminate|].
    destruct (warm_read _ t0 tn h1 t j v' i H1 C1 Se W1 Ed Q1) as (w & Ew & Tw). congruence.
  - intros t j. rewrite F1 by lia. split; [|apply B1]. intros X. destruct (B3 t j X) as [Q|]; auto. rewrite Em in Q by lia. congruence.
Qed.
Lemma form_all (t0 : term_t) terms u s u' s' : (forall term l m, In term (t0 :: terms) -> In (l, m) term -> oleaf (hget h0 l) = true) ->
  rest s -> (forall x, In x (ids R) -> oleaf (hget h0 x) = false -> ocache (hget (sheap s) x) = []) -> (forall k t j, senv s k t j = None) ->
  Ps_Model.each_term K (Ps_Model.form_term K fuel) 0 (t0 :: terms) u s = Ok (u', s') ->
  rest s' /\ (forall k t j, length (t0 :: terms) <= k -> senv s' k t j = None) /\
  (forall k tn, nth_error (t0 :: terms) k = Some tn -> okm k t0 tn (senv s') /\ forall t j, senv s' k t j <> None <-> In (t, j) slots).
Proof.
  intros Sl Rs Ec Em E. cbn [Ps_Model.each_term] in E.
  destruct (begin s t0 Rs (fun l m => Sl t0 l m (or_introl eq_refl))) as (C1 & H1 & Se & Ca & Nx). set (h1 := Ps_Model.set_arrays K (sheap s) t0) in *.
  destruct (Ps_Model.form_term K fuel 0 u (with_heap K s h1)) as [(u2, s2)|] eqn:E2; [|discriminate]. cbn [bind] in E.
  apply (form_slots 0 u s h1 u2 s2 C1 H1 (rs_root s Rs)) in E2. pose proof C1 as (L1 & K1).
  assert (Ex1 : cache_exact_on K (fun x _ => In x (ids R)) h1).
  { apply empty_caches; auto. intros x Hx Lx. pose proof (hangs_lt K h0 None R H0 x Hx) as Lt. rewrite Ca by auto. apply Ec; auto. destruct (K1 x) as (_ & <- & _). auto. }
  assert (O1 : okn K 0 R h1 (senv s)) by (intros t j v i w _ Ev; rewrite Em in Ev; discriminate).
  assert (Fs : Forall (fun p => In (fst p) (nids R)) slots).
  { apply Forall_forall. intros (t, i) Hin. apply in_flat_map in Hin. destruct Hin as (t' & Ht & Hin). apply in_map_iff in Hin. destruct Hin as (i' & Q & _). injection Q as <- <-. auto. }
  destruct (fill_ok K fuel R 0 h1 H1 ND Hf slots (mkState K h1 r (senv s)) s2 Fs (sbc_refl K h1) Ex1 O1 E2) as (S2 & O2 & Ex2).
  destruct (fill_fills 0 slots (mkState K h1 r (senv s)) s2 E2 L1 ltac:(intros t; apply K1) ltac:(intros t; apply K1)) as (_ & St & B1 & _ & B3).
  pose proof (fill_frame K fuel 0 slots _ _ E2) as (_ & Rr & Fr). cbn [Cache_Model.sheap Cache_Model.senv Cache_Model.sroot] in *.
  assert (C2 : core K h0 (sheap s2)) by (eapply core_trans; [exact C1|apply core_sbc; auto]).
  assert (H2 : hangs (sheap s2) None R) by (eapply core_hangs; eauto).
  assert (W : warm (fun t j => In (t, j) slots) t0 (sheap s2)).
  { eapply warm_full; [eapply sees_sbc; eauto|auto|exact Ex2| |].
    - intros t j v i Ed. apply (proj1 (edge_ids _ _ _ _ _ Ed)), top_ids.
    - intros t j v i Ed In_ Hin. destruct (edge_lt _ _ _ _ Ed) as (X1 & X2). rewrite In_ in X2. destruct (edge_down_acc K h0 R t j v i Ed None H0) as (Ha & Na).
      apply (St t j); auto. apply (points_dget _ _ _ Na Ha). }
  set (s3 := with_heap K s2 (set_all (reset_obj K) (sheap s2) (map fst t0))) in *.
  assert (Rs3 : rest s3).
  { destruct (Nx (sheap s2) S2) as [X1 X2 X3]. constructor; auto. }
  assert (Q3 : forall x, x < length h0 -> oleaf (hget h0 x) = false -> ocache (hget (sheap s3) x) = ocache (hget (sheap s2) x)).
  { intros x Hx Lx. apply (next_cache t0 (sheap s2)); auto. intros l m. apply (Sl t0). left. auto. }
  destruct (form_late t0 terms 1 u2 s3 u' s') as (R4 & F1 & F2 & F3); auto.
  { intros tm l m Ht. apply (Sl tm). right. auto. }
  { eapply stocked_same; [|exact St]. auto. }
  { eapply warm_again; [|exact W]. auto. }
  { intros k t j Hk. unfold s3. cbn [with_heap Cache_Model.senv]. rewrite Fr by lia. auto. }
  split; auto. unfold s3 in F1. cbn [with_heap Cache_Model.senv] in F1.
  split; [intros k t j Hk; apply F2; cbn [length] in Hk; lia|].
  intros [|k] tm Hk; [|apply (F3 k); auto]. injection Hk as <-. split.
  - intros t j v' i v Ed Ev. rewrite F1 in Ev by lia.
    pose proof (O2 t j v' i v Ed Ev) as Q. destruct (inner v'); rewrite (sees_tenv K R h1 (dressed h0 t0)) by (auto; eapply edge_ids; eauto); auto.
  - intros t j. rewrite F1 by lia. split; [|apply B1]. intros X. destruct (B3 t j X) as [Q|]; auto. congruence.
Qed.
End Terms.

(** ** A run *)
Section Run.
Variable hl : list term_t.
Variable fuel : nat.
Notation first := (hd [] hl).
Definition env_ok (R : tree) h (e : envs K) : Prop := forall n tn, nth_error hl n = Some tn -> okm R h n first tn e.
Definition uniform (e : envs K) : Prop := forall n t j, n < length hl -> e n t j = None -> e 0 t j = None.
Record ready (R : tree) (s : state) : Prop := {
  rd_top : exists ks, R = Nd (sroot s) ks /\ map k_i ks = seq 0 (length ks);
  rd_hangs : hangs (sheap s) None R;
  rd_nodup : NoDup (ids R);
  rd_size : length (ids R) <= fuel;
  rd_axis : oaxis (hget (sheap s) (sroot s)) = None;
  rd_env : env_ok R (sheap s) (senv s);
  rd_keys : keyed K s;
  rd_uni : uniform (senv s);
  rd_seat : seated (sheap s) hl }.
Lemma rd_fuel R s : ready R s -> height R <= fuel.
Proof. intros Rd. pose proof (rd_size R s Rd). pose proof (size_height R). lia. Qed.
Lemma okm_agree R R' h h' n t0 tn e e' : okm R h n t0 tn e ->
  (forall t j u i v, edge_in R' t j u i -> e' n t j = Some v -> e n t j = Some v /\ edge_in R t j u i /\ forall x, In x (ids u) ->
     x < length h /\ x < length h' /\ oleaf (hget h' x) = oleaf (hget h x) /\ oaxis (hget h' x) = oaxis (hget h x) /\ onorm (hget h' x) = onorm (hget h x) /\
     (oleaf (hget h x) = false -> oarr (hget h' x) = oarr (hget h x))) -> okm R' h' n t0 tn e'.
Proof.
  intros O H t j u i v Ed Ev. destruct (H t j u i v Ed Ev) as (Ev' & Ed' & Al). rewrite <- (O t j u i v Ed' Ev'). apply tenv_local.
  intros x Hx. destruct (Al x Hx) as (L1 & L2 & E1 & E2 & E3 & E4). rewrite !dressed_get by auto. rewrite E1.
  destruct (oleaf (hget h x)) eqn:Lf; cbn; repeat split; auto; discriminate.
Qed.
Lemma env_ok_near R s s' : NoDup (ids R) -> hangs (sheap s) None R -> top R = sroot s -> near K (sroot s) s s' -> env_ok R (sheap s) (senv s) -> env_ok R (sheap s') (senv s).
Proof.
  intros ND H Et (L & _ & Q & _) O n tn Hn. eapply okm_agree; [apply O; eauto|]. intros t j u i v Ed Ev. split; auto. split; auto. intros x Hx.
  assert (Hr : x <> sroot s) by (rewrite <- Et; intros ->; eapply edge_below; eauto).
  pose proof (hangs_lt K _ _ _ H x (proj1 (edge_ids _ _ _ _ _ Ed) x Hx)). destruct (Q x Hr) as (_ & -> & E2 & E3 & _ & E4). rewrite L. auto 10.
Qed.
Lemma near_ready R s s' : ready R s -> near K (sroot s) s s' -> senv s' = senv s -> ready R s'.
Proof.
  intros Rd Nr Ee. pose proof Nr as (L & Er & Q & At & _). destruct (rd_top R s Rd) as (ks & ER & Ek). constructor; try apply Rd.
  - rewrite Er. eauto.
  - apply (hangs_on K (sheap s)); [|apply Rd]. intros x _. destruct (At x) as (_ & -> & _ & _ & ->). auto.
  - rewrite Er. destruct (At (sroot s)) as (_ & _ & -> & _). apply Rd.
  - rewrite Ee. apply (env_ok_near R s); auto; try apply Rd. rewrite ER. auto.
  - intros n t j v Ev. rewrite L. rewrite Ee in Ev. eapply (rd_keys R s Rd); eauto.
  - rewrite Ee. apply Rd.
  - intros term l m Ht Hin. destruct (rd_seat R s Rd term l m Ht Hin) as (X1 & X2). rewrite L. destruct (At l) as (_ & -> & _). auto.
Qed.

Notation mixed_sys ks := (mkSystem K unit (mixtures ks hl) None).
Lemma forget_ready R s ks : ready R s -> CacheExact_Proof.ready K unit (mixed_sys ks) fuel R (forget s).
Proof.
  intros Rd. constructor; try apply Rd.
  - apply no_env_ok.
  - intros n t j v Ev. discriminate.
Qed.
Lemma reset_empty R h x : hangs h None R -> In x (ids R) -> oleaf (hget h x) = false -> ocache (hget (set_all (reset_obj K) h (ids R)) x) = [].
Proof.
  intros H Hx L. rewrite set_all_get by apply reset_idem.
  replace (memb x (ids R)) with true by (symmetry; apply memb_In; auto).
  replace (x <? length h) with true by (symmetry; apply Nat.ltb_lt; eapply hangs_lt; eauto). cbn [andb]. unfold reset_obj. rewrite L. reflexivity.
Qed.
Lemma diff_mixed R ks s y : ready R s -> R = Nd (sroot s) ks ->
  result (Ps_Model.diff K hl fuel (sroot s) y s) = result (diff K unit (mixed_sys ks) fuel (sroot s) false tt y (forget s)) /\
  forall x s', Ps_Model.diff K hl fuel (sroot s) y s = Ok (x, s') -> near K (sroot s) s s' /\ senv s' = senv s /\
    exists a b, oarr (hget (sheap s) (sroot s)) = Some a /\ reshape (mkArr [length y] y) (shape a) = Ok b /\
      core K (modify (sheap s) (sroot s) (put_arr (Some b))) (sheap s').
Proof.
  intros Rd ER. unfold Ps_Model.diff, diff. change (sheap (forget s)) with (sheap s). change (sroot (forget s)) with (sroot s).
  destruct (oarr (hget (sheap s) (sroot s))) as [a|] eqn:Ea; [|cbn [bind result]; split; auto; intros; discriminate].
  destruct (reshape (mkArr [length y] y) (shape a)) as [b|] eqn:Eb; [|cbn [bind result]; split; auto; intros; discriminate]. cbn [bind].
  fold (diff_body K fuel (sroot s) false).
  destruct (diff_heads K unit (mixed_sys ks) fuel R (forget s) y a tt (forget_ready R s ks Rd) Ea b Eb) as (H0 & C & Cl & V & A0 & TV).
  change (sheap (forget s)) with (sheap s) in *. change (sroot (forget s)) with (sroot s) in *.
  set (h0 := modify (sheap s) (sroot s) (put_arr (Some b))) in *. set (h1 := set_all (reset_obj K) h0 (ids R)) in *.
  change (with_heap K (forget s) h0) with (mkState K h0 (sroot s) (no_env K)). rewrite TV.
  destruct (rd_top R s Rd) as (ks' & ER' & Ek'). assert (ks' = ks) as -> by congruence.
  assert (Ek : map k_i ks = seq 0 (order h0 (sroot s))) by (rewrite (kids_order K R (sroot s) ks h0 ER H0); auto).
  assert (Lr : sroot s < length (sheap s)) by (apply (hangs_lt K _ _ _ (rd_hangs R s Rd)); rewrite ER; left; auto).
  unfold Ps_Model.term_visitor. cbn [with_heap Cache_Model.sheap Cache_Model.sroot Cache_Model.senv]. rewrite V. cbn [bind]. fold h1.
  assert (At : forall x, oleaf (hget h0 x) = oleaf (hget (sheap s) x) /\ oaxis (hget h0 x) = oaxis (hget (sheap s) x)).
  { intros x. unfold h0. destruct (Nat.eq_dec x (sroot s)) as [->|Hn]; [rewrite hget_modify_eq by auto|rewrite hget_modify_neq by auto]; auto. }
  assert (Nr : near K (sroot s) s (with_heap K s h0)).
  { apply reshape_ok in Eb; [|apply vec_wf]. destruct Eb. eapply near_put; eauto. }
  assert (EO : env_ok R h0 (senv s)) by (apply (env_ok_near R s (with_heap K s h0)); auto; try apply Rd; rewrite ER; auto).
  assert (All : all_terms K unit (mixed_sys ks) tt = mixtures ks hl) by (unfold all_terms; cbn [f_list Cache_Model.h_list]; apply app_nil_r).
  rewrite All. pose proof (diff_each K fuel R (sroot s) ks h0 b false ER H0 (rd_nodup R s Rd) (rd_fuel R s Rd) A0 Ek (mixtures ks hl) 0 (repeat r0 (length y))
    (mkState K h1 (sroot s) (no_env K)) C Cl eq_refl ltac:(intros k term _ t j u i v _ X; discriminate)) as Y.
  assert (X : match pterms K h0 ks (seq 0 (order h0 (sroot s))) b (mixtures ks hl) (repeat r0 (length y)) with
    | Ok x => exists s', Ps_Model.each_term K (Ps_Model.diff_term K fuel (sroot s)) 0 hl (repeat r0 (length y)) (mkState K h1 (sroot s) (senv s)) = Ok (x, s') /\
        rest R (sroot s) h0 s' /\ senv s' = senv s
    | Raise e => Ps_Model.each_term K (Ps_Model.diff_term K fuel (sroot s)) 0 hl (repeat r0 (length y)) (mkState K h1 (sroot s) (senv s)) = Raise e
    end).
  { assert (Rs : rest R (sroot s) h0 (mkState K h1 (sroot s) (senv s))) by (constructor; auto).
    unfold env_ok, mixtures in *. pose proof (rd_uni R s Rd) as Un. pose proof (rd_seat R s Rd) as Se. unfold uniform in Un.
    destruct hl as [|t0 terms] eqn:Eh; [cbn [map pterms Ps_Model.each_term]; eauto|]. cbn [hd] in *.
    apply (diff_all fuel R (sroot s) ks ER h0 H0 (rd_nodup R s Rd) (rd_size R s Rd) Ek t0 b terms (repeat r0 (length y)) (mkState K h1 (sroot s) (senv s))); auto.
    - destruct (At (sroot s)) as (_ & ->). apply Rd.
    - intros term l m Ht Hin. destruct (At l) as (-> & _). apply (Se term l m Ht Hin).
    - intros x Hx Lx. cbn [Cache_Model.sheap]. apply reset_empty; auto. }
  replace (with_heap K s h1) with (mkState K h1 (sroot s) (senv s)) by reflexivity.
  change (with_heap K (with_heap K s h0) h1) with (mkState K h1 (sroot s) (senv s)).
  destruct (pterms K h0 ks (seq 0 (order h0 (sroot s))) b (mixtures ks hl) (repeat r0 (length y))) as [z|e].
  - destruct X as (s1 & X & Rs & Es), Y as (s2 & Y & _). rewrite X, Y. split; auto.
    intros x s' Q. injection Q as <- <-. split; [|split; auto].
    + eapply near_trans; [exact Nr|]. apply near_core; [apply Rs|]. cbn. apply Rs.
    + exists a, b. split; auto. split; auto. apply Rs.
  - rewrite X, Y. split; auto. discriminate.
Qed.

Lemma form_ready R s s' : (exists ks, R = Nd (sroot s) ks /\ map k_i ks = seq 0 (length ks)) -> hangs (sheap s) None R ->
  NoDup (ids R) -> length (ids R) <= fuel -> oaxis (hget (sheap s) (sroot s)) = None -> seated (sheap s) hl ->
  Ps_Model.form_env K hl fuel s = Ok s' -> ready R s' /\ near K (sroot s) s s'.
Proof.
  intros Tp H ND Hf Ax Se E. pose proof Tp as (ks & ER & Ek). unfold Ps_Model.form_env, Ps_Model.term_visitor in E. cbn [with_env with_heap Cache_Model.sheap Cache_Model.sroot Cache_Model.senv] in E.
  assert (Hh : height R <= fuel) by (pose proof (size_height R); lia).
  pose proof (visitor_hangs K (sheap s) R None fuel true H Hh) as V. rewrite ER in V at 1. cbn [top] in V.
  assert (V' : visitor fuel (sheap s) (sroot s) None true = Ok (ids R)) by exact V. rewrite V' in E. cbn [bind] in E.
  set (h1 := set_all (reset_obj K) (sheap s) (ids R)) in E.
  change (with_heap K (with_env K s (no_env K)) h1) with (mkState K h1 (sroot s) (no_env K)) in E.
  destruct (Ps_Model.each_term K (Ps_Model.form_term K fuel) 0 hl tt _) as [(u, s2)|] eqn:E1; [|discriminate]. cbn [bind snd] in E. injection E as ->.
  assert (C1 : core K (sheap s) h1) by apply core_set_all, kept_reset.
  assert (Rs : rest R (sroot s) (sheap s) (mkState K h1 (sroot s) (no_env K))) by (constructor; auto; apply reset_clean; eauto).
  assert (G : rest R (sroot s) (sheap s) s' /\ (forall k t j, length hl <= k -> senv s' k t j = None) /\ uniform (senv s') /\ env_ok R (sheap s) (senv s') /\
    forall k t j, k < length hl -> senv s' k t j <> None -> In t (nids R)).
  { unfold env_ok, uniform. destruct hl as [|t0 terms].
    - cbn [Ps_Model.each_term] in E1. injection E1 as _ <-. split; auto. split; auto. split; [cbn; lia|]. split; [intros [|n] tn X; discriminate|cbn; lia].
    - apply (form_all fuel R (sroot s) ks ER (sheap s) H ND Hf) in E1; auto.
      2:{ intros term l m Ht Hin. apply (Se term l m Ht Hin). }
      2:{ intros x Hx Lx. apply reset_empty; auto. }
      destruct E1 as (A & B & D). split; auto. split; auto.
      assert (Q : forall k t j, k < length (t0 :: terms) -> senv s' k t j <> None <-> In (t, j) (flat_map (fun t => map (fun i => (t, i)) (seq 0 (order (sheap s) t))) (nids R))).
      { intros k t j Hk. apply nth_error_Some in Hk. destruct (nth_error (t0 :: terms) k) as [tn|] eqn:Ht; [|congruence]. apply (D k tn Ht). }
      split; [|split].
      + intros n t j Hn En. destruct (senv s' 0 t j) as [v|] eqn:Ev; auto. exfalso.
        assert (X : senv s' 0 t j <> None) by congruence. apply (Q 0) in X; [|cbn; lia]. apply (Q n) in X; auto.
      + intros n tn Hn. apply D. auto.
      + intros k t j Hk X. apply (Q k t j Hk) in X. apply in_flat_map in X. destruct X as (t' & Ht' & X). apply in_map_iff in X. destruct X as (i & X & _). injection X as <- <-. auto. }
  destruct G as (Rs' & Em & Un & EO & Nd_). pose proof (rs_core _ _ _ _ Rs') as C. pose proof C as (L & Q).
  assert (Er : sroot s' = sroot s) by apply Rs'. assert (Nr : near K (sroot s) s s') by (apply near_core; auto).
  split; auto. constructor; auto.
  - rewrite Er. auto.
  - eapply core_hangs; eauto.
  - rewrite Er. destruct (Q (sroot s)) as (_ & _ & -> & _). auto.
  - intros n tn Hn. eapply okm_agree; [apply EO; eauto|]. intros t j v i w Ed Ev. split; auto. split; auto. intros x Hx.
    pose proof (hangs_lt K _ _ _ H x (proj1 (edge_ids _ _ _ _ _ Ed) x Hx)). destruct (Q x) as (_ & -> & E2 & E3 & _ & E4). rewrite L. auto 10.
  - intros n t j v Ev. destruct (Nat.lt_ge_cases n (length hl)) as [Ln|Ln]; [|rewrite Em in Ev by auto; discriminate].
    rewrite L. apply (hangs_lt K _ _ _ H). apply nids_ids. eapply (Nd_ n t j); auto. congruence.
  - intros term l m Ht Hin. destruct (Se term l m Ht Hin) as (X1 & X2). rewrite L. destruct (Q l) as (_ & -> & _). auto.
Qed.

(** Calls of [diff] by the solver. *)
Definition good (log : list (record K unit)) : Prop := forall s cache time y, In (Called K unit s cache time y) log -> exists R, ready R s.
Lemma good_nil : good []. Proof. intros s cache time y []. Qed.
Lemma good_app l l' : good l -> good l' -> good (l ++ l').
Proof. intros H H' s cache time y X. apply in_app_iff in X. destruct X; eauto. Qed.
Lemma call_ready R s y l q : ready R s -> Ps_Model.do_call K hl fuel (sroot s) y s = (l, q) ->
  good l /\ forall s', q = Ok s' -> ready R s' /\ sroot s' = sroot s /\ near K (sroot s) s s'.
Proof.
  intros Rd E. unfold Ps_Model.do_call in E. injection E as <- <-.
  split; [intros s0 c0 t0 y0 [X|[]]; injection X as <- _ _ _; eauto|]. intros s' X. destruct (rd_top R s Rd) as (ks & ER & _).
  destruct (diff_mixed R ks s y Rd ER) as (_ & D). destruct (Ps_Model.diff K hl fuel (sroot s) y s) as [(x, s1)|]; [|discriminate]. cbn [bind snd] in X. injection X as <-.
  destruct (D x s1 eq_refl) as (N & Es & _). split; [eapply near_ready; eauto|]. split; [apply N|auto].
Qed.
Lemma calls_ready R : forall ys s l q, ready R s -> foreach K unit (Ps_Model.do_call K hl fuel (sroot s)) ys s = (l, q) ->
  good l /\ forall s', q = Ok s' -> ready R s' /\ sroot s' = sroot s /\ near K (sroot s) s s'.
Proof.
  induction ys as [|y ys IH]; intros s l q Rd E; cbn [foreach] in E.
  - injection E as <- <-. split; [apply good_nil|]. intros s' X. injection X as <-. split; [|split]; auto. apply near_refl.
  - unfold andthen in E. destruct (Ps_Model.do_call K hl fuel (sroot s) y s) as (l1, r1) eqn:E1.
    destruct (call_ready R s y l1 r1 Rd E1) as (G1 & X1). destruct r1 as [s1|e].
    + destruct (X1 s1 eq_refl) as (Rd1 & Er & N1). rewrite <- Er in E.
      destruct (foreach K unit (Ps_Model.do_call K hl fuel (sroot s1)) ys s1) as (l2, r2) eqn:E2. injection E as <- <-.
      destruct (IH s1 l2 r2 Rd1 E2) as (G2 & X2). split; [apply good_app; auto|]. intros s' X. destruct (X2 s' X) as (A & B & C).
      split; auto. rewrite Er in *. split; auto. eapply near_trans; eauto.
    + injection E as <- <-. split; auto.
Qed.
Lemma prop_ready R s t ys y l q : ready R (mkState K (sheap s) t (senv s)) -> Ps_Model.single_prop K hl fuel t ys y s = (l, q) ->
  good l /\ forall s', q = Ok s' -> ready R s' /\ sroot s' = t /\ near K t (mkState K (sheap s) t (senv s)) s'.
Proof.
  intros Rd E. unfold Ps_Model.single_prop in E. destruct (negb _); [injection E as <- <-; split; [apply good_nil|discriminate]|].
  unfold andthen in E. set (s0 := mkState K (sheap s) t (senv s)) in *.
  destruct (foreach K unit (Ps_Model.do_call K hl fuel t) ys s0) as (l1, r1) eqn:E1.
  destruct (calls_ready R ys s0 l1 r1 Rd E1) as (G1 & X1). destruct r1 as [s1|e]; [|injection E as <- <-; split; auto; discriminate].
  injection E as <- <-. rewrite app_nil_r. split; auto. intros s' X. destruct (X1 s1 eq_refl) as (Rd1 & Er & N1). change (sroot s0) with t in *.
  pose proof (update_near K t y s1 s' X) as N2.
  assert (Es : senv s' = senv s1).
  { unfold update in X. destruct (oarr _) as [a|]; [|discriminate]. destruct (reshape _ _); [|discriminate]. cbn [bind] in X. injection X as <-. auto. }
  assert (N2' : near K (sroot s1) s1 s') by (rewrite Er; auto).
  split; [eapply near_ready; eauto|]. split; [destruct N2 as (_ & -> & _); auto|eapply near_trans; eauto].
Qed.
End Run.
End Ps.
