(** Stored environments are exact. *)
From Coq Require Import String List Arith Bool Lia Permutation Sorting.Sorted.
From Verif Require Import Py Alg ListX NdArray_Model NdArray_Proof Contract_Model Contract_Spec Contract_Proof
  Net_Model Net_Spec Sweep_Spec Sweep_Proof Trav_Proof Acyc_Proof Env_Proof TEnv_Proof EnvThm_Proof Link_Spec Link_Proof Move_Spec
  Split_Proof Relink_Proof Move_Proof MoveRoot_Proof Pair_Proof State_Spec State_Proof Contraction_Proof Mid_Proof
  Cache_Model Cache_Spec.
Import ListNotations.
Local Open Scope nat_scope.
Local Open Scope list_scope.
Local Open Scope py_scope.

(** ** Edges of trees *)
Lemma edge_kid n ks k : In k ks -> edge_in (Nd n ks) n (k_i k) (k_t k) (k_j k).
Proof. intros H. constructor. destruct k as ((a, b), c). exact H. Qed.
Lemma edge_ids t a i u j : edge_in t a i u j -> incl (ids u) (ids t) /\ In a (nids t).
Proof.
  induction 1 as [n ks i u j H|n ks k a i u j H _ (IH1 & IH2)]; (split; [intros x Hx|]).
  - right. apply in_flat_map. eauto.
  - left. auto.
  - right. apply in_flat_map. exists k. auto.
  - right. apply in_flat_map. exists k. auto.
Qed.

Section CacheProof.
Variable K : StarRing.
Implicit Types h : heap K.

Lemma edge_hangs h : forall t up, hangs h up t -> forall a i u j, edge_in t a i u j -> hangs h (Some (j, (a, i))) u.
Proof.
  induction t as [n|n ks IH] using tree_ind'; intros up H a i u j E; [inversion E|].
  destruct (hangs_kids K h up n ks H) as (_ & F & _). rewrite Forall_forall in IH, F.
  inversion E as [? ? ? ? ? Hk|? ? k ? ? ? ? Hk E']; subst.
  - apply (F (i, u, j)). auto.
  - eapply IH; eauto.
Qed.

(** Environments read only the objects of the subtree. *)
Lemma tenv_local h h' ua : forall t i,
  (forall x, In x (ids t) -> oarr (hget h' x) = oarr (hget h x) /\ oaxis (hget h' x) = oaxis (hget h x) /\
     onorm (hget h' x) = onorm (hget h x) /\ (ua = true -> oaux (hget h' x) = oaux (hget h x))) ->
  tenv K h' ua i t = tenv K h ua i t.
Proof.
  induction t as [n|n ks IH] using tree_ind'; intros i H.
  - cbn [tenv]. destruct (H n) as (E1 & _ & _ & E4); [left; auto|]. destruct ua; [now rewrite E4|now rewrite E1].
  - cbn [tenv]. rewrite (emap_ext _ (fun k => tenv K h ua (Some (k_j k)) (k_t k))).
    + destruct (emap _ _ ks); cbn [bind]; auto. destruct (H n) as (E1 & E2 & E3 & E4); [left; auto|].
      unfold env_body. rewrite E1, E2, E3. destruct ua; auto. now rewrite E4.
    + intros k Hk. rewrite Forall_forall in IH. apply IH; auto. intros x Hx. apply H. right. apply in_flat_map. eauto.
Qed.

(** ** Parts of objects that the operations keep *)
Definition kept (o o' : obj K) : Prop :=
  oname o' = oname o /\ oleaf o' = oleaf o /\ oaxis o' = oaxis o /\ onorm o' = onorm o /\ oacc o' = oacc o /\
  (oleaf o = false -> oarr o' = oarr o).
Definition core h h' : Prop := length h' = length h /\ forall x, kept (hget h x) (hget h' x).

Lemma kept_refl o : kept o o.
Proof. repeat split; auto. Qed.
Lemma kept_trans o1 o2 o3 : kept o1 o2 -> kept o2 o3 -> kept o1 o3.
Proof.
  intros (A1 & A2 & A3 & A4 & A5 & A6) (B1 & B2 & B3 & B4 & B5 & B6). unfold kept. repeat split; try congruence.
  intros L. rewrite B6, A6; congruence.
Qed.
Lemma kept_sym o o' : kept o o' -> kept o' o.
Proof. intros (A1 & A2 & A3 & A4 & A5 & A6). unfold kept. repeat split; try congruence. intros L. symmetry. apply A6. congruence. Qed.
Lemma core_refl h : core h h.
Proof. split; auto. intros x. apply kept_refl. Qed.
Lemma core_trans h1 h2 h3 : core h1 h2 -> core h2 h3 -> core h1 h3.
Proof. intros (A & B) (C & D). split; [congruence|]. intros x. eapply kept_trans; eauto. Qed.
Lemma core_sym h h' : core h h' -> core h' h.
Proof. intros (A & B). split; auto. intros x. apply kept_sym; auto. Qed.
Lemma core_modify h n f : kept (hget h n) (f (hget h n)) -> core h (modify h n f).
Proof.
  intros H. split; [apply length_modify|]. intros x. destruct (Nat.lt_ge_cases n (length h)) as [Hl|Hl].
  - destruct (Nat.eq_dec n x) as [->|Hx]; [rewrite hget_modify_eq by auto; auto|rewrite hget_modify_neq by auto; apply kept_refl].
  - rewrite modify_out by auto. apply kept_refl.
Qed.
Lemma core_set_all f l : (forall o, kept o (f o)) -> forall h, core h (set_all f h l).
Proof.
  intros H. induction l as [|n l IH]; intros h; [apply core_refl|]. cbn [set_all]. eapply core_trans; [|apply IH]. apply core_modify. auto.
Qed.
Lemma core_sbc h h' : same_but_cache K h h' -> core h h'.
Proof.
  intros S. pose proof S as (L & H). split; auto. intros x. specialize (H x). unfold kept.
  destruct (hget h' x), (hget h x). unfold put_cache in H. cbn in *. inversion H. repeat split; auto.
Qed.
Lemma core_hangs h h' up t : core h h' -> hangs h up t -> hangs h' up t.
Proof. intros (_ & H). apply hangs_same. intros n. destruct (H n) as (_ & ? & _ & _ & ? & _). auto. Qed.

Lemma kept_reset o : kept o (reset_obj K o).
Proof. unfold reset_obj. destruct (oleaf o) eqn:E; repeat split; cbn; auto. intros X. congruence. Qed.
Lemma kept_load uc e n o : kept o (load K uc e n o).
Proof. repeat split; auto. Qed.
Lemma core_set_leaves term : forall h h', set_leaves K h term = Ok h' -> core h h'.
Proof.
  induction term as [|(l, a) term IH]; intros h h' E; cbn [set_leaves] in E.
  - injection E as <-. apply core_refl.
  - destruct (oleaf (hget h l)) eqn:L; [|discriminate]. eapply core_trans; [|apply IH; exact E]. apply core_modify.
    repeat split; cbn; auto. congruence.
Qed.

Lemma sbc_modify h n c : same_but_cache K h (modify h n (fun o => put_cache (c o) o)).
Proof.
  split; [apply length_modify|]. intros x. destruct (Nat.lt_ge_cases n (length h)) as [Hl|Hl].
  - destruct (Nat.eq_dec n x) as [->|Hx]; [rewrite hget_modify_eq by auto; auto|rewrite hget_modify_neq by auto; auto].
  - rewrite modify_out by auto. auto.
Qed.
Lemma partial_env_frame fuel ua : forall h n i v h', partial_env fuel ua h n i = Ok (v, h') -> same_but_cache K h h'.
Proof.
  induction fuel as [|fuel IH]; intros h n i v h' E; [discriminate|]. cbn [partial_env] in E.
  destruct (oleaf (hget h n)); [injection E as _ <-; apply sbc_refl|].
  destruct (match i with Some k => if ua then None else dget (ocache (hget h n)) k | None => None end); [injection E as _ <-; apply sbc_refl|].
  assert (Y : forall l h es h2, env_list (fun h c j => partial_env fuel ua h c (Some j)) h l = Ok (es, h2) -> same_but_cache K h h2).
  { clear E. induction l as [|((a, c), b) l IHl]; intros h0 es h2 E; cbn [env_list] in E; [injection E as _ <-; apply sbc_refl|].
    destruct (partial_env fuel ua h0 c (Some b)) as [(v0, h1)|] eqn:E1; [|discriminate]. cbn [bind] in E.
    destruct (env_list _ h1 l) as [(es', h3)|] eqn:E2; [|discriminate]. cbn [bind] in E. injection E as _ <-.
    eapply sbc_trans; eauto. }
  destruct (env_list _ h (children h n i true)) as [(es, h2)|] eqn:E2; [|discriminate]. cbn [bind] in E. apply Y in E2.
  match type of E with context [if ?b then Ok None else ?e] => destruct (if b then Ok None else e) as [ans|]; [|discriminate] end. cbn [bind] in E.
  destruct i as [k|]; injection E as _ <-; auto. destruct ua; auto. eapply sbc_trans; [exact E2|]. apply sbc_modify.
Qed.
Lemma proper_frame fuel ua h n i v h' : partial_env_proper fuel ua h n i = Ok (v, h') -> same_but_cache K h h'.
Proof.
  unfold partial_env_proper. destruct (oleaf (hget h n)); [discriminate|]. destruct (dindex _ i) as [x|]; [|discriminate]. cbn [bind].
  apply partial_env_frame.
Qed.

Section Run.
Variable T : Type.
Variable sys : system K T.
Variable fuel : nat.
Notation state := (state K).
Notation sheap := (sheap K).
Notation sroot := (sroot K).
Notation senv := (senv K).

(** ** What each function leaves alone *)
Definition framed (n : nat) (s s' : state) : Prop :=
  core (sheap s) (sheap s') /\ sroot s' = sroot s /\ forall n' t j, n' <> n -> senv s' n' t j = senv s n' t j.
Definition framed_from (n : nat) (s s' : state) : Prop :=
  core (sheap s) (sheap s') /\ sroot s' = sroot s /\ forall n' t j, n' < n -> senv s' n' t j = senv s n' t j.

Lemma framed_refl n s : framed n s s.
Proof. split; [apply core_refl|]. auto. Qed.
Lemma framed_trans n s1 s2 s3 : framed n s1 s2 -> framed n s2 s3 -> framed n s1 s3.
Proof.
  intros (A1 & A2 & A3) (B1 & B2 & B3). split; [eapply core_trans; eauto|]. split; [congruence|].
  intros n' t j H. rewrite B3, A3; auto.
Qed.
Lemma from_trans n m s1 s2 s3 : n <= m -> framed_from n s1 s2 -> framed_from m s2 s3 -> framed_from n s1 s3.
Proof.
  intros Hm (A1 & A2 & A3) (B1 & B2 & B3). split; [eapply core_trans; eauto|]. split; [congruence|].
  intros n' t j H. rewrite B3, A3; auto. lia.
Qed.
Lemma framed_is_from n s s' : framed n s s' -> framed_from n s s'.
Proof. intros (A1 & A2 & A3). split; auto. split; auto. intros n' t j H. apply A3. lia. Qed.

Lemma same_key_eq n t i n' t' i' : same_key n t i n' t' i' = true <-> n = n' /\ t = t' /\ i = i'.
Proof. unfold same_key. rewrite !andb_true_iff, !Nat.eqb_eq. tauto. Qed.
Lemma env_put_other e n t i v n' t' i' : n' <> n \/ t' <> t \/ i' <> i -> env_put K e n t i v n' t' i' = e n' t' i'.
Proof.
  intros H. unfold env_put. destruct (same_key n t i n' t' i') eqn:E; auto. apply same_key_eq in E. destruct E as (-> & -> & ->). tauto.
Qed.
Lemma env_put_same e n t i v : env_put K e n t i v n t i = Some v.
Proof. unfold env_put. replace (same_key n t i n t i) with true; auto. symmetry. apply same_key_eq. auto. Qed.

Lemma fill_frame n : forall l s s', fill K fuel n l s = Ok s' -> framed n s s'.
Proof.
  induction l as [|(t, i) l IH]; intros s s' E; cbn [fill] in E; [injection E as <-; apply framed_refl|].
  destruct (partial_env_proper fuel false (sheap s) t i) as [(v, h)|] eqn:E1; [|discriminate]. cbn [bind] in E.
  eapply framed_trans; [|apply IH; exact E]. split; [apply core_sbc; eapply proper_frame; eauto|]. split; auto.
  intros n' t' j H. cbn [Cache_Model.senv]. apply env_put_other. auto.
Qed.
Lemma apply_frame n t cache : forall l tmp s x s', apply_envs K fuel n t cache l tmp s = Ok (x, s') -> framed n s s'.
Proof.
  induction l as [|i l IH]; intros tmp s x s' E; cbn [apply_envs] in E; [injection E as _ <-; apply framed_refl|].
  destruct (senv s n t i) as [v|].
  - cbn [bind] in E. destruct (pp_all tmp [(i, v)]) as [tmp'|]; [|discriminate]. cbn [bind] in E. eapply IH; eauto.
  - destruct (partial_env_proper fuel false (sheap s) t i) as [(v, h)|] eqn:E1; [|discriminate]. cbn [bind] in E.
    destruct (pp_all tmp [(i, v)]) as [tmp'|]; [|discriminate]. cbn [bind] in E. eapply framed_trans; [|eapply IH; exact E].
    split; [apply core_sbc; eapply proper_frame; eauto|]. split; auto.
    intros n' t' j H. cbn [Cache_Model.senv]. destruct cache; auto. apply env_put_other. auto.
Qed.

Lemma each_frame {A} uc skip (body : nat -> A -> state -> res (A * state)) :
  (forall n acc s acc' s', body n acc s = Ok (acc', s') -> framed n s s') ->
  forall terms n acc s acc' s', each_term K fuel uc skip body n terms acc s = Ok (acc', s') -> framed_from (Nat.max n skip) s s'.
Proof.
  intros B. induction terms as [|term terms IH]; intros n acc s acc' s' E; cbn [each_term] in E.
  - injection E as _ <-. apply framed_is_from, framed_refl.
  - destruct (Nat.ltb_spec n skip) as [Hn|Hn].
    + apply IH in E. replace (Nat.max n skip) with (Nat.max (S n) skip) by lia. exact E.
    + destruct (visitor fuel (sheap s) (sroot s) None false) as [l|]; [|discriminate]. cbn [bind] in E.
      destruct (set_leaves K _ term) as [h|] eqn:E1; [|discriminate]. cbn [bind] in E.
      destruct (body n acc (with_heap K s h)) as [(acc1, s1)|] eqn:E2; [|discriminate]. cbn [bind] in E.
      apply IH in E. apply B in E2. eapply (from_trans (Nat.max n skip) (Nat.max (S n) skip)); [lia| |exact E].
      replace (Nat.max n skip) with n by lia.
      apply framed_is_from. eapply (framed_trans n _ (with_heap K s h)).
      * split; [|auto]. cbn [with_heap Cache_Model.sheap]. eapply core_trans; [|eapply core_set_leaves; exact E1].
        apply core_set_all. intros o. apply kept_load.
      * eapply framed_trans; [exact E2|]. split; [|auto]. cbn [with_heap Cache_Model.sheap]. apply core_set_all. apply kept_reset.
Qed.
Lemma tv_frame {A} uc td time (body : nat -> A -> state -> res (A * state)) :
  (forall n acc s acc' s', body n acc s = Ok (acc', s') -> framed n s s') ->
  forall acc s acc' s', term_visitor K T sys fuel uc td time body acc s = Ok (acc', s') ->
  framed_from (if td then length (h_list K T sys) else 0) s s'.
Proof.
  intros B acc s acc' s' E. unfold term_visitor in E.
  destruct (visitor fuel (sheap s) (sroot s) None true) as [l|]; [|discriminate]. cbn [bind] in E. apply (each_frame _ _ _ B) in E.
  rewrite Nat.max_0_l in E. eapply from_trans; [apply le_n| |exact E]. split; [|auto].
  cbn [with_heap Cache_Model.sheap]. apply core_set_all. apply kept_reset.
Qed.

(** A state after calls on the tensor [t]: only its array may have changed. *)
Definition near (t : id) (s s' : state) : Prop :=
  length (sheap s') = length (sheap s) /\ sroot s' = sroot s /\
  (forall x, x <> t -> kept (hget (sheap s) x) (hget (sheap s') x)) /\
  (forall x, oname (hget (sheap s') x) = oname (hget (sheap s) x) /\ oleaf (hget (sheap s') x) = oleaf (hget (sheap s) x) /\
     oaxis (hget (sheap s') x) = oaxis (hget (sheap s) x) /\ onorm (hget (sheap s') x) = onorm (hget (sheap s) x) /\
     oacc (hget (sheap s') x) = oacc (hget (sheap s) x)) /\
  (oleaf (hget (sheap s) t) = false -> forall a, oarr (hget (sheap s) t) = Some a -> wf a ->
     exists a', oarr (hget (sheap s') t) = Some a' /\ wf a' /\ shape a' = shape a).
Lemma near_refl t s : near t s s.
Proof. split; auto. split; auto. split; [intros; apply kept_refl|]. split; auto. intros L a E W. eauto. Qed.
Lemma near_trans t s1 s2 s3 : near t s1 s2 -> near t s2 s3 -> near t s1 s3.
Proof.
  intros (A1 & A2 & A3 & A4 & A5) (B1 & B2 & B3 & B4 & B5). split; [congruence|]. split; [congruence|]. split; [|split].
  - intros x Hx. eapply kept_trans; eauto.
  - intros x. destruct (A4 x) as (P1 & P2 & P3 & P4 & P5), (B4 x) as (Q1 & Q2 & Q3 & Q4 & Q5). repeat split; congruence.
  - intros L a E W. destruct (A5 L a E W) as (a' & E' & W' & S'). destruct (B5 ltac:(destruct (A4 t) as (_ & -> & _); auto) a' E' W') as (a2 & E2 & W2 & S2).
    exists a2. split; auto. split; auto. congruence.
Qed.
Lemma near_core t s s' : core (sheap s) (sheap s') -> sroot s' = sroot s -> near t s s'.
Proof.
  intros (L & H) R. split; auto. split; auto. split; auto. split.
  - intros x. destruct (H x) as (P1 & P2 & P3 & P4 & P5 & _). auto.
  - intros Lf a E W. exists a. destruct (H t) as (_ & _ & _ & _ & _ & P). rewrite P; auto.
Qed.
Lemma near_put t s a a' : oarr (hget (sheap s) t) = Some a -> shape a' = shape a -> wf a' ->
  near t s (with_heap K s (modify (sheap s) t (put_arr (Some a')))).
Proof.
  intros E Sh W. cbn [with_heap]. assert (Q : forall x, x <> t -> hget (modify (sheap s) t (put_arr (Some a'))) x = hget (sheap s) x).
  { intros x Hx. apply hget_modify_neq. auto. }
  assert (L : t < length (sheap s)).
  { destruct (Nat.lt_ge_cases t (length (sheap s))); auto. rewrite hget_out in E by auto. discriminate. }
  split; [apply length_modify|]. split; auto. cbn [with_heap Cache_Model.sheap]. split; [|split].
  - intros x Hx. rewrite Q by auto. apply kept_refl.
  - intros x. destruct (Nat.eq_dec x t) as [->|Hx]; [|rewrite Q by auto; auto]. rewrite hget_modify_eq by auto. cbn. auto.
  - intros _ b Eb Wb. exists a'. rewrite hget_modify_eq by auto. cbn. split; auto. split; auto. congruence.
Qed.

Lemma reshape_ok (a : arr K) sh b : reshape a sh = Ok b -> wf a -> wf b /\ shape b = sh.
Proof.
  unfold reshape. destruct (Nat.eqb_spec (prod sh) (size a)) as [E|]; [|discriminate]. intros X W. injection X as <-. split; auto.
  unfold wf in *. cbn. unfold size in E. congruence.
Qed.
Lemma vec_wf (y : list K) : wf (mkArr [length y] y).
Proof. unfold wf. cbn. lia. Qed.

Lemma single_frame t n cache s x s' : single_eom K fuel t n cache s = Ok (x, s') -> framed n s s'.
Proof. unfold single_eom. destruct (oarr _); [|discriminate]. apply apply_frame. Qed.
Definition diff_body t cache : nat -> list K -> state -> res (list K * state) :=
  fun n ans s =>
    let! r := single_eom K fuel t n cache s in
    let '(x, s) := r in
    let! ans := vec_add K ans (data x) in
    Ok (ans, s).
Lemma diff_body_frame t cache n acc s acc' s' : diff_body t cache n acc s = Ok (acc', s') -> framed n s s'.
Proof.
  unfold diff_body. destruct (single_eom K fuel t n cache s) as [(x, s1)|] eqn:E; [|discriminate]. cbn [bind].
  destruct (vec_add K acc (data x)); [|discriminate]. cbn [bind]. intros X. injection X as _ <-. eapply single_frame; eauto.
Qed.
Definition form_body : nat -> unit -> state -> res (unit * state) :=
  fun n _ s =>
    let! l := visitor fuel (sheap s) (sroot s) None false in
    let! s := fill K fuel n (flat_map (fun t => map (fun i => (t, i)) (seq 0 (order (sheap s) t))) l) s in
    Ok (tt, s).
Lemma form_body_frame n acc s acc' s' : form_body n acc s = Ok (acc', s') -> framed n s s'.
Proof.
  unfold form_body. destruct (visitor fuel (sheap s) (sroot s) None false) as [l|]; [|discriminate]. cbn [bind].
  destruct (fill K fuel n _ s) as [s1|] eqn:E; [|discriminate]. cbn [bind]. intros X. injection X as _ <-. eapply fill_frame; eauto.
Qed.

Lemma diff_near t cache time y s x s' : diff K T sys fuel t cache time y s = Ok (x, s') -> near t s s'.
Proof.
  unfold diff. destruct (oarr (hget (sheap s) t)) as [a|] eqn:Ea; [|discriminate].
  destruct (reshape _ (shape a)) as [b|] eqn:Eb; [|discriminate]. cbn [bind]. fold (diff_body t cache).
  apply reshape_ok in Eb; [|apply vec_wf]. destruct Eb as (Wb & Sb).
  destruct (term_visitor _ _ _ _ _ _ _ _ _ _) as [(ans, s1)|] eqn:E; [|discriminate]. cbn [bind]. intros X. injection X as _ <-.
  apply (tv_frame _ _ _ _ (diff_body_frame t cache)) in E. destruct E as ((L & H) & R & _). cbn [with_heap Cache_Model.sheap Cache_Model.sroot] in *.
  rewrite length_modify in L.
  assert (Lt : t < length (sheap s)).
  { destruct (Nat.lt_ge_cases t (length (sheap s))); auto. rewrite hget_out in Ea by auto. discriminate. }
  assert (Q : forall x, x <> t -> kept (hget (sheap s) x) (hget (modify (sheap s1) t (put_arr (Some a))) x)).
  { intros z Hz. specialize (H z). rewrite hget_modify_neq in H by auto. rewrite hget_modify_neq by auto. auto. }
  split; [cbn [with_heap Cache_Model.sheap]; rewrite length_modify; auto|]. split; auto. cbn [with_heap Cache_Model.sheap]. split; [exact Q|split].
  - intros z. destruct (Nat.eq_dec z t) as [->|Hz]; [|destruct (Q z Hz) as (P1 & P2 & P3 & P4 & P5 & _); auto].
    rewrite hget_modify_eq by lia. specialize (H t). rewrite hget_modify_eq in H by lia. destruct H as (P1 & P2 & P3 & P4 & P5 & _). cbn in *. auto.
  - intros _ a0 E0 W0. exists a. rewrite hget_modify_eq by lia. cbn. rewrite Ea in E0. injection E0 as <-. auto.
Qed.
(** [diff] does not change the array. *)
Lemma diff_core t cache time y s x s' : diff K T sys fuel t cache time y s = Ok (x, s') -> core (sheap s) (sheap s').
Proof.
  intros E. pose proof (diff_near _ _ _ _ _ _ _ E) as (L & _ & Q & At & _). split; auto. intros z.
  destruct (Nat.eq_dec z t) as [->|Hz]; [|auto]. destruct (At t) as (P1 & P2 & P3 & P4 & P5). repeat split; auto. intros _.
  unfold diff in E. destruct (oarr (hget (sheap s) t)) as [a|] eqn:Ea; [|discriminate].
  destruct (reshape _ (shape a)) as [b|]; [|discriminate]. cbn [bind] in E. destruct (term_visitor _ _ _ _ _ _ _ _ _ _) as [(ans, s1)|]; [|discriminate].
  cbn [bind] in E. injection E as _ <-. cbn [with_heap Cache_Model.sheap] in *. rewrite length_modify in L.
  rewrite hget_modify_eq; auto. rewrite L. destruct (Nat.lt_ge_cases t (length (sheap s))); auto. rewrite hget_out in Ea by auto. discriminate.
Qed.
Lemma update_near t y s s' : update K t y s = Ok s' -> near t s s'.
Proof.
  unfold update. destruct (oarr (hget (sheap s) t)) as [a|] eqn:Ea; [|discriminate].
  destruct (reshape _ (shape a)) as [b|] eqn:Eb; [|discriminate]. cbn [bind]. intros X. injection X as <-.
  apply reshape_ok in Eb; [|apply vec_wf]. destruct Eb as (Wb & Sb). eapply near_put; eauto.
Qed.
Lemma form_frame upd time s s' : form_env K T sys fuel upd time s = Ok s' ->
  framed_from (if upd then length (h_list K T sys) else 0) (with_env K s (no_env K)) s'.
Proof.
  unfold form_env. fold form_body. destruct (term_visitor _ _ _ _ _ _ _ _ _ _) as [(u, s1)|] eqn:E; [|discriminate]. cbn [bind snd].
  intros X. injection X as <-. eapply tv_frame in E; [exact E|]. apply form_body_frame.
Qed.
Lemma call_near t cache c s l s' : do_call K T sys fuel t cache c s = (l, Ok s') -> near t s s'.
Proof.
  destruct c as [time y|y|time]; cbn [do_call].
  - destruct (diff K T sys fuel t cache time y s) as [(x, s1)|] eqn:E; cbn [bind snd]; intros X; [|discriminate]. injection X as _ <-. eapply diff_near; eauto.
  - intros X. injection X as _ X. eapply update_near; eauto.
  - intros X. injection X as _ X. apply form_frame in X. destruct X as (C & R & _). apply near_core; auto.
Qed.
End Run.
End CacheProof.
