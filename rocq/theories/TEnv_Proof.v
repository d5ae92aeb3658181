(** Environments: the cached computation equals an uncached recursion over the
    tree, and that recursion computes the dense sums. *)
From Coq Require Import List Arith Bool Lia Permutation.
From Verif Require Import Py Alg ListX NdArray_Model NdArray_Proof Contract_Model Contract_Spec
  Contract_Proof Mode_Proof Net_Model Net_Spec Trav_Proof Acyc_Proof Link_Spec Link_Proof Env_Proof.
Import ListNotations.
Local Open Scope nat_scope.
Local Open Scope py_scope.

Section Emap.
Context {A B C : Type}.
Variable f : A -> res C.
Variable g : A -> B.
Fixpoint emap (l : list A) : res (list (B * C)) :=
  match l with
  | [] => Ok []
  | x :: l => let! e := f x in let! es := emap l in Ok ((g x, e) :: es)
  end.
End Emap.

Section TEnv.
Variable K : StarRing.
Implicit Types h : heap K.

(** The body of [partial_env] given the environments of the children. *)
Definition env_body (ua : bool) (o : obj K) (i : option nat) (env_ : list (nat * option (arr K))) : res (option (arr K)) :=
  if negb ua && opt_eqb i (oaxis o) && onorm o && forallb (fun e => is_none (snd e)) env_
  then Ok None
  else match oarr o with
       | None => Raise AttributeError
       | Some a =>
           let! temp := pp_all a env_ in
           match (if ua then oaux o else Some (arr_conj a)) with
           | None => Raise AttributeError
           | Some b => let! x := partial_trace temp i b i in Ok (Some x)
           end
       end.
Definition env_out (i : option nat) (ans : option (arr K)) : option (arr K) :=
  match i with Some _ => ans | None => Some (match ans with Some x => x | None => scalar1 end) end.

Fixpoint tenv h (ua : bool) (i : option nat) (t : tree) {struct t} : res (option (arr K)) :=
  match t with
  | Lf n => Ok (if ua then oaux (hget h n) else oarr (hget h n))
  | Nd n ks =>
      let! env_ := emap (fun k => tenv h ua (Some (k_j k)) (k_t k)) k_i ks in
      let! ans := env_body ua (hget h n) i env_ in
      Ok (env_out i ans)
  end.

(** Heaps that differ in caches only. *)
Definition same_but_cache h h' : Prop :=
  length h' = length h /\ forall n, put_cache [] (hget h' n) = put_cache [] (hget h n).

Lemma sbc_refl h : same_but_cache h h.
Proof. split; auto. Qed.
Lemma sbc_sym h h' : same_but_cache h h' -> same_but_cache h' h.
Proof. intros (L & H). split; auto. Qed.
Lemma sbc_trans h1 h2 h3 : same_but_cache h1 h2 -> same_but_cache h2 h3 -> same_but_cache h1 h3.
Proof. intros (L & H) (L' & H'). split; [congruence|]. intros n. now rewrite H', H. Qed.
Lemma sbc_fields h h' n : same_but_cache h h' ->
  oleaf (hget h' n) = oleaf (hget h n) /\ oarr (hget h' n) = oarr (hget h n) /\
  oaux (hget h' n) = oaux (hget h n) /\ oaxis (hget h' n) = oaxis (hget h n) /\
  onorm (hget h' n) = onorm (hget h n) /\ oacc (hget h' n) = oacc (hget h n).
Proof.
  intros (_ & H). specialize (H n). destruct (hget h' n), (hget h n). unfold put_cache in H. cbn in *.
  inversion H. auto 10.
Qed.

Lemma hangs_same h h' : (forall n, oleaf (hget h' n) = oleaf (hget h n) /\ oacc (hget h' n) = oacc (hget h n)) ->
  forall t up, hangs h up t -> hangs h' up t.
Proof.
  intros S. induction t as [n|n ks IH] using tree_ind'; intros up H; destruct (S n) as (S1 & S2).
  - inversion H; subst. constructor; congruence.
  - rewrite Forall_forall in IH.
    inversion H as [|? ? L A D F|? j p k1 k2 L A D F]; subst;
    constructor; try congruence; try (rewrite S2; auto);
    rewrite Forall_forall in F |- *; intros k Hk; apply IH; auto.
Qed.

Lemma emap_ext {A B C} (f f' : A -> res C) (g : A -> B) l : (forall x, In x l -> f x = f' x) -> emap f g l = emap f' g l.
Proof.
  induction l as [|x l IH]; intros H; auto. cbn. rewrite (H x) by (left; auto).
  rewrite IH by (intros; apply H; right; auto). reflexivity.
Qed.

Lemma env_body_same ua (o o' : obj K) i es : oarr o' = oarr o -> oaux o' = oaux o -> oaxis o' = oaxis o ->
  onorm o' = onorm o -> env_body ua o' i es = env_body ua o i es.
Proof. intros E1 E2 E3 E4. unfold env_body. now rewrite E1, E2, E3, E4. Qed.

Lemma tenv_same h h' ua : same_but_cache h h' -> forall t i, tenv h' ua i t = tenv h ua i t.
Proof.
  intros S. induction t as [n|n ks IH] using tree_ind'; intros i; cbn [tenv];
    destruct (sbc_fields h h' n S) as (E1 & E2 & E3 & E4 & E5 & E6).
  - now rewrite E2, E3.
  - rewrite (emap_ext _ (fun k => tenv h ua (Some (k_j k)) (k_t k))).
    + destruct (emap _ _ ks); cbn [bind]; auto. rewrite (env_body_same ua (hget h n)); auto.
    + intros k Hk. rewrite Forall_forall in IH. apply IH; auto.
Qed.

(** The subtree [u] hangs from [a] at the axes [i] of [a] and [j] of its top. *)
Inductive edge_in : tree -> id -> nat -> tree -> nat -> Prop :=
| edge_here n ks i u j : In (i, u, j) ks -> edge_in (Nd n ks) n i u j
| edge_deep n ks k a i u j : In k ks -> edge_in (k_t k) a i u j -> edge_in (Nd n ks) a i u j.

Section On.
Variable Q : id -> nat -> Prop.
(** Every stored environment for which [Q] holds equals the recomputed one. *)
Definition cache_exact_on h : Prop :=
  forall n j v t p, Q n j -> dget (ocache (hget h n)) j = Some v -> hangs h (Some (j, p)) t -> top t = n ->
    oleaf (hget h n) = false -> tenv h false (Some j) t = Ok v.

Lemma dget_dput {V} (d : list (nat * V)) k v k' : dget (dput d k v) k' = if k' =? k then Some v else dget d k'.
Proof.
  induction d as [|[k1 v1] d IH]; cbn [dput dget]; [reflexivity|].
  destruct (Nat.eqb_spec k k1) as [->|Hn].
  - cbn [dget]. destruct (k' =? k1); auto.
  - destruct (k <? k1); cbn [dget].
    + destruct (Nat.eqb_spec k' k); auto.
    + rewrite IH. destruct (Nat.eqb_spec k' k1) as [->|]; auto.
      replace (k1 =? k) with false by (symmetry; apply Nat.eqb_neq; auto). reflexivity.
Qed.


(** [Q] holds for the links that are followed downwards from [t]. *)
Definition covered (up : option (nat * half)) (t : tree) : Prop :=
  (forall j p, up = Some (j, p) -> Q (top t) j) /\ forall a i u j, edge_in t a i u j -> Q (top u) j.
Lemma covered_kid up n ks k : covered up (Nd n ks) -> In k ks -> covered (Some (k_j k, (n, k_i k))) (k_t k).
Proof.
  intros (_ & H) Hk. split.
  - intros j p E. injection E as <- _. apply (H n (k_i k)). constructor. destruct k as ((a, b), c). exact Hk.
  - intros a i u j E. apply (H a i). econstructor 2; eauto.
Qed.

(** The computation with caches agrees with the recursion over the tree. *)
Lemma env_list_ok_on ua h fuel ks h0 :
  Forall (fun k => forall h1, same_but_cache h h1 -> cache_exact_on h1 ->
     match tenv h ua (Some (k_j k)) (k_t k) with
     | Ok v => exists h2, partial_env fuel ua h1 (top (k_t k)) (Some (k_j k)) = Ok (v, h2) /\
         same_but_cache h h2 /\ cache_exact_on h2
     | Raise e => partial_env fuel ua h1 (top (k_t k)) (Some (k_j k)) = Raise e
     end) ks ->
  same_but_cache h h0 -> cache_exact_on h0 ->
  match emap (fun k => tenv h ua (Some (k_j k)) (k_t k)) k_i ks with
  | Ok es => exists h2, env_list (fun h c j => partial_env fuel ua h c (Some j)) h0 (map kid3 ks) = Ok (es, h2) /\
       same_but_cache h h2 /\ cache_exact_on h2
  | Raise e => env_list (fun h c j => partial_env fuel ua h c (Some j)) h0 (map kid3 ks) = Raise e
  end.
Proof.
  intros F. revert h0. induction F as [|k ks Hk F IH]; intros h0 S C.
  - cbn. eauto.
  - cbn [emap map env_list]. unfold kid3 at 1 3. specialize (Hk h0 S C).
    destruct (tenv h ua (Some (k_j k)) (k_t k)) as [v|e]; cbn [bind].
    + destruct Hk as (h1 & E & S1 & C1). specialize (IH h1 S1 C1).
      destruct (emap _ k_i ks) as [es|e]; cbn [bind].
      * destruct IH as (h2 & E2 & S2 & C2). exists h2. rewrite E. cbn [bind]. rewrite E2. cbn [bind]. auto.
      * rewrite E. cbn [bind]. now rewrite IH.
    + now rewrite Hk.
Qed.

Lemma hangs_up_unique h j p p' t t' : hangs h (Some (j, p)) t -> hangs h (Some (j, p')) t' ->
  top t = top t' -> p = p'.
Proof.
  intros H H' E. destruct t as [n|n ks], t' as [n'|n' ks']; cbn [top] in E; subst.
  - inversion H; inversion H'; subst. congruence.
  - apply hangs_leafness in H. apply hangs_leafness in H'. cbn in *. congruence.
  - apply hangs_leafness in H. apply hangs_leafness in H'. cbn in *. congruence.
  - destruct (hangs_acc _ h _ _ _ H) as (D & _ & _ & _ & U). destruct (hangs_acc _ h _ _ _ H') as (_ & _ & _ & _ & U').
    eapply key_unique; [exact D|apply U|apply U']; reflexivity.
Qed.

Lemma store_exact_on h n j p t v : cache_exact_on h -> hangs h (Some (j, p)) t -> top t = n ->
  tenv h false (Some j) t = Ok v ->
  same_but_cache h (modify h n (fun o => put_cache (dput (ocache o) j v) o)) /\
  cache_exact_on (modify h n (fun o => put_cache (dput (ocache o) j v) o)).
Proof.
  intros C H Et E. set (h' := modify h n _).
  assert (S : same_but_cache h h').
  { unfold h'. split; [apply length_modify|]. intros m.
    destruct (Nat.lt_ge_cases n (length h)) as [Hl|Hl].
    - destruct (Nat.eq_dec n m) as [->|Hn]; [now rewrite hget_modify_eq|now rewrite hget_modify_neq].
    - now rewrite modify_out. }
  split; auto. intros m j' v' t' p' Hq Hc H' Et' L.
  rewrite (tenv_same _ _ _ S).
  assert (H0 : hangs h (Some (j', p')) t').
  { eapply hangs_same; [|exact H']. intros x. destruct (sbc_fields _ _ x S) as (? & _ & _ & _ & _ & ?). auto. }
  assert (L0 : oleaf (hget h m) = false).
  { destruct (sbc_fields _ _ m S) as (<- & _). auto. }
  unfold h' in Hc. destruct (Nat.lt_ge_cases n (length h)) as [Hl|Hl].
  - destruct (Nat.eq_dec n m) as [->|Hn].
    + rewrite hget_modify_eq in Hc by auto. cbn [ocache put_cache] in Hc. rewrite dget_dput in Hc.
      destruct (Nat.eqb_spec j' j) as [->|Hj]; [|eapply C; eauto].
      inversion Hc; subst v'. assert (p' = p) by (eapply hangs_up_unique; eauto; congruence). subst.
      assert (t' = t) by (eapply hangs_det; eauto; congruence). subst. auto.
    + rewrite hget_modify_neq in Hc by auto. eapply C; eauto.
  - rewrite modify_out in Hc by auto. eapply C; eauto.
Qed.

Lemma partial_env_tenv_on h ua : forall t up fuel h0, hangs h up t -> covered up t -> height t <= fuel ->
  same_but_cache h h0 -> cache_exact_on h0 ->
  match tenv h ua (option_map fst up) t with
  | Ok v => exists h2, partial_env fuel ua h0 (top t) (option_map fst up) = Ok (v, h2) /\
      same_but_cache h h2 /\ cache_exact_on h2
  | Raise e => partial_env fuel ua h0 (top t) (option_map fst up) = Raise e
  end.
Proof.
  induction t as [n|n ks IH] using tree_ind'; intros up fuel h0 H Cv Hf S C.
  - destruct fuel as [|fuel]; [cbn in Hf; lia|]. cbn [tenv partial_env top].
    pose proof (hangs_leafness _ _ _ _ H) as L. cbn [top inner negb] in L.
    destruct (sbc_fields _ _ n S) as (E1 & E2 & E3 & E4 & E5 & E6). rewrite E1, L, E2, E3. eauto.
  - destruct fuel as [|fuel]; [cbn in Hf; lia|]. cbn [top].
    destruct (hangs_kids _ _ _ _ _ H) as (L & F & _).
    destruct (sbc_fields _ _ n S) as (E1 & E2 & E3 & E4 & E5 & E6).
    assert (H0 : hangs h0 up (Nd n ks)).
    { eapply hangs_same; [|exact H]. intros x. destruct (sbc_fields _ _ x S) as (? & _ & _ & _ & _ & ?). auto. }
    set (ax := option_map fst up) in *.
    cbn [partial_env]. rewrite E1, L.
    destruct (match ax with Some k => if ua then None else dget (ocache (hget h0 n)) k | None => None end) as [v|] eqn:Ec.
    + (* stored *)
      destruct up as [[j p]|]; cbn [option_map fst] in *; unfold ax in Ec; [|discriminate].
      destruct ua; [discriminate|].
      pose proof (C n j v _ p (proj1 Cv j p eq_refl) Ec H0 eq_refl ltac:(congruence)) as T. rewrite (tenv_same _ _ _ S) in T.
      subst ax. rewrite T. eauto.
    + assert (Lc : children h0 n ax true = map kid3 ks).
      { unfold ax. rewrite (children_node _ h0 up n ks true H0). f_equal. apply filter_all. reflexivity. }
      rewrite Lc.
      assert (FF : Forall (fun k => forall h1, same_but_cache h h1 -> cache_exact_on h1 ->
         match tenv h ua (Some (k_j k)) (k_t k) with
         | Ok v => exists h2, partial_env fuel ua h1 (top (k_t k)) (Some (k_j k)) = Ok (v, h2) /\
             same_but_cache h h2 /\ cache_exact_on h2
         | Raise e => partial_env fuel ua h1 (top (k_t k)) (Some (k_j k)) = Raise e
         end) ks).
      { rewrite Forall_forall in IH, F |- *. intros k Hk h1 S1 C1.
        apply (IH k Hk (Some (k_j k, (n, k_i k))) fuel h1 (F k Hk)); auto; [eapply covered_kid; eauto|].
        pose proof (height_kid n ks k Hk). lia. }
      pose proof (env_list_ok_on ua h fuel ks h0 FF S C) as EL. clear FF.
      assert (T : tenv h ua ax (Nd n ks) =
        (let! env_ := emap (fun k => tenv h ua (Some (k_j k)) (k_t k)) k_i ks in
         let! ans := env_body ua (hget h n) ax env_ in Ok (env_out ax ans))) by reflexivity.
      destruct (emap (fun k => tenv h ua (Some (k_j k)) (k_t k)) k_i ks) as [es|e] eqn:Em; cbn [bind] in T.
      2:{ rewrite T, EL. reflexivity. }
      destruct EL as (h2 & E & S2 & C2). rewrite E. cbn [bind].
      change (if negb ua && opt_eqb ax (oaxis (hget h0 n)) && onorm (hget h0 n) && forallb (fun e => is_none (snd e)) es
        then Ok None else _) with (env_body ua (hget h0 n) ax es).
      rewrite (env_body_same ua (hget h n)) by auto.
      destruct (env_body ua (hget h n) ax es) as [ans|e] eqn:Eb; cbn [bind] in T.
      2:{ rewrite T. reflexivity. }
      rewrite T. cbn [bind]. destruct up as [[j p]|]; unfold ax in *; cbn [option_map fst env_out] in *.
      * destruct ua; [eauto|]. eexists. split; [reflexivity|].
        assert (H2 : hangs h2 (Some (j, p)) (Nd n ks)).
        { eapply hangs_same; [|exact H]. intros x. destruct (sbc_fields _ _ x S2) as (? & _ & _ & _ & _ & ?). auto. }
        destruct (store_exact_on h2 n j p (Nd n ks) ans C2 H2 eq_refl) as (S3 & C3).
        { rewrite (tenv_same _ _ _ S2). auto. }
        split; auto. eapply sbc_trans; eauto.
      * eexists. split; [reflexivity|]. auto.
Qed.

End On.

(** Every stored environment equals the recomputed one. *)
Definition cache_exact h : Prop :=
  forall n j v t p, dget (ocache (hget h n)) j = Some v -> hangs h (Some (j, p)) t -> top t = n ->
    oleaf (hget h n) = false -> tenv h false (Some j) t = Ok v.
Lemma cache_exact_all h : cache_exact h <-> cache_exact_on (fun _ _ => True) h.
Proof. split; intros H n j v t p; [intros _|]; intros; eapply H; eauto. Qed.
Lemma covered_all up t : covered (fun _ _ => True) up t.
Proof. split; auto. Qed.

Lemma partial_env_tenv h ua : forall t up fuel h0, hangs h up t -> height t <= fuel ->
  same_but_cache h h0 -> cache_exact h0 ->
  match tenv h ua (option_map fst up) t with
  | Ok v => exists h2, partial_env fuel ua h0 (top t) (option_map fst up) = Ok (v, h2) /\
      same_but_cache h h2 /\ cache_exact h2
  | Raise e => partial_env fuel ua h0 (top t) (option_map fst up) = Raise e
  end.
Proof.
  intros t up fuel h0 H Hf S C. apply cache_exact_all in C.
  pose proof (partial_env_tenv_on (fun _ _ => True) h ua t up fuel h0 H (covered_all up t) Hf S C) as X.
  destruct (tenv h ua (option_map fst up) t) as [v|e]; auto. destruct X as (h2 & E & S2 & C2). apply cache_exact_all in C2. eauto.
Qed.

Lemma reset_exact h : (forall n, ocache (hget h n) = []) -> cache_exact h.
Proof. intros H n j v t p E. rewrite H in E. discriminate. Qed.
End TEnv.
