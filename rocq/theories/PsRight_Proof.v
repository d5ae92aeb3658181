(** [propagate2.py]: when the derivative is the right one; what is stored. *)
From Coq Require Import String List Arith Bool Lia.
From Verif Require Import Py Alg ListX NdArray_Model Contract_Model Net_Model Net_Spec Trav_Proof Acyc_Proof Env_Proof TEnv_Proof EnvThm_Proof
  Link_Spec Link_Proof State_Proof Move_Spec Split_Proof Relink_Proof Move_Proof MoveRoot_Proof Contraction_Proof Cache_Model Cache_Spec Cache_Proof CacheExact_Proof Eom_Spec Ps_Spec.
From Verif Require Ps_Model Ps_Proof.
Import ListNotations.
Local Open Scope nat_scope.
Local Open Scope list_scope.
Local Open Scope py_scope.

Section Right.
Variable K : StarRing.
Variable hl : list (list (id * arr K)).
Variable fuel : nat.
Implicit Types h : heap K.
Notation state := (state K).
Notation sheap := (sheap K).
Notation sroot := (sroot K).
Notation senv := (senv K).
Notation term_t := (list (id * arr K)).
Notation ready := (Ps_Proof.ready K hl fuel).
Notation plain terms := (mkSystem K unit terms None).

(** Terms with the same matrices on the leaves of the network. *)
Definition alike h R (ta tb : term_t) : Prop :=
  (forall l m, In (l, m) ta -> oleaf (hget h l) = true) /\ (forall l m, In (l, m) tb -> oleaf (hget h l) = true) /\
  forall l, In l (ids R) -> oleaf (hget h l) = true -> last_of ta l = last_of tb l.
Lemma pterms_alike h R r ks l a : R = Nd r ks -> hangs h None R -> Forall (fun i => In i (map k_i ks)) l -> forall tas tbs acc,
  Forall2 (alike h R) tas tbs -> pterms K h ks l a tas acc = pterms K h ks l a tbs acc.
Proof.
  intros ER H Fl tas tbs acc F. revert acc. induction F as [|ta tb tas tbs (A & B & C) F IH]; intros acc; cbn [pterms]; auto.
  replace (forallb _ ta) with true by (symmetry; apply forallb_forall; intros (x, m) Hp; eauto).
  replace (forallb _ tb) with true by (symmetry; apply forallb_forall; intros (x, m) Hp; eauto).
  rewrite (Ps_Proof.papply_same K ks (dressed h ta) (dressed h tb)).
  - destruct (papply K (dressed h tb) ks l a); cbn [bind]; auto. destruct (vec_add K acc _); cbn [bind]; auto.
  - intros i Hi. rewrite Forall_forall in Fl. destruct (find_kid ks i (Fl i Hi)) as (k & Fk & Hk & Ek). unfold penv. rewrite Fk.
    assert (I : forall x, In x (ids (k_t k)) -> In x (ids R)) by (intros x Hx; rewrite ER; right; apply in_flat_map; eauto).
    apply (Ps_Proof.dressed_last K).
    + intros x Hx. apply (hangs_lt K h None R H). auto.
    + intros x Hx Lx. apply C; auto.
Qed.
Lemma forget_any terms R s : ready R s -> CacheExact_Proof.ready K unit (plain terms) fuel R (forget s).
Proof.
  intros Rd. constructor; try apply Rd.
  - apply no_env_ok.
  - intros n t j v Ev. discriminate.
Qed.
Lemma diff_alike R ks s y tas tbs : ready R s -> R = Nd (sroot s) ks -> Forall2 (alike (sheap s) R) tas tbs ->
  result (diff K unit (plain tas) fuel (sroot s) false tt y (forget s)) = result (diff K unit (plain tbs) fuel (sroot s) false tt y (forget s)).
Proof.
  intros Rd ER F. unfold diff. change (sheap (forget s)) with (sheap s). change (sroot (forget s)) with (sroot s).
  destruct (oarr (hget (sheap s) (sroot s))) as [a|] eqn:Ea; [|reflexivity].
  destruct (reshape (mkArr [length y] y) (shape a)) as [b|] eqn:Eb; [|reflexivity]. cbn [bind]. fold (diff_body K fuel (sroot s) false).
  destruct (diff_heads K unit (plain tas) fuel R (forget s) y a tt (forget_any tas R s Rd) Ea b Eb) as (H0 & C & Cl & V & A0 & TV).
  destruct (diff_heads K unit (plain tbs) fuel R (forget s) y a tt (forget_any tbs R s Rd) Ea b Eb) as (_ & _ & _ & _ & _ & TV').
  change (sheap (forget s)) with (sheap s) in *. change (sroot (forget s)) with (sroot s) in *.
  set (h0 := modify (sheap s) (sroot s) (put_arr (Some b))) in *. set (h1 := set_all (reset_obj K) h0 (ids R)) in *.
  change (with_heap K (forget s) h0) with (mkState K h0 (sroot s) (no_env K)). rewrite TV, TV'. clear TV TV'.
  destruct (Ps_Proof.rd_top _ _ _ R s Rd) as (ks' & ER' & Ek'). assert (ks' = ks) as -> by congruence.
  assert (Ek : map k_i ks = seq 0 (order h0 (sroot s))) by (rewrite (kids_order K R (sroot s) ks h0 ER H0); auto).
  assert (Lr : sroot s < length (sheap s)) by (apply (hangs_lt K _ _ _ (Ps_Proof.rd_hangs _ _ _ R s Rd)); rewrite ER; left; auto).
  assert (At : forall x, oleaf (hget h0 x) = oleaf (hget (sheap s) x)).
  { intros x. unfold h0. destruct (Nat.eq_dec x (sroot s)) as [->|Hn]; [rewrite hget_modify_eq by auto|rewrite hget_modify_neq by auto]; auto. }
  assert (All : forall l, all_terms K unit (plain l) tt = l) by (intros l; unfold all_terms; cbn [f_list Cache_Model.h_list]; apply app_nil_r).
  rewrite !All.
  assert (Y : forall l, match pterms K h0 ks (seq 0 (order h0 (sroot s))) b l (repeat r0 (length y)) with
    | Ok x => exists s', each_term K fuel true 0 (diff_body K fuel (sroot s) false) 0 l (repeat r0 (length y)) (mkState K h1 (sroot s) (no_env K)) = Ok (x, s')
    | Raise e => each_term K fuel true 0 (diff_body K fuel (sroot s) false) 0 l (repeat r0 (length y)) (mkState K h1 (sroot s) (no_env K)) = Raise e
    end).
  { intros l. pose proof (diff_each K fuel R (sroot s) ks h0 b false ER H0 (Ps_Proof.rd_nodup _ _ _ R s Rd) (Ps_Proof.rd_fuel _ _ _ R s Rd) A0 Ek l 0 (repeat r0 (length y))
      (mkState K h1 (sroot s) (no_env K)) C Cl eq_refl ltac:(intros k term _ t j u i v _ X; discriminate)) as Y.
    destruct (pterms K h0 ks _ b l _) as [z|e]; auto. destruct Y as (s' & Y & _). eauto. }
  pose proof (Y tas) as Ya. pose proof (Y tbs) as Yb. 
  assert (F' : Forall2 (alike h0 R) tas tbs).
  { clear -F At. induction F as [|ta tb tas tbs (P & Q & W) F IH]; constructor; auto. split; [|split]; [intros l m Hl; rewrite At; eauto|intros l m Hl; rewrite At; eauto|].
    intros l Hl. rewrite At. auto. }
  rewrite (pterms_alike h0 R (sroot s) ks (seq 0 (order h0 (sroot s))) b ER H0 ltac:(rewrite <- Ek; apply Forall_forall; auto) tas tbs _ F') in Ya.
  destruct (pterms K h0 ks _ b tbs _); [destruct Ya as (sa & Ya), Yb as (sb & Yb)|]; rewrite Ya, Yb; reflexivity.
Qed.

(** ** Where the mixtures are the terms *)
Lemma mixtures_alike R ks h : R = Nd (top R) ks -> seated h hl ->
  (forall term l, In term hl -> In l (ids R) -> oleaf (hget h l) = true -> joined ks l = false -> last_of term l = last_of (hd [] hl) l) ->
  Forall2 (alike h R) (mixtures ks hl) hl.
Proof.
  intros ER Se Ag. unfold mixtures.
  assert (G : forall t0 l, (forall x m, In (x, m) t0 -> oleaf (hget h x) = true) -> (forall term x m, In term l -> In (x, m) term -> oleaf (hget h x) = true) ->
    (forall term x, In term l -> In x (ids R) -> oleaf (hget h x) = true -> joined ks x = false -> last_of term x = last_of t0 x) -> Forall2 (alike h R) (map (mixed ks t0) l) l).
  { intros t0. induction l as [|tn l IH]; intros S0 Sl A; cbn [map]; constructor; [|apply IH; auto; intros; [eapply Sl|apply A]; eauto; right; auto].
    split; [|split].
    - intros x m Hp. unfold mixed in Hp. apply in_app_iff in Hp. destruct Hp as [Hp|Hp]; apply filter_In in Hp; destruct Hp as (Hp & _); eauto. eapply Sl; eauto. left. auto.
    - intros x m Hp. eapply Sl; eauto. left. auto.
    - intros x Hx Lx. rewrite Ps_Proof.last_of_mixed. destruct (joined ks x) eqn:J; auto. symmetry. apply A; auto. left. auto. }
  apply G; auto.
  - intros x m Hp. destruct hl as [|t0 l]; [destruct Hp|]. apply (Se t0 x m); auto. left. auto.
  - intros term x m Ht Hp. apply (Se term x m); auto.
Qed.
Lemma diff_right R ks s y : ready R s -> R = Nd (sroot s) ks ->
  (forall term l, In term hl -> In l (ids R) -> oleaf (hget (sheap s) l) = true -> joined ks l = false -> last_of term l = last_of (hd [] hl) l) ->
  result (Ps_Model.diff K hl fuel (sroot s) y s) = result (diff K unit (plain hl) fuel (sroot s) false tt y (forget s)).
Proof.
  intros Rd ER Ag. rewrite (proj1 (Ps_Proof.diff_mixed K hl fuel R ks s y Rd ER)). apply (diff_alike R ks); auto.
  apply mixtures_alike; auto; [rewrite ER; auto|apply Rd].
Qed.

(** ** Suitable terms *)
Lemma suits_mixed h R A ks t0 tn : suits h R A t0 -> suits h R A tn -> suits h R A (mixed ks t0 tn).
Proof.
  intros (A1 & A2) (B1 & B2). split.
  - intros x m Hp. unfold mixed in Hp. apply in_app_iff in Hp. destruct Hp as [Hp|Hp]; apply filter_In in Hp; destruct Hp as (Hp & _); eauto.
  - revert A2 B2. generalize (ldims A None 0 R), (lids R). intros ds ls. revert ds.
    induction ls as [|l ls IH]; intros ds A2 B2; inversion A2; subst; inversion B2; subst; constructor; auto.
    rewrite Ps_Proof.last_of_mixed. destruct (joined ks l); auto.
Qed.
Lemma standing_mixed h r ks A : standing fuel h r ks A hl -> standing fuel h r ks A (mixtures ks hl).
Proof.
  intros (H & ND & F & Hf & N & U & S). repeat (split; auto). unfold mixtures.
  assert (S0 : hl <> [] -> suits h (Nd r ks) A (hd [] hl)) by (destruct hl; [congruence|intros _; inversion S; auto]).
  apply Forall_forall. intros t Ht. apply in_map_iff in Ht. destruct Ht as (tn & <- & Hn). apply suits_mixed.
  - apply S0. intros E. rewrite E in Hn. destruct Hn.
  - rewrite Forall_forall in S. auto.
Qed.

(** ** What is stored *)
Lemma entry_fresh R s n term t i x j v : ready R s -> nth_error hl n = Some term -> In (t, i, x, j) (edges R) -> senv s n t i = Some v ->
  fresh_env fuel (sheap s) t (if oleaf (hget (sheap s) x) then term else hd [] hl) i = Ok v.
Proof.
  intros Rd Ht He Ev. destruct (edges_edge_in R t i x j He) as (u & Ed & Ex). pose proof (Ps_Proof.rd_hangs _ _ _ R s Rd) as H.
  pose proof (hangs_leafness K (sheap s) _ _ (edge_hangs K (sheap s) R None H _ _ _ _ Ed)) as Lx.
  pose proof (Ps_Proof.rd_env _ _ _ R s Rd n term Ht t i u j v Ed Ev) as TV.
  replace (if oleaf (hget (sheap s) x) then term else hd [] hl) with (if Net_Spec.inner u then hd [] hl else term) by (rewrite <- Ex, Lx; destruct (Net_Spec.inner u); auto).
  set (tm := if Net_Spec.inner u then hd [] hl else term) in *.
  assert (HL : hangs (dressed (sheap s) tm) None R).
  { apply (hangs_on K (sheap s)); [|apply Rd]. intros y Hy. rewrite dressed_get by (eapply hangs_lt; eauto; apply Rd).
    destruct (oleaf (hget (sheap s) y)) eqn:Lf; cbn; rewrite ?Lf; auto. }
  pose proof (edge_hangs K _ R None HL t i u j Ed) as Hu.
  destruct (edge_down_acc K (dressed (sheap s) tm) R t i u j Ed None HL) as (Hin & ND).
  assert (Lt : oleaf (hget (dressed (sheap s) tm) t) = false).
  { apply (nids_inner K _ _ _ HL t). apply (edge_ids _ _ _ _ _ Ed). }
  pose proof (partial_env_tenv K (dressed (sheap s) tm) false u (Some (j, (t, i))) fuel (dressed (sheap s) tm) Hu) as X.
  specialize (X ltac:(pose proof (edge_height R t i u j Ed); pose proof (Ps_Proof.rd_fuel _ _ _ R s Rd); lia) (sbc_refl K _)).
  specialize (X ltac:(apply reset_exact; intros y; destruct (Nat.lt_ge_cases y (length (sheap s))) as [Hl|Hl];
    [rewrite dressed_get by auto; reflexivity|rewrite hget_out by (rewrite dressed_length; auto); reflexivity])).
  cbn [option_map fst] in X. rewrite TV in X. destruct X as (h2 & E2 & _).
  unfold fresh_env, partial_env_proper. rewrite Lt. unfold dindex. replace (dget (oacc (hget (dressed (sheap s) tm) t)) i) with (Some (top u, j)) by (symmetry; apply points_dget; auto). cbn [bind fst snd]. rewrite E2. reflexivity.
Qed.
End Right.
