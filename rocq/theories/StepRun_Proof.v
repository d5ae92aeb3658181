(** The two classes: steps with arrays. *)
From Coq Require Import String List Arith Bool ZArith Lia Permutation.
From Verif Require Import Py Alg ListX NdArray_Model Contract_Model Net_Model Net_Spec Trav_Proof Acyc_Proof Env_Spec
  Move_Spec Link_Spec Link_Proof State_Spec State_Proof Split_Proof EnvThm_Proof TEnv_Proof Cache_Model Cache_Spec Cache_Proof CacheExact_Proof CacheMove_Proof
  Ps_Spec Step_Model Sweep_Model Sweep_Spec Sweep_Proof Unite_Proof Rsplit_Proof Step_Spec Step_Proof.
From Verif Require Ps_Model Ps_Proof PsMove_Proof.
Import ListNotations.
Local Open Scope nat_scope.
Local Open Scope list_scope.

Section Machine.
Variable K : StarRing.
Variable T : Type.
Variable opp : T -> T.
Variable half_of : T -> T.
Variable fuel : nat.
Variables X L : Type.
Variable hp : X -> heap K.
Variable rt : X -> id.
Variable form : X -> res X.
Variable prop : T -> id -> X -> list L * res X.
Variable mv : id -> nat -> option T -> bool -> X -> list L * res X.
Variable Inv : X -> Prop.
Variable good : list L -> Prop.
Hypothesis good_nil : good [].
Hypothesis good_app : forall l l', good l -> good l' -> good (l ++ l').
Hypothesis Inv_net : forall x, Inv x -> exists R A, network (hp x) R A /\ top R = rt x.
Hypothesis H_prop : forall tau x l r, Inv x -> prop tau (rt x) x = (l, r) ->
  good l /\ forall x', r = Ok x' -> Inv x' /\ rt x' = rt x /\ length (hp x') = length (hp x) /\
    (forall t, oacc (hget (hp x') t) = oacc (hget (hp x) t) /\ oleaf (hget (hp x') t) = oleaf (hget (hp x) t) /\ oaxis (hget (hp x') t) = oaxis (hget (hp x) t)).
Hypothesis H_move : forall x R A i e j op uf l r, Inv x -> network (hp x) R A -> top R = rt x ->
  dget (oacc (hget (hp x) (rt x))) i = Some (e, j) -> oleaf (hget (hp x) e) = false -> mv (rt x) i op uf x = (l, r) ->
  good l /\ forall x', r = Ok x' -> Inv x' /\ rt x' = e /\ shifted K (hp x) R (rt x) i e (hp x').
(** A state from which a step may start. *)
Variable Pre : X -> Prop.
Hypothesis Pre_inv : forall x, Inv x -> Pre x.
Hypothesis Pre_fuel : forall x R A, Pre x -> network (hp x) R A -> top R = rt x -> S (length (ids R)) <= fuel.
Hypothesis H_form : forall x x', Pre x -> form x = Ok x' -> Inv x' /\ rt x' = rt x /\
  (forall t, oacc (hget (hp x') t) = oacc (hget (hp x) t) /\ oleaf (hget (hp x') t) = oleaf (hget (hp x) t)).

Notation srun := (srun T X L).
(** The run ends in the tree it starts in, with the events of [l], or does the first of them. *)
Definition achieves (R : tree) (l : list (event T)) (g : srun) : Prop :=
  let '(ev, (log, out)) := g in good log /\ as_far l ev (ended out) /\
  forall x, out = Ok x -> Inv x /\ rt x = top R /\ exists A, network (hp x) R A.
Lemma rel_achieves R0 h0 A0 l g : network h0 R0 A0 -> Rel K T X L hp rt Inv good R0 h0 (l, Ok (h0, top R0)) g -> achieves R0 l g.
Proof.
  intros N0. destruct g as (ev, (log, out)). intros (G & H). split; auto. destruct out as [x|y].
  - destruct H as (-> & H). split; [reflexivity|]. intros x' E. injection E as <-. eapply sim_back; eauto.
  - split; [exact H|]. discriminate.
Qed.
Lemma achieves_then R l l' g f : achieves R l g -> l' <> [] ->
  (forall x A, Inv x -> rt x = top R -> network (hp x) R A -> achieves R l' (f x)) -> achieves R (l ++ l') (sthen g f).
Proof.
  destruct g as (ev, (log, out)). intros (G & Af & Ho) Nl Hf. unfold sthen. destruct out as [x|y].
  - destruct (Ho x eq_refl) as (I & Er & A & N). specialize (Hf x A I Er N). destruct (f x) as (ev', (log', out')). destruct Hf as (G' & Af' & Ho').
    cbn [ended as_far] in Af. subst ev. split; auto. split; auto. destruct out' as [x'|y]; cbn [ended as_far] in *; [congruence|].
    destruct Af' as (e & rest & ->). exists e, rest. now rewrite app_assoc.
  - split; auto. split; [|discriminate]. cbn [ended as_far] in *. destruct Af as (e & rest & ->). exists e, (rest ++ l'). now rewrite <- app_assoc.
Qed.
Lemma start_form x R A x1 : Pre x -> network (hp x) R A -> top R = rt x -> form x = Ok x1 ->
  Inv x1 /\ rt x1 = top R /\ exists A1, network (hp x1) R A1.
Proof.
  intros P N Et E. destruct (H_form x x1 P E) as (I & Er & Q). split; auto. split; [congruence|].
  destruct (Inv_net x1 I) as (R1 & A1 & N1 & E1). exists A1. assert (R1 = R) as <-; auto.
  apply (hangs_det K (hp x1) R1 None R); [apply N1| |congruence]. eapply hangs_same; [|apply N]. intros t. destruct (Q t). auto.
Qed.
Lemma net_facts (h : heap K) R A : network h R A -> S (length (ids R)) <= fuel ->
  hangs h None R /\ no_self_slot h /\ oriented h None R /\ NoDup (ids R) /\ height R <= fuel /\ inner R = true.
Proof.
  intros (_ & _ & NS & H & Or & _) Hf. split; auto. split; auto. split; auto. split; [eapply hangs_nodup; eauto|]. split; [pose proof (size_height R); lia|].
  destruct R; [inversion H|reflexivity].
Qed.

Definition one_list (R : tree) (tau : T) (b : bool) : list (event T) :=
  if b then Node (top R) tau :: bwd T opp tau R else fwd T opp tau R ++ [Node (top R) tau].
Lemma one_list_nil R tau b : one_list R tau b <> [].
Proof. destruct b; [discriminate|]. unfold one_list. destruct (fwd T opp tau R); discriminate. Qed.
Lemma one_list_order (h : heap K) R A tau b : network h R A -> S (length (ids R)) <= fuel -> one_site_order opp R tau b (one_list R tau b).
Proof.
  intros N Hf. destruct (net_facts h R A N Hf) as (H & NS & Or & ND & Hh & Hi).
  destruct (split_step_ok K T opp tau h R fuel H Or ND Hh Hi) as ((l & E & Q) & (l' & E' & Q')).
  rewrite (split_step_run K T opp tau h R fuel) in E, E' by auto. injection E as <-. injection E' as <-. destruct b; [exact Q'|exact Q].
Qed.
Lemma cut_short R l e : l <> [] -> achieves R l (sfail e).
Proof. intros Nl. split; auto. split; [|discriminate]. destruct l as [|a l]; [congruence|]. exists a, l. reflexivity. Qed.
Lemma one_achieves x R A tau b : Pre x -> network (hp x) R A -> top R = rt x ->
  achieves R (one_list R tau b) (one_site opp fuel hp rt form prop mv tau b x).
Proof.
  intros P N Et. pose proof (Pre_fuel x R A P N Et) as Hf. destruct (form x) as [x1|e] eqn:E.
  - destruct (start_form x R A x1 P N Et E) as (I1 & Er & A1 & N1). apply (rel_achieves R (hp x1) A1); auto.
    destruct (net_facts (hp x1) R A1 N1 Hf) as (H & NS & Or & ND & Hh & Hi).
    pose proof (split_step_run K T opp tau (hp x1) R fuel b H Or ND Hh Hi) as Es.
    assert (W : Rel K T X L hp rt Inv good R (hp x1) (split_step opp fuel tau b (hp x1, rt x1)) (one_site opp fuel hp rt form prop mv tau b x)).
    { eapply one_sim; eauto. }
    rewrite Er in W. rewrite Es in W. exact W.
  - unfold one_site. rewrite E. apply cut_short. apply one_list_nil.
Qed.
Lemma second_achieves x R A tau : Pre x -> network (hp x) R A -> top R = rt x ->
  achieves R (one_list R (half_of tau) false ++ one_list R (half_of tau) true)
    (second_order half_of (one_site opp fuel hp rt form prop mv) tau x).
Proof.
  intros P N Et. unfold second_order. apply achieves_then; [eapply one_achieves; eauto|apply one_list_nil|].
  intros x' A' I Er N'. eapply one_achieves; eauto.
Qed.
Lemma second_list_order (h : heap K) R A tau : network h R A -> S (length (ids R)) <= fuel ->
  second_order_order opp half_of R tau (one_list R (half_of tau) false ++ one_list R (half_of tau) true).
Proof.
  intros N Hf. destruct (net_facts h R A N Hf) as (H & NS & Or & ND & Hh & Hi).
  destruct (split_snd K T opp half_of h R fuel tau H Or ND Hh Hi) as (l & E & Q). unfold snd_order_step in E.
  rewrite (split_step_run K T opp _ h R fuel) in E by auto. cbn [andthen] in E. rewrite (split_step_run K T opp _ h R fuel) in E by auto.
  cbn in E. injection E as <-. exact Q.
Qed.
Lemma rtr_nil so R tau : inner R = true -> rtr T opp half_of so R tau <> [].
Proof.
  destruct R as [|n ks]; [discriminate|]. intros _. cbn [rtr]. destruct so; intros E.
  - apply app_eq_nil in E. destruct E as (_ & E). discriminate.
  - apply app_eq_nil in E. destruct E as (_ & E). discriminate.
Qed.
Lemma rtr_pairs so : forall R tau, pair_props (rtr T opp half_of so R tau) = [].
Proof.
  assert (Z : forall (l : list (event T)), (forall e t, ~ In (Pair e t) l) -> pair_props l = []).
  { induction l as [|a l IH]; intros H; auto. assert (E : pair_props l = []) by (apply IH; intros e' t' Q; apply (H e' t'); right; exact Q).
    destruct a as [n t|e t|e t|e]; [exact E|exact E|exfalso; apply (H e t); left; auto|exact E]. }
  intros R tau. apply Z. revert tau. induction R as [n|n ks IH] using tree_ind'; intros tau e t Hin; [destruct Hin|]. rewrite Forall_forall in IH. cbn [rtr] in Hin.
  apply in_app_iff in Hin. destruct Hin as [Hin|[Hin|Hin]]; [|discriminate|destruct so; [|destruct Hin]];
    apply in_flat_map in Hin; destruct Hin as (k & Hk & Hin); (destruct (inner (k_t k)); [|destruct Hin]);
    (destruct Hin as [Hin|Hin]; [discriminate|]); apply in_app_iff in Hin; (destruct Hin as [Hin|[Hin|[]]]; [eapply IH; eauto|discriminate]).
Qed.
Lemma recursive_achieves x R A so tau : Pre x -> network (hp x) R A -> top R = rt x ->
  achieves R (rtr T opp half_of so R tau) (recursive_step opp half_of fuel hp rt form prop mv so tau x).
Proof.
  intros P N Et. pose proof (Pre_fuel x R A P N Et) as Hf. destruct (form x) as [x1|e] eqn:E.
  - destruct (start_form x R A x1 P N Et E) as (I1 & Er & A1 & N1). apply (rel_achieves R (hp x1) A1); auto.
    destruct (net_facts (hp x1) R A1 N1 Hf) as (H & NS & Or & ND & Hh & Hi).
    pose proof (rtr_run K T opp half_of so R None (hp x1) tau fuel H Or ND Hh Hi) as Es.
    assert (W : Rel K T X L hp rt Inv good R (hp x1) (r_split_step opp half_of so fuel tau (hp x1, rt x1)) (recursive_step opp half_of fuel hp rt form prop mv so tau x)).
    { eapply recursive_step_sim; eauto. }
    rewrite Er in W. unfold r_split_step in W. cbn [snd option_map] in W, Es. rewrite Es in W. exact W.
  - unfold recursive_step. rewrite E. apply cut_short. apply rtr_nil. eapply net_facts; eauto.
Qed.

(** The backward two-site step starts with a tensor that is not the root. *)
Hypothesis refuses : forall tau t x, oaxis (hget (hp x) t) <> None -> prop tau t x = ([], Raise RuntimeError).
Lemma two_back x R A tau : Pre x -> network (hp x) R A -> top R = rt x -> inner_edges R <> [] ->
  exists e, two_site opp fuel hp rt form prop mv tau true x = ([], ([], Raise e)) /\ (e = RuntimeError \/ form x = Raise e).
Proof.
  intros P N Et Ne. pose proof (Pre_fuel x R A P N Et) as Hf. unfold two_site. destruct (form x) as [x1|e] eqn:E; [|exists e; auto].
  exists RuntimeError. split; auto. destruct (start_form x R A x1 P N Et E) as (I1 & Er & A1 & N1).
  destruct (net_facts (hp x1) R A1 N1 Hf) as (H & NS & Or & ND & Hh & Hi). destruct R as [n|n ks]; [now destruct Ne|]. cbn [top] in *. rewrite Er.
  assert (Ax : oaxis (hget (hp x1) n) = None) by (inversion Or; subst; auto; discriminate).
  rewrite Ax. pose proof (decorated_hangs K (hp x1) (Nd n ks) None fuel false H Hh) as Ed. pose proof (visitor_hangs K (hp x1) (Nd n ks) None fuel false H Hh) as Ev.
  cbn [option_map top] in Ed, Ev. rewrite Ed, Ev.
  assert (Q : exists k rest, In k ks /\ inner (k_t k) = true /\ rev (tour false (Nd n ks)) = (true, (top (k_t k), k_j k, n, k_i k)) :: rest).
  { cbn [tour orb]. cbn [inner_edges] in Ne. clear -Ne. induction ks as [|k ks IH] using rev_ind; [now destruct Ne|].
    rewrite flat_map_app in Ne |- *. rewrite rev_app_distr. cbn [flat_map] in *.
    destruct (inner (k_t k)) eqn:Ei.
    - exists k. eexists. split; [apply in_app_iff; right; left; auto|]. split; auto.
      rewrite app_nil_r. cbn [rev]. rewrite rev_app_distr. cbn [rev app]. reflexivity.
    - rewrite !app_nil_r in Ne. destruct (IH Ne) as (k' & rest & Hk' & E). cbn [rev app]. exists k', rest.
      split; auto. apply in_app_iff; auto. }
  destruct Q as (k & rest & Hk & Ei & ->). cbn [cforeach two_backward].
  assert (Nn : top (k_t k) <> n).
  { intros X0. cbn [ids] in ND. apply NoDup_cons_iff in ND. apply ND. apply in_flat_map. exists k. split; auto. rewrite <- X0. destruct (k_t k); left; auto. }
  rewrite (proj2 (Nat.eqb_neq _ _) Nn). cbn [negb orb]. unfold sprop. rewrite refuses; [reflexivity|].
  inversion Or as [|? ? ? _ F]; subst. rewrite Forall_forall in F. specialize (F k Hk). destruct (k_t k); [discriminate|]. inversion F; subst. cbn [top]. congruence.
Qed.
(** The forward two-site step. *)
Hypothesis H_unite : forall x R A n i j op l r, Inv x -> network (hp x) R A -> top R = rt x ->
  dget (oacc (hget (hp x) n)) i = Some (rt x, j) -> oleaf (hget (hp x) n) = false -> mv n i op true x = (l, r) ->
  good l /\ forall x', r = Ok x' -> Inv x' /\ rt x' = rt x /\ shifted K (hp x) R n i (rt x) (hp x').
Lemma two_list_order (h : heap K) R A tau : network h R A -> S (length (ids R)) <= fuel -> two_site_order opp R tau (utr T opp tau true R).
Proof.
  intros N Hf. destruct (net_facts h R A N Hf) as (H & NS & Or & ND & Hh & Hi).
  split; [apply utr_follows|]. split; [apply utr_pairs|]. split; [eapply utr_degree; eauto|]. apply utr_bonds.
Qed.
Lemma two_list_nil R tau : inner_edges R <> [] -> utr T opp tau true R <> [].
Proof. intros Ne E. pose proof (utr_pairs T opp tau R true) as P. rewrite E in P. apply Permutation_nil in P. apply Ne. destruct (inner_edges R); [auto|discriminate]. Qed.
Lemma two_achieves x R A tau : Pre x -> network (hp x) R A -> top R = rt x -> inner_edges R <> [] ->
  achieves R (utr T opp tau true R) (two_site opp fuel hp rt form prop mv tau false x).
Proof.
  intros P N Et Ne. pose proof (Pre_fuel x R A P N Et) as Hf. destruct (form x) as [x1|e] eqn:E.
  - destruct (start_form x R A x1 P N Et E) as (I1 & Er & A1 & N1). apply (rel_achieves R (hp x1) A1); auto.
    destruct (net_facts (hp x1) R A1 N1 Hf) as (H & NS & Or & ND & Hh & Hi).
    pose proof (unite_step_run K T opp (hp x1) R fuel tau H Or ND Hh Hi) as Es.
    assert (W : Rel K T X L hp rt Inv good R (hp x1) (unite_step opp fuel tau false (hp x1, rt x1)) (two_site opp fuel hp rt form prop mv tau false x)).
    { eapply two_sim; eauto. }
    rewrite Er in W. rewrite Es in W. exact W.
  - unfold two_site. rewrite E. apply cut_short. apply two_list_nil; auto.
Qed.
(** Of second order: the forward half, and never an end. *)
Lemma two_second x R A tau ev log out : Pre x -> network (hp x) R A -> top R = rt x -> inner_edges R <> [] ->
  second_order half_of (two_site opp fuel hp rt form prop mv) tau x = (ev, (log, out)) ->
  good log /\ (exists rest, utr T opp (half_of tau) true R = ev ++ rest) /\ exists e, out = Raise e.
Proof.
  intros P N Et Ne. unfold second_order. pose proof (two_achieves x R A (half_of tau) P N Et Ne) as H.
  destruct (two_site opp fuel hp rt form prop mv (half_of tau) false x) as (ev1, (log1, [x1|e])); unfold sthen.
  - destruct H as (G & Af & Ho). destruct (Ho x1 eq_refl) as (I & Er & A1 & N1). cbn [ended as_far] in Af. subst ev1.
    destruct (two_back x1 R A1 (half_of tau) (Pre_inv x1 I) N1 (eq_sym Er) Ne) as (e & E & _). rewrite E. intros Q. injection Q as <- <- <-.
    split; [rewrite app_nil_r; auto|]. split; [exists []; rewrite !app_nil_r; auto|eauto].
  - destruct H as (G & Af & _). intros Q. injection Q as <- <- <-. split; auto. split; [|eauto]. cbn [ended as_far] in Af. destruct Af as (a & rest & ->). eauto.
Qed.
End Machine.

(** ** /repo/minitn/algorithms/ml.py *)
Section MlRun.
Variable K : StarRing.
Variable D : Type.
Variable sys : system K D.
Variable fuel : nat.
Variables csvd1 csvd2 : arr K -> res (arr K * arr K * arr K).
Hypothesis Sv1 : some_svd csvd1.
Hypothesis Sv2 : some_svd csvd2.
Variable calls : nat -> list (call K D).
Variable clock : nat -> D.
Variable bc : bool.
Variable T : Type.
Definition ml_inv (x : Step_Model.counted K) : Prop := CacheMove_Proof.steady K D sys fuel (fst x).
Definition ml_pre (x : Step_Model.counted K) : Prop := exists R A, network (cheap x) R A /\ top R = croot x /\ S (length (ids R)) <= fuel.
Lemma ml_net x : ml_inv x -> exists R A, network (cheap x) R A /\ top R = croot x.
Proof.
  intros (R & A & N & Rd & _). exists R, A. split; auto. destruct (CacheExact_Proof.rd_top K D sys fuel R _ Rd) as (ks & -> & _). auto.
Qed.
Lemma ml_pre_inv x : ml_inv x -> ml_pre x.
Proof.
  intros (R & A & N & Rd & Hf). exists R, A. split; auto. split; auto. destruct (CacheExact_Proof.rd_top K D sys fuel R _ Rd) as (ks & -> & _). auto.
Qed.
Lemma ml_pre_fuel x R A : ml_pre x -> network (cheap x) R A -> top R = croot x -> S (length (ids R)) <= fuel.
Proof.
  intros (R' & A' & N' & Et' & Hf) N Et. assert (R' = R) as <-; auto. apply (hangs_det K (cheap x) R' None R); [apply N'|apply N|congruence].
Qed.
Lemma ml_form_ok x x' : ml_pre x -> ml_form K D sys fuel clock x = Ok x' -> ml_inv x' /\ croot x' = croot x /\
  (forall t, oacc (hget (cheap x') t) = oacc (hget (cheap x) t) /\ oleaf (hget (cheap x') t) = oleaf (hget (cheap x) t)).
Proof.
  intros (R & A & N & Et & Hf) E. unfold ml_form in E. destruct (form_env K D sys fuel false (clock (snd x)) (fst x)) as [s|] eqn:Ef; [|discriminate]. injection E as <-.
  split; [eapply CacheMove_Proof.form_steady; eauto|]. apply form_frame in Ef. destruct Ef as ((_ & C) & Ro & _). split; auto.
  intros t. destruct (C t) as (P1 & P2 & P3 & P4 & P5 & _). auto.
Qed.
Lemma ml_prop_ok (tau : T) x l r : ml_inv x -> ml_prop K D sys fuel calls tau (croot x) x = (l, r) ->
  CacheExact_Proof.good K D sys fuel l /\ forall x', r = Ok x' -> ml_inv x' /\ croot x' = croot x /\ length (cheap x') = length (cheap x) /\
    (forall t, oacc (hget (cheap x') t) = oacc (hget (cheap x) t) /\ oleaf (hget (cheap x') t) = oleaf (hget (cheap x) t) /\ oaxis (hget (cheap x') t) = oaxis (hget (cheap x) t)).
Proof.
  intros (R & A & N & Rd & Hf) E. unfold ml_prop, count in E.
  destruct (Cache_Model.split_prop K D sys fuel (croot x) true (calls (snd x)) (fst x)) as (l1, r1) eqn:Ep. cbn [fst snd] in E. injection E as <- <-.
  pose proof Rd as Rd'. destruct x as (s, k). cbn [fst snd] in *. destruct s as [hh rr en]. unfold cheap, croot in *. cbn [fst snd] in *.
  destruct (CacheExact_Proof.prop_ready K D sys fuel R (mkState K hh rr en) rr true (calls k) l1 r1 Rd Ep) as (G & H). split; auto.
  intros x' E'. destruct r1 as [s'|]; [|discriminate]. injection E' as <-. destruct (H s' eq_refl) as (Rd1 & Er & Nr). cbn [fst]. split.
  - apply (CacheMove_Proof.steady_near K D sys fuel (mkState K hh rr en) s' R A); auto.
    destruct (CacheExact_Proof.rd_top K D sys fuel R _ Rd) as (ks & -> & _). auto.
  - split; auto. destruct Nr as (L & _ & _ & At & _). split; auto. intros t. destruct (At t) as (_ & Q1 & Q2 & _ & Q3). auto.
Qed.
Lemma ml_move_ok x R A i e j (op : option T) uf l r : ml_inv x -> network (cheap x) R A -> top R = croot x ->
  dget (oacc (hget (cheap x) (croot x))) i = Some (e, j) -> oleaf (hget (cheap x) e) = false -> ml_move K D sys fuel csvd1 csvd2 calls bc (croot x) i op uf x = (l, r) ->
  CacheExact_Proof.good K D sys fuel l /\ forall x', r = Ok x' -> ml_inv x' /\ croot x' = e /\ shifted K (cheap x) R (croot x) i e (cheap x').
Proof.
  intros (R' & A' & N' & Rd & Hf) N Et Eg Le E. assert (R' = R) as ->.
  { apply (hangs_det K (cheap x) R' None R); [apply N'|apply N|]. destruct (CacheExact_Proof.rd_top K D sys fuel R' _ Rd) as (ks & -> & _). cbn. auto. }
  unfold ml_move, count in E. destruct (Cache_Model.move _ _ _ _ _ _ _ _ _ _ _) as (l1, r1) eqn:Em. cbn [fst snd] in E. injection E as <- <-.
  destruct (CacheMove_Proof.move_steady K D sys fuel csvd1 csvd2 Sv1 Sv2 (fst x) R A i e j _ uf l1 r1 N Rd Hf Eg Le Em) as (G & H). split; auto.
  intros x' E'. destruct r1 as [s'|]; [|discriminate]. injection E' as <-. apply (H s' eq_refl).
Qed.
Lemma ml_unite_ok x R A n i j (op : option T) l r : ml_inv x -> network (cheap x) R A -> top R = croot x ->
  dget (oacc (hget (cheap x) n)) i = Some (croot x, j) -> oleaf (hget (cheap x) n) = false -> ml_move K D sys fuel csvd1 csvd2 calls bc n i op true x = (l, r) ->
  CacheExact_Proof.good K D sys fuel l /\ forall x', r = Ok x' -> ml_inv x' /\ croot x' = croot x /\ shifted K (cheap x) R n i (croot x) (cheap x').
Proof.
  intros (R' & A' & N' & Rd & Hf) N Et Eg Le E. assert (R' = R) as ->.
  { apply (hangs_det K (cheap x) R' None R); [apply N'|apply N|]. destruct (CacheExact_Proof.rd_top K D sys fuel R' _ Rd) as (ks & -> & _). cbn. auto. }
  unfold ml_move, count in E. destruct (Cache_Model.move _ _ _ _ _ _ _ _ _ _ _) as (l1, r1) eqn:Em. cbn [fst snd] in E. injection E as <- <-.
  destruct (CacheMove_Proof.unite_steady K D sys fuel csvd1 csvd2 Sv2 (fst x) R A n i j _ l1 r1 N Rd Hf Eg Le Em) as (G & H). split; auto.
  intros x' E'. destruct r1 as [s'|]; [|discriminate]. injection E' as <-. apply (H s' eq_refl).
Qed.
End MlRun.

(** ** /repo/minitn/heom/propagate2.py *)
Section PsRun.
Variable K : StarRing.
Variable hl : list (list (id * arr K)).
Variable fuel : nat.
Variables csvd1 csvd2 : arr K -> res (arr K * arr K * arr K).
Hypothesis Sv1 : some_svd csvd1.
Hypothesis Sv2 : some_svd csvd2.
Variable answers : nat -> list (list K) * list K.
Variable T : Type.
Definition ps_inv (x : Step_Model.counted K) : Prop := PsMove_Proof.steady K hl fuel (fst x).
Definition ps_pre (x : Step_Model.counted K) : Prop := exists R A, network (cheap x) R A /\ top R = croot x /\ S (length (ids R)) <= fuel /\ seated (cheap x) hl.
Lemma ps_pre_inv x : ps_inv x -> ps_pre x.
Proof.
  intros (R & A & N & Rd & Hf). exists R, A. split; auto. destruct (Ps_Proof.rd_top K hl fuel R _ Rd) as (ks & -> & _). split; auto. split; auto. apply Rd.
Qed.
Lemma ps_net x : ps_inv x -> exists R A, network (cheap x) R A /\ top R = croot x.
Proof. intros I. destruct (ps_pre_inv x I) as (R & A & N & Et & _). eauto. Qed.
Lemma ps_pre_fuel x R A : ps_pre x -> network (cheap x) R A -> top R = croot x -> S (length (ids R)) <= fuel.
Proof.
  intros (R' & A' & N' & Et' & Hf & _) N Et. assert (R' = R) as <-; auto. apply (hangs_det K (cheap x) R' None R); [apply N'|apply N|congruence].
Qed.
Lemma ps_form_ok x x' : ps_pre x -> ps_form K hl fuel x = Ok x' -> ps_inv x' /\ croot x' = croot x /\
  (forall t, oacc (hget (cheap x') t) = oacc (hget (cheap x) t) /\ oleaf (hget (cheap x') t) = oleaf (hget (cheap x) t)).
Proof.
  intros (R & A & N & Et & Hf & Se) E. unfold ps_form in E. destruct (Ps_Model.form_env K hl fuel (fst x)) as [s|] eqn:Ef; [|discriminate]. injection E as <-.
  split; [eapply PsMove_Proof.form_steady; eauto|].
  pose proof N as (_ & _ & NS & H & Or & _). destruct (network_top K R A _ N) as (ks & ER & Ek). rewrite Et in ER. rewrite ER in Or.
  destruct (Ps_Proof.form_ready K hl fuel R (fst x) s) as (_ & Nr); eauto; [eapply hangs_nodup; eauto|lia|apply (oriented_kids K _ _ _ _ Or)|].
  destruct Nr as (L & Ro & _ & At & _). split; auto. intros t. destruct (At t) as (_ & Q1 & _ & _ & Q2). auto.
Qed.
Lemma ps_prop_ok (tau : T) x l r : ps_inv x -> ps_prop K hl fuel answers tau (croot x) x = (l, r) ->
  Ps_Proof.good K hl fuel l /\ forall x', r = Ok x' -> ps_inv x' /\ croot x' = croot x /\ length (cheap x') = length (cheap x) /\
    (forall t, oacc (hget (cheap x') t) = oacc (hget (cheap x) t) /\ oleaf (hget (cheap x') t) = oleaf (hget (cheap x) t) /\ oaxis (hget (cheap x') t) = oaxis (hget (cheap x) t)).
Proof.
  intros (R & A & N & Rd & Hf) E. unfold ps_prop, count in E.
  destruct (Ps_Model.single_prop K hl fuel (croot x) (fst (answers (snd x))) (snd (answers (snd x))) (fst x)) as (l1, r1) eqn:Ep. cbn [fst snd] in E. injection E as <- <-.
  destruct x as (s, k). cbn [fst snd] in *. destruct s as [hh rr en]. unfold cheap, croot in *. cbn [fst snd] in *.
  destruct (Ps_Proof.prop_ready K hl fuel R (mkState K hh rr en) rr _ _ l1 r1 Rd Ep) as (G & H). split; auto.
  intros x' E'. destruct r1 as [s'|]; [|discriminate]. injection E' as <-. destruct (H s' eq_refl) as (Rd1 & Er & Nr). cbn [fst]. split.
  - apply (PsMove_Proof.steady_near K hl fuel (mkState K hh rr en) s' R A); auto.
    destruct (Ps_Proof.rd_top K hl fuel R _ Rd) as (ks & -> & _). auto.
  - split; auto. destruct Nr as (L & _ & _ & At & _). split; auto. intros t. destruct (At t) as (_ & Q1 & Q2 & _ & Q3). auto.
Qed.
Lemma ps_move_ok x R A i e j (op : option T) uf l r : ps_inv x -> network (cheap x) R A -> top R = croot x ->
  dget (oacc (hget (cheap x) (croot x))) i = Some (e, j) -> oleaf (hget (cheap x) e) = false -> ps_move K hl fuel csvd1 csvd2 answers (croot x) i op uf x = (l, r) ->
  Ps_Proof.good K hl fuel l /\ forall x', r = Ok x' -> ps_inv x' /\ croot x' = e /\ shifted K (cheap x) R (croot x) i e (cheap x').
Proof.
  intros (R' & A' & N' & Rd & Hf) N Et Eg Le E. assert (R' = R) as ->.
  { apply (hangs_det K (cheap x) R' None R); [apply N'|apply N|]. destruct (Ps_Proof.rd_top K hl fuel R' _ Rd) as (ks & -> & _). cbn. auto. }
  unfold ps_move, count in E. destruct (Ps_Model.move _ _ _ _ _ _ _ _ _ _) as (l1, r1) eqn:Em. cbn [fst snd] in E. injection E as <- <-.
  destruct (PsMove_Proof.move_steady K hl fuel csvd1 csvd2 Sv1 Sv2 (fst x) R A i e j _ uf l1 r1 N Rd Hf Eg Le Em) as (G & H). split; auto.
  intros x' E'. destruct r1 as [s'|]; [|discriminate]. injection E' as <-. apply (H s' eq_refl).
Qed.
Lemma ps_unite_ok x R A n i j (op : option T) l r : ps_inv x -> network (cheap x) R A -> top R = croot x ->
  dget (oacc (hget (cheap x) n)) i = Some (croot x, j) -> oleaf (hget (cheap x) n) = false -> ps_move K hl fuel csvd1 csvd2 answers n i op true x = (l, r) ->
  Ps_Proof.good K hl fuel l /\ forall x', r = Ok x' -> ps_inv x' /\ croot x' = croot x /\ shifted K (cheap x) R n i (croot x) (cheap x').
Proof.
  intros (R' & A' & N' & Rd & Hf) N Et Eg Le E. assert (R' = R) as ->.
  { apply (hangs_det K (cheap x) R' None R); [apply N'|apply N|]. destruct (Ps_Proof.rd_top K hl fuel R' _ Rd) as (ks & -> & _). cbn. auto. }
  unfold ps_move, count in E. destruct (Ps_Model.move _ _ _ _ _ _ _ _ _ _) as (l1, r1) eqn:Em. cbn [fst snd] in E. injection E as <- <-.
  destruct (PsMove_Proof.unite_steady K hl fuel csvd1 csvd2 Sv2 (fst x) R A n i j _ l1 r1 N Rd Hf Eg Le Em) as (G & H). split; auto.
  intros x' E'. destruct r1 as [s'|]; [|discriminate]. injection E' as <-. apply (H s' eq_refl).
Qed.
End PsRun.

(** ** The generator *)
Section Loop.
Variable K : StarRing.
Variable hl : list (list (id * arr K)).
Variable fuel : nat.
Variables csvd1 csvd2 : arr K -> res (arr K * arr K * arr K).
Hypothesis Sv1 : some_svd csvd1.
Hypothesis Sv2 : some_svd csvd2.
Variable answers : nat -> list (list K) * list K.
Variable Q : StarRing.
Variables half dt first : Q.
Variable R : tree.
Variable l : list (event Q).
Variable c : bool * bool.
Variable steps : option nat.
Variable root : id.
Notation reaches := (achieves K Q (Step_Model.counted K) (record K unit) cheap croot (ps_inv K hl fuel) (Ps_Proof.good K hl fuel) R l).
Hypothesis Hs : forall x A, ps_pre K hl fuel x -> network (cheap x) R A -> top R = croot x ->
  reaches (ps_step K hl fuel csvd1 csvd2 answers Q half c dt x).
Lemma loop_ok : forall calls n ev x A ys log st, ps_pre K hl fuel x -> network (cheap x) R A -> top R = croot x ->
  ps_loop K hl fuel csvd1 csvd2 answers Q half steps dt first c root calls n ev x = (ys, (log, st)) ->
  Ps_Proof.good K hl fuel log /\
  (forall m t r x' ev', nth_error ys m = Some (t, r, x', ev') ->
     t = (first + Propagate_Model.of_nat Q (n + m) * dt)%S /\ r = root /\ croot x' = top R /\ (exists A', network (cheap x') R A') /\
     (m = 0 -> x' = x /\ ev' = ev) /\ (0 < m -> ev' = l)) /\
  match st with
  | Propagate_Model.Stopped => exists N, steps = Some N /\ length ys = N - n /\ length ys < calls
  | Propagate_Model.Suspended => length ys = calls /\ forall N, steps = Some N -> length ys <= N - n
  | Propagate_Model.Failed _ => 0 < length ys < calls /\ forall N, steps = Some N -> length ys <= N - n
  end.
Proof.
  induction calls as [|calls IH]; intros n ev x A ys log st P N Et E.
  { cbn [ps_loop] in E. injection E as <- <- <-. split; [apply Ps_Proof.good_nil|]. split; [intros [|m]; discriminate|]. split; auto. intros; cbn; lia. }
  cbn [ps_loop] in E.
  destruct (match steps with None => false | Some m => m <=? n end) eqn:Eb.
  { injection E as <- <- <-. split; [apply Ps_Proof.good_nil|]. split; [intros [|m]; discriminate|]. destruct steps as [m|]; [|discriminate]. exists m.
    apply Nat.leb_le in Eb. cbn [length]. split; auto. split; lia. }
  assert (Bd : forall N0, steps = Some N0 -> n < N0) by (intros N0 ->; apply Nat.leb_gt in Eb; auto).
  assert (Z : forall t r x' ev', Some ((first + Propagate_Model.of_nat Q n * dt)%S, root, x, ev) = Some (t, r, x', ev') ->
     t = (first + Propagate_Model.of_nat Q (n + 0) * dt)%S /\ r = root /\ croot x' = top R /\ (exists A', network (cheap x') R A') /\
     (0 = 0 -> x' = x /\ ev' = ev) /\ (0 < 0 -> ev' = l)).
  { intros t r x' ev' X. injection X as <- <- <- <-. rewrite Nat.add_0_r. repeat (split; eauto). lia. }
  destruct calls as [|calls].
  { injection E as <- <- <-. split; [apply Ps_Proof.good_nil|]. split; [intros [|[|m]]; [exact Z|discriminate..]|]. split; auto.
    intros N0 EN. apply Bd in EN. cbn [length]. lia. }
  pose proof (Hs x A P N Et) as Ha. destruct (ps_step K hl fuel csvd1 csvd2 answers Q half c dt x) as (ev', (lg, out)). destruct Ha as (G & Af & Ho).
  destruct out as [x'|e].
  - destruct (Ho x' eq_refl) as (I & Er & A' & N'). cbn [ended as_far] in Af. subst ev'.
    destruct (ps_loop K hl fuel csvd1 csvd2 answers Q half steps dt first c root (S calls) (S n) l x') as (ys', (l', st')) eqn:El.
    injection E as <- <- <-. destruct (IH (S n) l x' A' ys' l' st' (ps_pre_inv K hl fuel x' I) N' ltac:(congruence) El) as (G' & Y & St).
    split; [apply Ps_Proof.good_app; auto|]. split.
    + intros [|m] t r x2 ev2 En; [apply (Z _ _ _ _ En)|]. cbn [nth_error] in En. destruct (Y m t r x2 ev2 En) as (Y1 & Y2 & Y3 & Y4 & Y5 & Y6).
      rewrite Nat.add_succ_r. split; auto. split; auto. split; auto. split; auto. split; [discriminate|]. intros _. destruct m as [|m]; [apply Y5; auto|apply Y6; lia].
    + destruct st'; cbn [length] in *.
      * destruct St as (St & B). split; [lia|]. intros N0 EN. pose proof (Bd N0 EN). specialize (B N0 EN). lia.
      * destruct St as (N0 & EN & B1 & B2). pose proof (Bd N0 EN). exists N0. split; auto. lia.
      * destruct St as (St & B). split; [lia|]. intros N0 EN. pose proof (Bd N0 EN). specialize (B N0 EN). lia.
  - injection E as <- <- <-. split; auto. split; [intros [|[|m]]; [exact Z|discriminate..]|]. cbn [length]. split; [lia|].
    intros N0 EN. apply Bd in EN. lia.
Qed.
End Loop.
