(** Property C91: the norm at the end of a forward step, and the networks that the generator of ml.py yields. *)
From Coq Require Import String Ascii List Arith ZArith Bool Lia Permutation.
From Verif Require Import Py Alg ListX NdArray_Model NdArray_Proof Contract_Model Net_Model Net_Spec Trav_Proof Acyc_Proof Env_Spec Env_Proof EnvThm_Proof
  Move_Spec Link_Spec Link_Proof State_Spec State_Proof Split_Proof Env_Prop Move_Prop Cache_Model Cache_Spec Cache_Proof CacheExact_Proof CacheMove_Proof Cache_Prop
  Ps_Spec Step_Model Sweep_Model Sweep_Spec Unite_Proof Rsplit_Proof Step_Spec Step_Proof StepRun_Proof Step_Prop Norm_Spec NormAlg_Proof Norm_Proof NormRun_Proof NormEnd_Proof Norm_Prop
  Last_Spec MlGen_Model MlGen_Proof.
From Verif Require Ps_Model Ps_Proof PsMove_Proof Ps_Prop Propagate_Model Propagate_Spec Propagate_Proof Propagate_Prop.
Import ListNotations.
Local Open Scope nat_scope.
Local Open Scope list_scope.

(** ** One step *)
(** A forward one-site step that returns leaves a state with the norm of the last answer of the solver, whatever the
    other answers are, whatever the norm was before, and also when the decompositions are cut. *)
Theorem C91_one_site_step :
  forall (K : StarRing) hl fuel csvd1 csvd2 answers T (opp : T -> T) (s : Cache_Model.state K) k R A tau ev log s' k',
    cut_svd csvd1 -> cut_svd csvd2 ->
    network (sheap K s) R A -> top R = sroot K s -> S (length (ids R)) <= fuel -> seated (sheap K s) hl ->
    canonical_about (sheap K s) R A ->
    one_site_step hl fuel csvd1 csvd2 answers opp tau false (s, k) = (ev, (log, Ok (s', k'))) ->
    sroot K s' = top R /\ exists q A', k' = S q /\ network (sheap K s') R A' /\ canonical_about (sheap K s') R A' /\ state_norm R A' = sqnorm (snd (answers q)).
Proof.
  intros K hl fuel csvd1 csvd2 answers T opp s k R A tau ev log s' k' V1 V2 N Et Hf Se C E.
  destruct (C90_one_site_step K hl fuel csvd1 csvd2 answers T opp s k R A tau false ev log s' k' V1 V2 N Et Hf Se C E) as (A' & N' & C' & _).
  assert (Er : sroot K s' = top R).
  { assert (P : psn_pre K hl fuel None (s, k)) by (split; [exists R, A; auto|unfold croot, cheap; cbn [fst]; rewrite <- Et; apply (held_start K None _ R A); auto; exact Logic.I]).
    assert (S1 : svd_for K None csvd1) by (split; auto; congruence). assert (S2 : svd_for K None csvd2) by (split; auto; congruence).
    pose proof (one_achieves K T opp fuel _ _ cheap croot (ps_form K hl fuel) (ps_prop K hl fuel answers) (ps_move K hl fuel csvd1 csvd2 answers)
    (psn_inv K hl fuel None) (Ps_Proof.good K hl fuel) (Ps_Proof.good_nil K hl fuel) (Ps_Proof.good_app K hl fuel) (psn_net K hl fuel None)
    (psn_prop_ok K hl fuel None answers (fun _ => Logic.I) T) (psn_move_ok K hl fuel csvd1 csvd2 None S1 S2 answers (fun _ => Logic.I) T) (psn_pre K hl fuel None) (psn_pre_fuel K hl fuel None) (psn_form_ok K hl fuel None)
    (s, k) R A tau false P N Et) as W. unfold one_site_step in E. rewrite E in W. destruct W as (_ & _ & Ho). destruct (Ho (s', k') eq_refl) as (_ & Er & _). exact Er. }
  split; auto. unfold one_site_step in E. apply one_last in E. destruct E as (x & l & t & E). destruct (ps_last K hl fuel answers T tau t x l (s', k') E) as (Rt & Ek & Nm).
  cbn [fst snd] in Ek, Nm. change (croot (s', k')) with (sroot K s') in Rt. exists (snd x), A'. split; auto. split; auto. split; auto.
  apply (norm_at_end K s' R A'); auto. rewrite <- Er, Rt. exact Nm.
Qed.
Print Assumptions C91_one_site_step.

(** [split_step] of ml.py, forward: the norm of the last vector that [updater] is given. *)
Theorem C91_split_step :
  forall (K : StarRing) D (sys : system K D) fuel csvd1 csvd2 calls clock T (opp : T -> T) (s : Cache_Model.state K) k R A tau ev log s' k',
    cut_svd csvd1 -> cut_svd csvd2 ->
    network (sheap K s) R A -> top R = sroot K s -> S (length (ids R)) <= fuel ->
    canonical_about (sheap K s) R A ->
    split_step sys fuel csvd1 csvd2 calls clock opp tau false (s, k) = (ev, (log, Ok (s', k'))) ->
    sroot K s' = top R /\ exists q A', k' = S q /\ network (sheap K s') R A' /\ canonical_about (sheap K s') R A' /\
      forall y, last_update (calls q) y -> state_norm R A' = sqnorm y.
Proof.
  intros K D sys fuel csvd1 csvd2 calls clock T opp s k R A tau ev log s' k' V1 V2 N Et Hf C E.
  destruct (C90_split_step K D sys fuel csvd1 csvd2 calls clock T opp s k R A tau false ev log s' k' V1 V2 N Et Hf C E) as (A' & N' & C' & _).
  assert (Er : sroot K s' = top R).
  { assert (P : mln_pre K fuel None (s, k)) by (split; [exists R, A; auto|unfold croot, cheap; cbn [fst]; rewrite <- Et; apply (held_start K None _ R A); auto; exact Logic.I]).
    assert (S1 : svd_for K None csvd1) by (split; auto; congruence). assert (S2 : svd_for K None csvd2) by (split; auto; congruence).
    assert (Oa : forall k, Forall (call_ok K D None) (calls k)) by (intros q; apply Forall_forall; intros [] _; exact Logic.I).
    pose proof (one_achieves K T opp fuel _ _ cheap croot (ml_form K D sys fuel clock) (ml_prop K D sys fuel calls) (ml_move K D sys fuel csvd1 csvd2 calls true)
    (mln_inv K D sys fuel None) (CacheExact_Proof.good K D sys fuel) (CacheExact_Proof.good_nil K D sys fuel) (CacheExact_Proof.good_app K D sys fuel) (mln_net K D sys fuel None)
    (mln_prop_ok K D sys fuel None calls Oa T) (mln_move_ok K D sys fuel csvd1 csvd2 None S1 S2 calls Oa true T) (mln_pre K fuel None) (mln_pre_fuel K fuel None) (mln_form_ok K D sys fuel None clock)
    (s, k) R A tau false P N Et) as W. unfold split_step in E. rewrite E in W. destruct W as (_ & _ & Ho). destruct (Ho (s', k') eq_refl) as (_ & Er & _). exact Er. }
  split; auto. unfold split_step in E. apply one_last in E. destruct E as (x & l & t & E).
  assert (Q : forall y, last_update (calls (snd x)) y -> oleaf (hget (sheap K s') t) = false -> croot (s', k') = t /\ k' = S (snd x) /\ normed K (Some (sqnorm y)) t s').
  { intros y Hy Lf. apply (ml_last K D sys fuel calls T tau t x l (s', k') y E Lf Hy). }
  assert (Ek : k' = S (snd x) /\ sroot K s' = t).
  { unfold ml_prop, count in E. destruct (Cache_Model.split_prop _ _ _ _ _ _ _ _) as (l1, r1) eqn:Ep. cbn [fst snd] in E. injection E as _ E. destruct r1 as [s1|]; [|discriminate]. injection E as <- <-. split; auto.
    unfold Cache_Model.split_prop in Ep. destruct (negb _); [discriminate|]. apply calls_near in Ep. apply Ep. }
  destruct Ek as (Ek & Rt). exists (snd x), A'. split; auto. split; auto. split; auto. intros y Hy.
  destruct (root_array K _ R A' (top R) N' eq_refl) as (_ & _ & _ & Lf). rewrite <- Er, Rt in Lf. destruct (Q y Hy Lf) as (_ & _ & Nm).
  apply (norm_at_end K s' R A'); auto. rewrite <- Er, Rt. exact Nm.
Qed.
Print Assumptions C91_split_step.

(** [r_split_step] of first order. *)
Theorem C91_recursive_step :
  forall (K : StarRing) D (sys : system K D) fuel csvd1 csvd2 calls clock T (opp half_of : T -> T) (s : Cache_Model.state K) k R A tau ev log s' k',
    cut_svd csvd1 -> cut_svd csvd2 ->
    network (sheap K s) R A -> top R = sroot K s -> S (length (ids R)) <= fuel ->
    canonical_about (sheap K s) R A ->
    r_split_step sys fuel csvd1 csvd2 calls clock opp half_of false tau (s, k) = (ev, (log, Ok (s', k'))) ->
    sroot K s' = top R /\ exists q A', k' = S q /\ network (sheap K s') R A' /\ canonical_about (sheap K s') R A' /\
      forall y, last_update (calls q) y -> state_norm R A' = sqnorm y.
Proof.
  intros K D sys fuel csvd1 csvd2 calls clock T opp half_of s k R A tau ev log s' k' V1 V2 N Et Hf C E.
  destruct (C90_recursive_step K D sys fuel csvd1 csvd2 calls clock T opp half_of false s k R A tau ev log s' k' V1 V2 N Et Hf C E) as (A' & N' & C' & _).
  assert (Er : sroot K s' = top R).
  { assert (P : mln_pre K fuel None (s, k)) by (split; [exists R, A; auto|unfold croot, cheap; cbn [fst]; rewrite <- Et; apply (held_start K None _ R A); auto; exact Logic.I]).
    assert (S1 : svd_for K None csvd1) by (split; auto; congruence). assert (S2 : svd_for K None csvd2) by (split; auto; congruence).
    assert (Oa : forall k, Forall (call_ok K D None) (calls k)) by (intros q; apply Forall_forall; intros [] _; exact Logic.I).
    pose proof (recursive_achieves K T opp half_of fuel _ _ cheap croot (ml_form K D sys fuel clock) (ml_prop K D sys fuel calls) (ml_move K D sys fuel csvd1 csvd2 calls false)
    (mln_inv K D sys fuel None) (CacheExact_Proof.good K D sys fuel) (CacheExact_Proof.good_nil K D sys fuel) (CacheExact_Proof.good_app K D sys fuel) (mln_net K D sys fuel None)
    (mln_prop_ok K D sys fuel None calls Oa T) (mln_move_ok K D sys fuel csvd1 csvd2 None S1 S2 calls Oa false T) (mln_pre K fuel None) (mln_pre_fuel K fuel None) (mln_form_ok K D sys fuel None clock)
    (s, k) R A false tau P N Et) as W. unfold r_split_step in E. rewrite E in W. destruct W as (_ & _ & Ho). destruct (Ho (s', k') eq_refl) as (_ & Er & _). exact Er. }
  split; auto. unfold r_split_step in E. apply recursive_last in E. destruct E as (x & l & t & E).
  assert (Ek : k' = S (snd x) /\ sroot K s' = t).
  { pose proof E as E1. unfold ml_prop, count in E1. destruct (Cache_Model.split_prop _ _ _ _ _ _ _ _) as (l1, r1) eqn:Ep. cbn [fst snd] in E1. injection E1 as _ E1. destruct r1 as [s1|]; [|discriminate]. injection E1 as <- <-. split; auto.
    unfold Cache_Model.split_prop in Ep. destruct (negb _); [discriminate|]. apply calls_near in Ep. apply Ep. }
  destruct Ek as (Ek & Rt). exists (snd x), A'. split; auto. split; auto. split; auto. intros y Hy.
  destruct (root_array K _ R A' (top R) N' eq_refl) as (_ & _ & _ & Lf). rewrite <- Er, Rt in Lf.
  destruct (ml_last K D sys fuel calls T tau t x l (s', k') y E Lf Hy) as (_ & _ & Nm).
  apply (norm_at_end K s' R A'); auto. rewrite <- Er, Rt. exact Nm.
Qed.
Print Assumptions C91_recursive_step.

(** ** The generator of ml.py *)
Lemma act_run (K Q : StarRing) D (f : Step_Model.counted K -> srun Q (Step_Model.counted K) (record K D)) x x' :
  as_act f x = (x', None) -> exists ev log, f x = (ev, (log, Ok x')).
Proof. unfold as_act. destruct (f x) as (ev, (log, [x1|e])); cbn [snd]; intros E; injection E as <-; eauto. discriminate. Qed.
Section OneChosen.
Variables (K Q : StarRing) (D : Type) (sys : system K D) (fuel : nat) (csvd1 csvd2 : arr K -> res (arr K * arr K * arr K)).
Variables (calls : nat -> list (call K D)) (clock : nat -> D) (half dt : Q) (so : bool) (R : tree) (o : option K).
Hypothesis S1 : svd_for K o csvd1.
Hypothesis S2 : svd_for K o csvd2.
Hypothesis Oa : forall k, Forall (call_ok K D o) (calls k).
Hypothesis Ne : inner_edges R <> [].
Definition going (x : Step_Model.counted K) : Prop := mln_pre K fuel o x /\ croot x = top R /\ exists A, network (cheap x) R A.
Notation ml_do := (ml_do K D sys fuel csvd1 csvd2 calls clock Q half so).
Lemma achieved l g ev lg x' : achieves K Q (Step_Model.counted K) (record K D) cheap croot (mln_inv K D sys fuel o) (CacheExact_Proof.good K D sys fuel) R l g ->
  g = (ev, (lg, Ok x')) -> going x'.
Proof. intros W ->. destruct W as (_ & _ & W). destruct (W x' eq_refl) as (I & Er & A & N). split; [apply (mln_pre_inv K D sys fuel o x' I)|]. split; eauto. Qed.
Lemma split_going tau b x x' : going x -> ml_do Propagate_Model.Split tau false b x = (x', None) -> going x'.
Proof.
  intros (P & Er & A & N) E. apply act_run in E. destruct E as (ev & lg & E). eapply achieved; [|exact E].
  apply (one_achieves K Q ropp fuel _ _ cheap croot (ml_form K D sys fuel clock) (ml_prop K D sys fuel calls) (ml_move K D sys fuel csvd1 csvd2 calls true)
    (mln_inv K D sys fuel o) (CacheExact_Proof.good K D sys fuel) (CacheExact_Proof.good_nil K D sys fuel) (CacheExact_Proof.good_app K D sys fuel) (mln_net K D sys fuel o)
    (mln_prop_ok K D sys fuel o calls Oa Q) (mln_move_ok K D sys fuel csvd1 csvd2 o S1 S2 calls Oa true Q) (mln_pre K fuel o) (mln_pre_fuel K fuel o) (mln_form_ok K D sys fuel o clock)
    x R A tau b P N (eq_sym Er)).
Qed.
Lemma recursive_going tau b x x' : going x -> ml_do Propagate_Model.Recursive tau false b x = (x', None) -> going x'.
Proof.
  intros (P & Er & A & N) E. apply act_run in E. destruct E as (ev & lg & E). eapply achieved; [|exact E].
  apply (recursive_achieves K Q ropp (fun x => (half * x)%S) fuel _ _ cheap croot (ml_form K D sys fuel clock) (ml_prop K D sys fuel calls) (ml_move K D sys fuel csvd1 csvd2 calls false)
    (mln_inv K D sys fuel o) (CacheExact_Proof.good K D sys fuel) (CacheExact_Proof.good_nil K D sys fuel) (CacheExact_Proof.good_app K D sys fuel) (mln_net K D sys fuel o)
    (mln_prop_ok K D sys fuel o calls Oa Q) (mln_move_ok K D sys fuel csvd1 csvd2 o S1 S2 calls Oa false Q) (mln_pre K fuel o) (mln_pre_fuel K fuel o) (mln_form_ok K D sys fuel o clock)
    x R A so tau P N (eq_sym Er)).
Qed.
Lemma unite_going tau b x x' : going x -> ml_do Propagate_Model.Unite tau false b x = (x', None) -> b = false /\ going x'.
Proof.
  intros (P & Er & A & N) E. apply act_run in E. destruct E as (ev & lg & E). destruct b.
  - exfalso. destruct (two_back K Q ropp fuel _ _ cheap croot (ml_form K D sys fuel clock) (ml_prop K D sys fuel calls) (ml_move K D sys fuel csvd1 csvd2 calls true)
      (mln_inv K D sys fuel o) (mln_net K D sys fuel o) (mln_pre K fuel o) (mln_pre_fuel K fuel o) (mln_form_ok K D sys fuel o clock) (ml_refuses K D sys fuel calls Q)
      x R A tau P N (eq_sym Er) Ne) as (e & X & _). congruence.
  - split; auto. eapply achieved; [|exact E].
    apply (two_achieves K Q ropp fuel _ _ cheap croot (ml_form K D sys fuel clock) (ml_prop K D sys fuel calls) (ml_move K D sys fuel csvd1 csvd2 calls true)
    (mln_inv K D sys fuel o) (CacheExact_Proof.good K D sys fuel) (CacheExact_Proof.good_nil K D sys fuel) (CacheExact_Proof.good_app K D sys fuel) (mln_net K D sys fuel o)
    (mln_prop_ok K D sys fuel o calls Oa Q) (mln_move_ok K D sys fuel csvd1 csvd2 o S1 S2 calls Oa true Q) (mln_pre K fuel o) (mln_pre_fuel K fuel o) (mln_form_ok K D sys fuel o clock)
    (mln_unite_ok K D sys fuel csvd1 csvd2 o S2 calls Oa true Q) x R A tau P N (eq_sym Er) Ne).
Qed.
Lemma chosen_going c x x' : fst c <> Propagate_Model.Direct -> going x -> Propagate_Model.chosen_step (Step_Model.counted K) Q half ml_do c dt false x = (x', None) -> going x'.
Proof.
  intros Nd Gx. destruct c as ([| | |], [|]); cbn [fst] in Nd; try congruence; unfold Propagate_Model.chosen_step; cbn [fst snd].
  - unfold Propagate_Model.next. destruct (ml_do Propagate_Model.Unite (half * dt)%S false false x) as (x1, [e|]) eqn:E1; [discriminate|]. intros E2.
    apply unite_going in E1; auto. apply unite_going in E2; [|apply E1]. apply E2.
  - intros E. apply unite_going in E; auto. apply E.
  - unfold Propagate_Model.next. destruct (ml_do Propagate_Model.Split (half * dt)%S false false x) as (x1, [e|]) eqn:E1; [discriminate|]. intros E2.
    apply split_going in E1; auto. apply split_going in E2; auto.
  - intros E. apply split_going in E; auto.
  - unfold Propagate_Model.next. destruct (ml_do Propagate_Model.Recursive (half * dt)%S false false x) as (x1, [e|]) eqn:E1; [discriminate|]. intros E2.
    apply recursive_going in E1; auto. apply recursive_going in E2; auto.
  - intros E. apply recursive_going in E; auto.
Qed.
End OneChosen.
Section Ticks.
Variable Q : StarRing.
Add Ring Qring_gen : (r_theory Q).
Lemma tick_of (first dt : Q) : forall m, (first + Propagate_Model.of_nat Q m * dt)%S = Propagate_Spec.ticks first dt m.
Proof. induction m as [|m IH]; cbn [Propagate_Spec.ticks Propagate_Model.of_nat]; [ring|]. rewrite <- IH. ring. Qed.
End Ticks.
Lemma chosen_not_direct m so c : Propagate_Model.choose true m so = Ok c -> fst c <> Propagate_Model.Direct.
Proof.
  unfold Propagate_Model.choose. destruct (Propagate_Model.starts m "U"%char); [intros E; injection E as <-; discriminate|].
  destruct (Propagate_Model.starts m "S"%char); [intros E; injection E as <-; discriminate|].
  destruct (Propagate_Model.starts m "R"%char); [intros E; injection E as <-; discriminate|discriminate].
Qed.

(** In real time and with a splitting method, every pair that is yielded has its time and the root, the root of the
    function is this root, and the network is in canonical form.  If nothing is cut and all vectors that are accepted have the norm of
    the state, every state has this norm. *)
Theorem C91_generator :
  forall (K Q : StarRing) D (sys : system K D) fuel csvd1 csvd2 calls clock (half dt first : Q) n steps ps_method snd_order (s : Cache_Model.state K) k R A ys out,
    cut_svd csvd1 -> cut_svd csvd2 ->
    network (sheap K s) R A -> top R = sroot K s -> S (length (ids R)) <= fuel -> inner_edges R <> [] ->
    canonical_about (sheap K s) R A ->
    ml_propagator K D sys fuel csvd1 csvd2 calls clock Q half n steps dt first ps_method snd_order (s, k) = (ys, out) ->
    forall m t r x, nth_error ys m = Some (t, r, x) ->
      t = Propagate_Spec.ticks first dt m /\ r = top R /\ croot x = top R /\
      exists A', network (cheap x) R A' /\ canonical_about (cheap x) R A' /\
        (whole_svd csvd1 -> whole_svd csvd2 -> (forall k y, In (Update K D y) (calls k) -> sqnorm y = state_norm R A) -> state_norm R A' = state_norm R A).
Proof.
  intros K Q D sys fuel csvd1 csvd2 calls clock half dt first n steps mt so s k R A ys out V1 V2 N Et Hf Ne C E m t r x En.
  assert (Z : forall o, (svd_for K o csvd1 /\ svd_for K o csvd2) /\ (forall k, Forall (call_ok K D o) (calls k)) -> held K o (sheap K s) (top R) ->
    t = Propagate_Spec.ticks first dt m /\ r = top R /\ going K fuel R o x).
  { intros o ((S1 & S2) & Oa) Hd. assert (P : going K fuel R o (s, k)).
    { split; [split; [exists R, A; auto|unfold croot, cheap; cbn [fst]; rewrite <- Et; auto]|]. split; [symmetry; exact Et|eauto]. }
    unfold ml_propagator, Propagate_Model.propagator in E. destruct n as [|n]; [injection E as <- <-; destruct m; discriminate|].
    destruct (Propagate_Model.choose true mt so) as [c|e] eqn:Ec; [|injection E as <- <-; destruct m; discriminate].
    pose proof (gen_each (Step_Model.counted K) Q half (ml_do K D sys fuel csvd1 csvd2 calls clock Q half so) id (going K fuel R o) (fun _ => True) steps dt first c (croot (s, k))
      (Propagate_Model.skip (Step_Model.counted K))) as G.
    destruct (fun H => G H (S n) 0 (s, k) ys out P (fun _ => Logic.I) E m t r x En) as (T1 & T2 & T3 & _).
    - intros w w' Pw Ew. split; auto. apply (chosen_going K Q D sys fuel csvd1 csvd2 calls clock half dt so R o S1 S2 Oa Ne c w w'); auto. apply (chosen_not_direct mt so c Ec).
    - split; [rewrite T1; apply tick_of|]. split; auto. rewrite T2. symmetry. exact Et. }
  assert (O1 : (svd_for K None csvd1 /\ svd_for K None csvd2) /\ (forall k, Forall (call_ok K D None) (calls k))).
  { split; [split; split; auto; congruence|]. intros q. apply Forall_forall. intros [] _; exact Logic.I. }
  assert (H0 : held K None (sheap K s) (top R)) by (apply (held_start K None _ R A); auto; exact Logic.I).
  destruct (Z None O1 H0) as (T1 & T2 & (_ & T3 & _)). split; auto. split; auto. split; auto.
  destruct (kept K (fun o => (svd_for K o csvd1 /\ svd_for K o csvd2) /\ forall k, Forall (call_ok K D o) (calls k)) (sheap K s) (cheap x) R A N C O1) as (A' & N' & C' & H).
  - intros o Oo Hd. destruct (Z o Oo Hd) as (_ & _ & ((_ & P) & Er & A2 & N2)). split; [rewrite <- Er; exact P|eauto].
  - exists A'. split; auto. split; auto. intros W1 W2 Oa. apply H. split; [split; split; auto|]. intros q. apply Forall_forall. intros [? ?|y|?] Hin; cbn; auto. apply (Oa q y Hin).
Qed.
Print Assumptions C91_generator.

(** [updater] normalises the root in real time.  With a method of first order that propagates one tensor at a time, all states
    but the first therefore have this norm: whatever the first one has, and also when the bonds are cut. *)
Theorem C91_generator_normalised :
  forall (K Q : StarRing) D (sys : system K D) fuel csvd1 csvd2 calls clock (half dt first : Q) n steps d rest (s : Cache_Model.state K) k R A ys out N1,
    cut_svd csvd1 -> cut_svd csvd2 ->
    network (sheap K s) R A -> top R = sroot K s -> S (length (ids R)) <= fuel -> inner_edges R <> [] ->
    canonical_about (sheap K s) R A ->
    In d ["s"; "S"; "r"; "R"]%char ->
    (forall q, exists y, last_update (calls q) y /\ sqnorm y = N1) ->
    ml_propagator K D sys fuel csvd1 csvd2 calls clock Q half n steps dt first (String d rest) false (s, k) = (ys, out) ->
    forall m t r x, nth_error ys m = Some (t, r, x) -> 0 < m ->
      exists A', network (cheap x) R A' /\ canonical_about (cheap x) R A' /\ state_norm R A' = N1.
Proof.
  intros K Q D sys fuel csvd1 csvd2 calls clock half dt first n steps d rest s k R A ys out N1 V1 V2 N Et Hf Ne C Hd Hu E m t r x En Hm.
  destruct (C91_generator K Q D sys fuel csvd1 csvd2 calls clock half dt first n steps (String d rest) false s k R A ys out V1 V2 N Et Hf Ne C E m t r x En) as (_ & _ & _ & A' & N' & C' & _).
  exists A'. split; auto. split; auto. unfold ml_propagator, Propagate_Model.propagator in E. destruct n as [|n]; [injection E as <- <-; destruct m; discriminate|].
  assert (Ec : exists kd, Propagate_Model.choose true (String d rest) false = Ok (kd, false) /\ (kd = Propagate_Model.Split \/ kd = Propagate_Model.Recursive)).
  { destruct Hd as [<-|[<-|[<-|[<-|[]]]]]; [exists Propagate_Model.Split|exists Propagate_Model.Split|exists Propagate_Model.Recursive|exists Propagate_Model.Recursive]; split; auto. }
  destruct Ec as (kd & Ec & Hk). rewrite Ec in E.
  assert (S1 : svd_for K None csvd1) by (split; auto; congruence). assert (S2 : svd_for K None csvd2) by (split; auto; congruence).
  assert (Oa : forall k, Forall (call_ok K D None) (calls k)) by (intros q; apply Forall_forall; intros [] _; exact Logic.I).
  pose proof (gen_each (Step_Model.counted K) Q half (ml_do K D sys fuel csvd1 csvd2 calls clock Q half false) id (going K fuel R None) (fun x => normed K (Some N1) (top R) (fst x)) steps dt first (kd, false) (croot (s, k))
      (Propagate_Model.skip (Step_Model.counted K))) as G.
  destruct (fun H P => G H (S n) 0 (s, k) ys out P (fun F => False_ind _ (Nat.lt_irrefl 0 F)) E m t r x En) as (_ & _ & _ & T4).
  - intros w w' Pw Ew. assert (Gw : going K fuel R None w').
    { apply (chosen_going K Q D sys fuel csvd1 csvd2 calls clock half dt false R None S1 S2 Oa Ne (kd, false) w w'); auto. cbn [fst]. destruct Hk as [->| ->]; discriminate. }
    split; auto. assert (L : ends_with_prop Q _ _ (ml_prop K D sys fuel calls) dt w').
    { unfold Propagate_Model.chosen_step in Ew. cbn [fst snd] in Ew. destruct Hk as [->| ->]; apply act_run in Ew; destruct Ew as (ev & lg & Ew); [apply one_last in Ew|apply recursive_last in Ew]; exact Ew. }
    destruct L as (w0 & l & t0 & L). destruct Gw as (_ & Er & A2 & N2). destruct (root_array K _ R A2 (top R) N2 eq_refl) as (_ & _ & _ & Lf).
    assert (Rt : croot w' = t0).
    { unfold ml_prop, count in L. destruct (Cache_Model.split_prop _ _ _ _ _ _ _ _) as (l1, r1) eqn:Ep. cbn [fst snd] in L. injection L as _ L. destruct r1 as [s1|]; [|discriminate]. injection L as <-.
      unfold Cache_Model.split_prop in Ep. destruct (negb _); [discriminate|]. apply calls_near in Ep. apply Ep. }
    destruct (Hu (snd w0)) as (y & Hy & <-). rewrite <- Er, Rt in Lf |- *. apply (ml_last K D sys fuel calls Q dt t0 w0 l w' y L Lf Hy).
  - split; [split; [exists R, A; auto|unfold croot, cheap; cbn [fst]; rewrite <- Et; apply (held_start K None _ R A); auto; exact Logic.I]|]. split; [symmetry; exact Et|eauto].
  - apply (norm_at_end K (fst x) R A'); auto.
Qed.
Print Assumptions C91_generator_normalised.

(** ** Examples *)
(** Answers with different norms, of the sizes that remain when all bonds are cut to one. *)
Definition cut_answers (k : nat) : list (list Z_star) * list Z_star :=
  match k with 2 => ([], [5; 1]%Z : list Z_star) | 3 => ([[2]%Z : list Z_star], [3]%Z : list Z_star) | _ => ([], [1; 2]%Z : list Z_star) end.
Definition cut_calls (k : nat) : list (call Z_star nat) :=
  match k with 2 => [Update _ _ ([4; 4]%Z : list Z_star); Update _ _ ([5; 1]%Z : list Z_star)] | 3 => [Update _ _ ([3]%Z : list Z_star); Reform _ _ 2]
  | _ => [Update _ _ ([2; 2]%Z : list Z_star); Diff _ _ 1 ([1; 1]%Z : list Z_star); Update _ _ ([1; 2]%Z : list Z_star); Diff _ _ 2 ([7; 1]%Z : list Z_star)] end.
Example C91_example :
  network (sheap _ tw_s) tw_t tw_a /\ top tw_t = sroot _ tw_s /\ S (length (ids tw_t)) <= 6 /\ seated (sheap _ tw_s) Ps_Prop.ps_terms /\ canonical_about (sheap _ tw_s) tw_t tw_a /\
  cut_svd (first_column Z_star) /\ cut_svd (@plain_svd Z_star) /\ state_norm tw_t tw_a = 1%Z /\
  last_update (cut_calls 4) ([1; 2]%Z : list Z_star) /\ sqnorm (snd (cut_answers 4)) = 5%Z /\
  (let cut := ([Shift (0, 0, 1, 0); Node 1 3%Z; Bond (1, 0, 0, 0) (-3)%Z; Node 0 3%Z],
     inl (B := exn) (0, [Some (mkArr [1; 2] ([1; 2]%Z : list Z_star)); Some (mkArr [1; 2] ([1; 0]%Z : list Z_star))])) in
   let see D (r : srun Z (Step_Model.counted Z_star) (record Z_star D)) := let '(ev, _, e) := ends r in (ev, e) in
   see _ (one_site_step Ps_Prop.ps_terms 6 (first_column Z_star) plain_svd cut_answers Z.opp 3%Z false (tw_s, 0)) = cut /\
   see _ (split_step tw_sys 6 (first_column Z_star) plain_svd cut_calls (fun k => k) Z.opp 3%Z false (tw_s, 0)) = cut /\
   see _ (r_split_step tw_sys 6 (first_column Z_star) plain_svd cut_calls (fun k => k) Z.opp Z.div2 false 3%Z (tw_s, 0)) = cut).
Proof.
  split; [apply tw_network|]. split; [reflexivity|]. split; [cbn; lia|]. split; [exact Ps_Prop.ps_seated|]. split; [exact tw_canonical|].
  split; [apply first_cut|]. split; [apply whole_cut, plain_whole|]. split; [reflexivity|].
  split; [exists [Update _ _ ([2; 2]%Z : list Z_star); Diff _ _ 1 ([1; 1]%Z : list Z_star)], [Diff _ _ 2 ([7; 1]%Z : list Z_star)]; split; [reflexivity|]; intros y [X|[]]; discriminate|].
  split; [reflexivity|]. vm_compute. repeat split.
Qed.
(** Times, roots, arrays and norms of the pairs; in the second run every bond is cut to one and all vectors have norm four. *)
Definition four (k : nat) : list (call Z_star nat) := if k mod 5 =? 3 then [Update _ _ ([2]%Z : list Z_star)] else [Diff _ _ k ([3; 1]%Z : list Z_star); Update _ _ ([0; 2]%Z : list Z_star)].
Example C91_example_generator :
  inner_edges tw_t <> [] /\ (forall k y, In (Update Z_star nat y) (n1_calls k) -> sqnorm y = state_norm tw_t tw_a) /\
  (forall q, exists y, last_update (four q) y /\ sqnorm y = 4%Z) /\
  (let see := fun csvd calls m n => let '(ys, (_, st)) := ml_propagator Z_star nat tw_sys 6 csvd plain_svd calls (fun k => k) Z_star (3%Z : Z_star) n (Some 3) (2%Z : Z_star) (5%Z : Z_star) m false (tw_s, 0) in
     (map (fun y => let '(t, r, x) := y in (t, r, croot x, option_map data (oarr (hget (cheap x) 0)),
        match global_square 6 (cheap x) 0 with Ok (Some c, _) => data c | _ => [] end)) ys, st) in
   see plain_svd n1_calls "Split"%string 2 = ([(5%Z, 0, 0, Some [1%Z; 0%Z; 0%Z; 0%Z], [1%Z]); (7%Z, 0, 0, Some [0%Z; (-1)%Z; 0%Z; 0%Z], [1%Z])], Propagate_Model.Suspended) /\
   see (first_column Z_star) four "r"%string 4 = ([(5%Z, 0, 0, Some [1%Z; 0%Z; 0%Z; 0%Z], [1%Z]); (7%Z, 0, 0, Some [0%Z; 2%Z], [4%Z]); (9%Z, 0, 0, Some [0%Z; 2%Z], [4%Z])], Propagate_Model.Stopped)).
Proof.
  split; [discriminate|]. split; [intros k y [X|[X|[X|[X|[]]]]]; try discriminate; injection X as <-; unfold n1_answers; destruct (Nat.even k); reflexivity|].
  split.
  - intros q. unfold four. destruct (q mod 5 =? 3).
    + exists ([2]%Z : list Z_star). split; [|reflexivity]. exists [], []. split; [reflexivity|]. intros y [].
    + exists ([0; 2]%Z : list Z_star). split; [|reflexivity]. exists [Diff _ _ q ([3; 1]%Z : list Z_star)], []. split; [simpl; reflexivity|]. intros y [].
  - vm_compute. split; reflexivity.
Qed.
