(** Property C90: canonical form and norm through whole splitting steps. *)
From Coq Require Import String Ascii List Arith ZArith Bool Lia Permutation.
From Verif Require Import Py Alg ListX NdArray_Model NdArray_Proof Contract_Model Net_Model Net_Spec Trav_Proof Acyc_Proof Env_Spec Env_Proof EnvThm_Proof
  Move_Spec Link_Spec Link_Proof State_Spec State_Proof Split_Proof Env_Prop Move_Prop Cache_Model Cache_Spec Cache_Proof CacheExact_Proof CacheMove_Proof Cache_Prop
  Ps_Spec Step_Model Sweep_Model Sweep_Spec Unite_Proof Rsplit_Proof Step_Spec Step_Proof StepRun_Proof Step_Prop Norm_Spec NormAlg_Proof Norm_Proof NormRun_Proof NormEnd_Proof.
From Verif Require Ps_Model Ps_Proof PsMove_Proof Ps_Prop Propagate_Model Propagate_Spec Propagate_Prop.
Import ListNotations.
Local Open Scope nat_scope.
Local Open Scope list_scope.

(** ** The norm that [global_square] returns is that of the root *)
Theorem C90_norm_of_canonical_network :
  forall (K : StarRing) (h : heap K) R A fuel,
    network h R A -> canonical_about h R A -> height R <= fuel ->
    state_norm R A = sqnorm (data (A (top R))) /\
    exists c h', global_square fuel h (top R) = Ok (Some c, h') /\ shape c = [] /\ get c [] = sqnorm (data (A (top R))).
Proof.
  intros K h R A fuel N C Hf. pose proof (canonical_norm K h R A N C) as E. split; auto.
  pose proof N as (_ & _ & NS & H & Or & F & At). destruct (C04_global_square K h R fuel A H NS) as (c & h' & E1 & E2 & E3); auto.
  - destruct (network_top K R A h N) as (ks & ER & _). rewrite ER in Or. apply (oriented_kids K h _ _ _ Or).
  - intros n Hn. apply (At n Hn).
  - exists c, h'. split; auto. split; auto. rewrite E3. exact E.
Qed.
Print Assumptions C90_norm_of_canonical_network.

(** ** propagate2.py *)
(** A step that returns gives back a network in canonical form, whatever the solver answers and wherever the decompositions
    are cut.  If they are not cut and all answers have the norm of the state, the state has this norm afterwards. *)
Theorem C90_one_site_step :
  forall (K : StarRing) hl fuel csvd1 csvd2 answers T (opp : T -> T) (s : Cache_Model.state K) k R A tau backward ev log s' k',
    cut_svd csvd1 -> cut_svd csvd2 ->
    network (sheap K s) R A -> top R = sroot K s -> S (length (ids R)) <= fuel -> seated (sheap K s) hl ->
    canonical_about (sheap K s) R A ->
    one_site_step hl fuel csvd1 csvd2 answers opp tau backward (s, k) = (ev, (log, Ok (s', k'))) ->
    exists A', network (sheap K s') R A' /\ canonical_about (sheap K s') R A' /\
      (whole_svd csvd1 -> whole_svd csvd2 -> (forall k, sqnorm (snd (answers k)) = state_norm R A) -> state_norm R A' = state_norm R A).
Proof.
  intros K hl fuel csvd1 csvd2 answers T opp s k R A tau backward ev log s' k' V1 V2 N Et Hf Se C E.
  destruct (kept K (fun o => (svd_for K o csvd1 /\ svd_for K o csvd2) /\ forall k, norm_is K o (sqnorm (snd (answers k)))) (sheap K s) (sheap K s') R A N C) as (A' & N' & C' & H).
  - split; [|intros; exact Logic.I]. split; split; auto; congruence.
  - intros o ((S1 & S2) & Oa) Hd. assert (P : psn_pre K hl fuel o (s, k)) by (split; [exists R, A; auto|unfold croot, cheap; cbn [fst]; rewrite <- Et; auto]).
    pose proof (one_achieves K T opp fuel _ _ cheap croot (ps_form K hl fuel) (ps_prop K hl fuel answers) (ps_move K hl fuel csvd1 csvd2 answers)
    (psn_inv K hl fuel o) (Ps_Proof.good K hl fuel) (Ps_Proof.good_nil K hl fuel) (Ps_Proof.good_app K hl fuel) (psn_net K hl fuel o)
    (psn_prop_ok K hl fuel o answers Oa T) (psn_move_ok K hl fuel csvd1 csvd2 o S1 S2 answers Oa T) (psn_pre K hl fuel o) (psn_pre_fuel K hl fuel o) (psn_form_ok K hl fuel o)
    (s, k) R A tau backward P N Et) as W.
    unfold one_site_step in E. rewrite E in W. destruct W as (_ & _ & Ho). destruct (Ho (s', k') eq_refl) as ((_ & H) & Er & Nn).
    split; [rewrite <- Er; exact H|exact Nn].
  - exists A'. split; auto. split; auto. intros W1 W2 Oa. apply H. split; [|intros; cbn; auto]. split; split; auto.
Qed.
Print Assumptions C90_one_site_step.

(** The same for a step of second order. *)
Theorem C90_second_order_step :
  forall (K : StarRing) hl fuel csvd1 csvd2 answers T (opp half_of : T -> T) (s : Cache_Model.state K) k R A tau ev log s' k',
    cut_svd csvd1 -> cut_svd csvd2 ->
    network (sheap K s) R A -> top R = sroot K s -> S (length (ids R)) <= fuel -> seated (sheap K s) hl ->
    canonical_about (sheap K s) R A ->
    second_order half_of (one_site_step hl fuel csvd1 csvd2 answers opp) tau (s, k) = (ev, (log, Ok (s', k'))) ->
    exists A', network (sheap K s') R A' /\ canonical_about (sheap K s') R A' /\
      (whole_svd csvd1 -> whole_svd csvd2 -> (forall k, sqnorm (snd (answers k)) = state_norm R A) -> state_norm R A' = state_norm R A).
Proof.
  intros K hl fuel csvd1 csvd2 answers T opp half_of s k R A tau ev log s' k' V1 V2 N Et Hf Se C E.
  destruct (kept K (fun o => (svd_for K o csvd1 /\ svd_for K o csvd2) /\ forall k, norm_is K o (sqnorm (snd (answers k)))) (sheap K s) (sheap K s') R A N C) as (A' & N' & C' & H).
  - split; [|intros; exact Logic.I]. split; split; auto; congruence.
  - intros o ((S1 & S2) & Oa) Hd. assert (P : psn_pre K hl fuel o (s, k)) by (split; [exists R, A; auto|unfold croot, cheap; cbn [fst]; rewrite <- Et; auto]).
    pose proof (second_achieves K T opp half_of fuel _ _ cheap croot (ps_form K hl fuel) (ps_prop K hl fuel answers) (ps_move K hl fuel csvd1 csvd2 answers)
    (psn_inv K hl fuel o) (Ps_Proof.good K hl fuel) (Ps_Proof.good_nil K hl fuel) (Ps_Proof.good_app K hl fuel) (psn_net K hl fuel o)
    (psn_prop_ok K hl fuel o answers Oa T) (psn_move_ok K hl fuel csvd1 csvd2 o S1 S2 answers Oa T) (psn_pre K hl fuel o) (psn_pre_inv K hl fuel o) (psn_pre_fuel K hl fuel o) (psn_form_ok K hl fuel o)
    (s, k) R A tau P N Et) as W.
    unfold one_site_step in E. rewrite E in W. destruct W as (_ & _ & Ho). destruct (Ho (s', k') eq_refl) as ((_ & H) & Er & Nn).
    split; [rewrite <- Er; exact H|exact Nn].
  - exists A'. split; auto. split; auto. intros W1 W2 Oa. apply H. split; [|intros; cbn; auto]. split; split; auto.
Qed.
Print Assumptions C90_second_order_step.

(** The same for a two-site step. *)
Theorem C90_two_site_step :
  forall (K : StarRing) hl fuel csvd1 csvd2 answers T (opp : T -> T) (s : Cache_Model.state K) k R A tau ev log s' k',
    cut_svd csvd1 -> cut_svd csvd2 ->
    network (sheap K s) R A -> top R = sroot K s -> S (length (ids R)) <= fuel -> seated (sheap K s) hl -> inner_edges R <> [] ->
    canonical_about (sheap K s) R A ->
    two_site_step hl fuel csvd1 csvd2 answers opp tau false (s, k) = (ev, (log, Ok (s', k'))) ->
    exists A', network (sheap K s') R A' /\ canonical_about (sheap K s') R A' /\
      (whole_svd csvd1 -> whole_svd csvd2 -> (forall k, sqnorm (snd (answers k)) = state_norm R A) -> state_norm R A' = state_norm R A).
Proof.
  intros K hl fuel csvd1 csvd2 answers T opp s k R A tau ev log s' k' V1 V2 N Et Hf Se Ne C E.
  destruct (kept K (fun o => (svd_for K o csvd1 /\ svd_for K o csvd2) /\ forall k, norm_is K o (sqnorm (snd (answers k)))) (sheap K s) (sheap K s') R A N C) as (A' & N' & C' & H).
  - split; [|intros; exact Logic.I]. split; split; auto; congruence.
  - intros o ((S1 & S2) & Oa) Hd. assert (P : psn_pre K hl fuel o (s, k)) by (split; [exists R, A; auto|unfold croot, cheap; cbn [fst]; rewrite <- Et; auto]).
    pose proof (two_achieves K T opp fuel _ _ cheap croot (ps_form K hl fuel) (ps_prop K hl fuel answers) (ps_move K hl fuel csvd1 csvd2 answers)
    (psn_inv K hl fuel o) (Ps_Proof.good K hl fuel) (Ps_Proof.good_nil K hl fuel) (Ps_Proof.good_app K hl fuel) (psn_net K hl fuel o)
    (psn_prop_ok K hl fuel o answers Oa T) (psn_move_ok K hl fuel csvd1 csvd2 o S1 S2 answers Oa T) (psn_pre K hl fuel o) (psn_pre_fuel K hl fuel o) (psn_form_ok K hl fuel o) (psn_unite_ok K hl fuel csvd1 csvd2 o S2 answers Oa T)
    (s, k) R A tau P N Et Ne) as W.
    unfold two_site_step in E. rewrite E in W. destruct W as (_ & _ & Ho). destruct (Ho (s', k') eq_refl) as ((_ & H) & Er & Nn).
    split; [rewrite <- Er; exact H|exact Nn].
  - exists A'. split; auto. split; auto. intros W1 W2 Oa. apply H. split; [|intros; cbn; auto]. split; split; auto.
Qed.
Print Assumptions C90_two_site_step.

(** ** The generator of propagate2.py *)
(** Every network that it yields is in canonical form; if nothing is cut and all answers of the solver have the
    norm of the state, every state has this norm. *)
Theorem C90_propagator :
  forall (K Q : StarRing) hl fuel csvd1 csvd2 answers (half dt first : Q) calls steps ps_method snd_order (s : Cache_Model.state K) k R A ys log st,
    cut_svd csvd1 -> cut_svd csvd2 ->
    network (sheap K s) R A -> top R = sroot K s -> S (length (ids R)) <= fuel -> seated (sheap K s) hl -> inner_edges R <> [] ->
    canonical_about (sheap K s) R A ->
    ps_propagator K hl fuel csvd1 csvd2 answers Q half calls steps dt first ps_method snd_order (s, k) = (ys, (log, st)) ->
    forall n t r x ev, nth_error ys n = Some (t, r, x, ev) ->
      exists A', network (cheap x) R A' /\ canonical_about (cheap x) R A' /\
        (whole_svd csvd1 -> whole_svd csvd2 -> (forall k, sqnorm (snd (answers k)) = state_norm R A) -> state_norm R A' = state_norm R A).
Proof.
  intros K Q hl fuel csvd1 csvd2 answers half dt first calls steps m so s k R A ys log st V1 V2 N Et Hf Se Ne C E n t r x ev En.
  destruct (kept K (fun o => (svd_for K o csvd1 /\ svd_for K o csvd2) /\ forall k, norm_is K o (sqnorm (snd (answers k)))) (sheap K s) (cheap x) R A N C) as (A' & N' & C' & H).
  - split; [|intros; exact Logic.I]. split; split; auto; congruence.
  - intros o ((S1 & S2) & Oa) Hd. assert (P : psn_pre K hl fuel o (s, k)) by (split; [exists R, A; auto|unfold croot, cheap; cbn [fst]; rewrite <- Et; auto]).
    unfold ps_propagator in E. destruct calls as [|calls]; [injection E as <- <- <-; destruct n; discriminate|].
    destruct (ps_choose m so) as [c|e]; [|injection E as <- <- <-; destruct n; discriminate].
    refine (loop_held K hl fuel csvd1 csvd2 answers o Q half dt first R c steps (croot (s, k)) _ (S calls) 0 [] (s, k) A ys log st P N Et E n t r x ev En).
    clear - S1 S2 Oa Ne. intros x A ev log x' P N Et E. destruct c as (two, so).
    assert (Z : forall l g, achieves K Q (Step_Model.counted K) (record K unit) cheap croot (psn_inv K hl fuel o) (Ps_Proof.good K hl fuel) R l g ->
      g = (ev, (log, Ok x')) -> psn_inv K hl fuel o x' /\ croot x' = top R /\ exists A', network (cheap x') R A') by (intros l g W ->; apply W; auto).
    unfold ps_step in E. destruct two, so; cbn [fst snd] in E.
    + exfalso. destruct (two_second K Q ropp (rmul half) fuel _ _ cheap croot (ps_form K hl fuel) (ps_prop K hl fuel answers) (ps_move K hl fuel csvd1 csvd2 answers)
        (psn_inv K hl fuel o) (Ps_Proof.good K hl fuel) (Ps_Proof.good_nil K hl fuel) (Ps_Proof.good_app K hl fuel) (psn_net K hl fuel o)
        (psn_prop_ok K hl fuel o answers Oa Q) (psn_move_ok K hl fuel csvd1 csvd2 o S1 S2 answers Oa Q) (psn_pre K hl fuel o) (psn_pre_inv K hl fuel o) (psn_pre_fuel K hl fuel o) (psn_form_ok K hl fuel o) (ps_refuses K hl fuel answers Q) (psn_unite_ok K hl fuel csvd1 csvd2 o S2 answers Oa Q)
        x R A dt ev log (Ok x') P N Et Ne E) as (_ & _ & e & Ee). discriminate.
    + exact (Z _ _ (two_achieves K Q ropp fuel _ _ cheap croot (ps_form K hl fuel) (ps_prop K hl fuel answers) (ps_move K hl fuel csvd1 csvd2 answers)
        (psn_inv K hl fuel o) (Ps_Proof.good K hl fuel) (Ps_Proof.good_nil K hl fuel) (Ps_Proof.good_app K hl fuel) (psn_net K hl fuel o)
        (psn_prop_ok K hl fuel o answers Oa Q) (psn_move_ok K hl fuel csvd1 csvd2 o S1 S2 answers Oa Q) (psn_pre K hl fuel o) (psn_pre_fuel K hl fuel o) (psn_form_ok K hl fuel o) (psn_unite_ok K hl fuel csvd1 csvd2 o S2 answers Oa Q)
        x R A dt P N Et Ne) E).
    + exact (Z _ _ (second_achieves K Q ropp (rmul half) fuel _ _ cheap croot (ps_form K hl fuel) (ps_prop K hl fuel answers) (ps_move K hl fuel csvd1 csvd2 answers)
        (psn_inv K hl fuel o) (Ps_Proof.good K hl fuel) (Ps_Proof.good_nil K hl fuel) (Ps_Proof.good_app K hl fuel) (psn_net K hl fuel o)
        (psn_prop_ok K hl fuel o answers Oa Q) (psn_move_ok K hl fuel csvd1 csvd2 o S1 S2 answers Oa Q) (psn_pre K hl fuel o) (psn_pre_inv K hl fuel o) (psn_pre_fuel K hl fuel o) (psn_form_ok K hl fuel o)
        x R A dt P N Et) E).
    + exact (Z _ _ (one_achieves K Q ropp fuel _ _ cheap croot (ps_form K hl fuel) (ps_prop K hl fuel answers) (ps_move K hl fuel csvd1 csvd2 answers)
        (psn_inv K hl fuel o) (Ps_Proof.good K hl fuel) (Ps_Proof.good_nil K hl fuel) (Ps_Proof.good_app K hl fuel) (psn_net K hl fuel o)
        (psn_prop_ok K hl fuel o answers Oa Q) (psn_move_ok K hl fuel csvd1 csvd2 o S1 S2 answers Oa Q) (psn_pre K hl fuel o) (psn_pre_fuel K hl fuel o) (psn_form_ok K hl fuel o)
        x R A dt false P N Et) E).
  - exists A'. split; auto. split; auto. intros W1 W2 Oa. apply H. split; [|intros; cbn; auto]. split; split; auto.
Qed.
Print Assumptions C90_propagator.

(** ** ml.py; all vectors that are put into a tensor have to have the norm *)
(** [split_step], forward or backward. *)
Theorem C90_split_step :
  forall (K : StarRing) D (sys : system K D) fuel csvd1 csvd2 calls clock T (opp : T -> T) (s : Cache_Model.state K) k R A tau backward ev log s' k',
    cut_svd csvd1 -> cut_svd csvd2 ->
    network (sheap K s) R A -> top R = sroot K s -> S (length (ids R)) <= fuel ->
    canonical_about (sheap K s) R A ->
    split_step sys fuel csvd1 csvd2 calls clock opp tau backward (s, k) = (ev, (log, Ok (s', k'))) ->
    exists A', network (sheap K s') R A' /\ canonical_about (sheap K s') R A' /\
      (whole_svd csvd1 -> whole_svd csvd2 -> (forall k y, In (Update K D y) (calls k) -> sqnorm y = state_norm R A) -> state_norm R A' = state_norm R A).
Proof.
  intros K D sys fuel csvd1 csvd2 calls clock T opp s k R A tau backward ev log s' k' V1 V2 N Et Hf C E.
  destruct (kept K (fun o => (svd_for K o csvd1 /\ svd_for K o csvd2) /\ forall k, Forall (call_ok K D o) (calls k)) (sheap K s) (sheap K s') R A N C) as (A' & N' & C' & H).
  - split; [split; split; auto; congruence|]. intros q. apply Forall_forall. intros [] _; exact Logic.I.
  - intros o ((S1 & S2) & Oa) Hd. assert (P : mln_pre K fuel o (s, k)) by (split; [exists R, A; auto|unfold croot, cheap; cbn [fst]; rewrite <- Et; auto]).
    pose proof (one_achieves K T opp fuel _ _ cheap croot (ml_form K D sys fuel clock) (ml_prop K D sys fuel calls) (ml_move K D sys fuel csvd1 csvd2 calls true)
    (mln_inv K D sys fuel o) (CacheExact_Proof.good K D sys fuel) (CacheExact_Proof.good_nil K D sys fuel) (CacheExact_Proof.good_app K D sys fuel) (mln_net K D sys fuel o)
    (mln_prop_ok K D sys fuel o calls Oa T) (mln_move_ok K D sys fuel csvd1 csvd2 o S1 S2 calls Oa true T) (mln_pre K fuel o) (mln_pre_fuel K fuel o) (mln_form_ok K D sys fuel o clock)
    (s, k) R A tau backward P N Et) as W.
    unfold split_step in E. rewrite E in W. destruct W as (_ & _ & Ho). destruct (Ho (s', k') eq_refl) as ((_ & H) & Er & Nn).
    split; [rewrite <- Er; exact H|exact Nn].
  - exists A'. split; auto. split; auto. intros W1 W2 Oa. apply H. split; [split; split; auto|]. intros q. apply Forall_forall. intros [? ?|y|?] Hin; cbn; auto. apply (Oa q y Hin).
Qed.
Print Assumptions C90_split_step.

(** The same of second order. *)
Theorem C90_ml_second_order_step :
  forall (K : StarRing) D (sys : system K D) fuel csvd1 csvd2 calls clock T (opp half_of : T -> T) (s : Cache_Model.state K) k R A tau ev log s' k',
    cut_svd csvd1 -> cut_svd csvd2 ->
    network (sheap K s) R A -> top R = sroot K s -> S (length (ids R)) <= fuel ->
    canonical_about (sheap K s) R A ->
    second_order half_of (split_step sys fuel csvd1 csvd2 calls clock opp) tau (s, k) = (ev, (log, Ok (s', k'))) ->
    exists A', network (sheap K s') R A' /\ canonical_about (sheap K s') R A' /\
      (whole_svd csvd1 -> whole_svd csvd2 -> (forall k y, In (Update K D y) (calls k) -> sqnorm y = state_norm R A) -> state_norm R A' = state_norm R A).
Proof.
  intros K D sys fuel csvd1 csvd2 calls clock T opp half_of s k R A tau ev log s' k' V1 V2 N Et Hf C E.
  destruct (kept K (fun o => (svd_for K o csvd1 /\ svd_for K o csvd2) /\ forall k, Forall (call_ok K D o) (calls k)) (sheap K s) (sheap K s') R A N C) as (A' & N' & C' & H).
  - split; [split; split; auto; congruence|]. intros q. apply Forall_forall. intros [] _; exact Logic.I.
  - intros o ((S1 & S2) & Oa) Hd. assert (P : mln_pre K fuel o (s, k)) by (split; [exists R, A; auto|unfold croot, cheap; cbn [fst]; rewrite <- Et; auto]).
    pose proof (second_achieves K T opp half_of fuel _ _ cheap croot (ml_form K D sys fuel clock) (ml_prop K D sys fuel calls) (ml_move K D sys fuel csvd1 csvd2 calls true)
    (mln_inv K D sys fuel o) (CacheExact_Proof.good K D sys fuel) (CacheExact_Proof.good_nil K D sys fuel) (CacheExact_Proof.good_app K D sys fuel) (mln_net K D sys fuel o)
    (mln_prop_ok K D sys fuel o calls Oa T) (mln_move_ok K D sys fuel csvd1 csvd2 o S1 S2 calls Oa true T) (mln_pre K fuel o) (mln_pre_inv K D sys fuel o) (mln_pre_fuel K fuel o) (mln_form_ok K D sys fuel o clock)
    (s, k) R A tau P N Et) as W.
    unfold split_step in E. rewrite E in W. destruct W as (_ & _ & Ho). destruct (Ho (s', k') eq_refl) as ((_ & H) & Er & Nn).
    split; [rewrite <- Er; exact H|exact Nn].
  - exists A'. split; auto. split; auto. intros W1 W2 Oa. apply H. split; [split; split; auto|]. intros q. apply Forall_forall. intros [? ?|y|?] Hin; cbn; auto. apply (Oa q y Hin).
Qed.
Print Assumptions C90_ml_second_order_step.

(** [r_split_step]. *)
Theorem C90_recursive_step :
  forall (K : StarRing) D (sys : system K D) fuel csvd1 csvd2 calls clock T (opp half_of : T -> T) snd_order (s : Cache_Model.state K) k R A tau ev log s' k',
    cut_svd csvd1 -> cut_svd csvd2 ->
    network (sheap K s) R A -> top R = sroot K s -> S (length (ids R)) <= fuel ->
    canonical_about (sheap K s) R A ->
    r_split_step sys fuel csvd1 csvd2 calls clock opp half_of snd_order tau (s, k) = (ev, (log, Ok (s', k'))) ->
    exists A', network (sheap K s') R A' /\ canonical_about (sheap K s') R A' /\
      (whole_svd csvd1 -> whole_svd csvd2 -> (forall k y, In (Update K D y) (calls k) -> sqnorm y = state_norm R A) -> state_norm R A' = state_norm R A).
Proof.
  intros K D sys fuel csvd1 csvd2 calls clock T opp half_of snd_order s k R A tau ev log s' k' V1 V2 N Et Hf C E.
  destruct (kept K (fun o => (svd_for K o csvd1 /\ svd_for K o csvd2) /\ forall k, Forall (call_ok K D o) (calls k)) (sheap K s) (sheap K s') R A N C) as (A' & N' & C' & H).
  - split; [split; split; auto; congruence|]. intros q. apply Forall_forall. intros [] _; exact Logic.I.
  - intros o ((S1 & S2) & Oa) Hd. assert (P : mln_pre K fuel o (s, k)) by (split; [exists R, A; auto|unfold croot, cheap; cbn [fst]; rewrite <- Et; auto]).
    pose proof (recursive_achieves K T opp half_of fuel _ _ cheap croot (ml_form K D sys fuel clock) (ml_prop K D sys fuel calls) (ml_move K D sys fuel csvd1 csvd2 calls false)
    (mln_inv K D sys fuel o) (CacheExact_Proof.good K D sys fuel) (CacheExact_Proof.good_nil K D sys fuel) (CacheExact_Proof.good_app K D sys fuel) (mln_net K D sys fuel o)
    (mln_prop_ok K D sys fuel o calls Oa T) (mln_move_ok K D sys fuel csvd1 csvd2 o S1 S2 calls Oa false T) (mln_pre K fuel o) (mln_pre_fuel K fuel o) (mln_form_ok K D sys fuel o clock)
    (s, k) R A snd_order tau P N Et) as W.
    unfold r_split_step in E. rewrite E in W. destruct W as (_ & _ & Ho). destruct (Ho (s', k') eq_refl) as ((_ & H) & Er & Nn).
    split; [rewrite <- Er; exact H|exact Nn].
  - exists A'. split; auto. split; auto. intros W1 W2 Oa. apply H. split; [split; split; auto|]. intros q. apply Forall_forall. intros [? ?|y|?] Hin; cbn; auto. apply (Oa q y Hin).
Qed.
Print Assumptions C90_recursive_step.

(** [unite_step]. *)
Theorem C90_unite_step :
  forall (K : StarRing) D (sys : system K D) fuel csvd1 csvd2 calls clock T (opp : T -> T) (s : Cache_Model.state K) k R A tau ev log s' k',
    cut_svd csvd1 -> cut_svd csvd2 ->
    network (sheap K s) R A -> top R = sroot K s -> S (length (ids R)) <= fuel -> inner_edges R <> [] ->
    canonical_about (sheap K s) R A ->
    unite_step sys fuel csvd1 csvd2 calls clock opp tau false (s, k) = (ev, (log, Ok (s', k'))) ->
    exists A', network (sheap K s') R A' /\ canonical_about (sheap K s') R A' /\
      (whole_svd csvd1 -> whole_svd csvd2 -> (forall k y, In (Update K D y) (calls k) -> sqnorm y = state_norm R A) -> state_norm R A' = state_norm R A).
Proof.
  intros K D sys fuel csvd1 csvd2 calls clock T opp s k R A tau ev log s' k' V1 V2 N Et Hf Ne C E.
  destruct (kept K (fun o => (svd_for K o csvd1 /\ svd_for K o csvd2) /\ forall k, Forall (call_ok K D o) (calls k)) (sheap K s) (sheap K s') R A N C) as (A' & N' & C' & H).
  - split; [split; split; auto; congruence|]. intros q. apply Forall_forall. intros [] _; exact Logic.I.
  - intros o ((S1 & S2) & Oa) Hd. assert (P : mln_pre K fuel o (s, k)) by (split; [exists R, A; auto|unfold croot, cheap; cbn [fst]; rewrite <- Et; auto]).
    pose proof (two_achieves K T opp fuel _ _ cheap croot (ml_form K D sys fuel clock) (ml_prop K D sys fuel calls) (ml_move K D sys fuel csvd1 csvd2 calls true)
    (mln_inv K D sys fuel o) (CacheExact_Proof.good K D sys fuel) (CacheExact_Proof.good_nil K D sys fuel) (CacheExact_Proof.good_app K D sys fuel) (mln_net K D sys fuel o)
    (mln_prop_ok K D sys fuel o calls Oa T) (mln_move_ok K D sys fuel csvd1 csvd2 o S1 S2 calls Oa true T) (mln_pre K fuel o) (mln_pre_fuel K fuel o) (mln_form_ok K D sys fuel o clock) (mln_unite_ok K D sys fuel csvd1 csvd2 o S2 calls Oa true T)
    (s, k) R A tau P N Et Ne) as W.
    unfold unite_step in E. rewrite E in W. destruct W as (_ & _ & Ho). destruct (Ho (s', k') eq_refl) as ((_ & H) & Er & Nn).
    split; [rewrite <- Er; exact H|exact Nn].
  - exists A'. split; auto. split; auto. intros W1 W2 Oa. apply H. split; [split; split; auto|]. intros q. apply Forall_forall. intros [? ?|y|?] Hin; cbn; auto. apply (Oa q y Hin).
Qed.
Print Assumptions C90_unite_step.

(** ** Examples *)
Section Cuts.
Variable K : StarRing.
Add Ring Kring_normp : (r_theory K).
(** [m] after all columns but the first are dropped: [m = (first column) * 1 * (1 0 ... 0)]. *)
Definition first_column (m : arr K) : res (arr K * arr K * arr K) :=
  match shape m with [p; q] => Ok (build [p; 1] (fun x => get m [nth 0 x 0; 0]), eye 1 1, eye 1 q) | _ => Raise ValueError end.
Lemma eye_rows r q : r <= q -> orthonormal_rows (@eye K r q) r q.
Proof.
  intros L b b' Hb Hb'. transitivity (sumn q (fun k => rmul (delta k b) (delta (K := K) b' k))).
  - apply sumn_ext. intros k Hk. unfold eye. rewrite !get_build by (repeat constructor; auto; lia). cbn [nth]. f_equal. unfold delta. rewrite (Nat.eqb_sym k b).
    destruct (b =? k); [apply rconj_1|apply rconj_0].
  - rewrite (sumn_delta K q b (fun k => delta b' k)) by lia. unfold delta. rewrite Nat.eqb_sym. reflexivity.
Qed.
Lemma plain_whole : whole_svd (@plain_svd K).
Proof.
  intros m p q W E Hp Hq. destruct (plain_exact K m p q W E Hp Hq) as (u & s & v & r & E1 & T & X & Hr). exists u, s, v, r.
  split; auto. split; auto. split; auto. split; auto. unfold plain_svd in E1. rewrite E in E1. injection E1 as <- <- <-.
  destruct T as (p' & q' & E2 & _ & _ & (_ & S)). rewrite E in E2. injection E2 as <- <-. cbn in S. injection S as <-. apply eye_rows. auto.
Qed.
Lemma whole_cut csvd : whole_svd (K := K) csvd -> cut_svd csvd.
Proof. intros W m p q Wm E Hp Hq. destruct (W m p q Wm E Hp Hq) as (u & s & v & r & E1 & T & Hr & O & _). exists u, s, v, r. auto. Qed.
Lemma first_cut : cut_svd first_column.
Proof.
  intros m p q W E Hp Hq. unfold first_column. rewrite E. eexists _, _, _, 1. split; [reflexivity|]. split; [|split; [lia|apply eye_rows; lia]].
  exists p, q. split; auto. repeat split; apply wf_build.
Qed.
End Cuts.
Lemma th_canonical : canonical_about th_h th_t th_a.
Proof.
  intros t Ht Nt. cbn in Ht, Nt. destruct Ht as [<-|[<-|[<-|[]]]]; [congruence| |];
  (intros [|[|p]] [|[|q]] Hp Hq; cbn in Hp, Hq; try lia; vm_compute; reflexivity).
Qed.
Lemma tw_canonical : canonical_about tw_h tw_t tw_a.
Proof.
  intros t Ht Nt. cbn in Ht, Nt. destruct Ht as [<-|[<-|[]]]; [congruence|].
  intros [|[|p]] [|[|q]] Hp Hq; cbn in Hp, Hq; try lia; vm_compute; reflexivity.
Qed.
(** Answers of norm one for the pair [tw_s], of norm seven for [th_s]; the solver calls [diff] for any vectors. *)
Definition n1_answers (k : nat) : list (list Z_star) * list Z_star := if Nat.even k then ([y1; y2], [0; -1; 0; 0]%Z : list Z_star) else ([y2], [0; 0; 0; 1]%Z : list Z_star).
Definition n1_calls (k : nat) : list (call Z_star nat) := let y := snd (n1_answers k) in [Diff _ _ k y1; Reform _ _ k; Diff _ _ k y; Update _ _ y].
Definition w1 : list Z_star := ([1; -1; 1; 1; 1; 1; 1; 0]%Z : list Z_star).
Definition n7_answers (k : nat) : list (list Z_star) * list Z_star := if Nat.even k then ([z1], w1) else ([w1], z2).
Definition n7_calls (k : nat) : list (call Z_star nat) := [Update _ _ (snd (n7_answers k))].
(** The same norm with fewer entries, for bonds that are cut. *)
Definition c7_answers (k : nat) : list (list Z_star) * list Z_star := if k =? 1 then ([], w1) else if k =? 2 then ([], [2; 1; 1; -1]%Z : list Z_star) else ([], [1; 1; -1; 2]%Z : list Z_star).
Example C90_example :
  network (sheap _ tw_s) tw_t tw_a /\ top tw_t = sroot _ tw_s /\ S (length (ids tw_t)) <= 6 /\ seated (sheap _ tw_s) Ps_Prop.ps_terms /\ canonical_about (sheap _ tw_s) tw_t tw_a /\
  whole_svd (@plain_svd Z_star) /\ cut_svd (@plain_svd Z_star) /\ state_norm tw_t tw_a = 1%Z /\ (forall k, sqnorm (snd (n1_answers k)) = 1%Z) /\
  (forall k y, In (Update Z_star nat y) (n1_calls k) -> sqnorm y = 1%Z) /\
  ends (one_site_step Ps_Prop.ps_terms 6 plain_svd plain_svd n1_answers Z.opp 3%Z false (tw_s, 0)) =
    ([Shift (0, 0, 1, 0); Node 1 3%Z; Bond (1, 0, 0, 0) (-3)%Z; Node 0 3%Z], 7, inl (0, [Some (zm 0 (-1) 0 0); Some (zm 1 0 0 1)])) /\
  ends (second_order Z.div2 (one_site_step Ps_Prop.ps_terms 6 plain_svd plain_svd n1_answers Z.opp) 4%Z (tw_s, 0)) =
    ([Shift (0, 0, 1, 0); Node 1 2%Z; Bond (1, 0, 0, 0) (-2)%Z; Node 0 2%Z; Node 0 2%Z; Bond (0, 0, 1, 0) (-2)%Z; Node 1 2%Z; Shift (1, 0, 0, 0)],
     14, inl (0, [Some (zm 0 0 (-1) 0); Some (zm 1 0 0 1)])) /\
  ends (split_step tw_sys 6 plain_svd plain_svd n1_calls (fun k => k) Z.opp 3%Z true (tw_s, 0)) =
    ([Node 0 3%Z; Bond (0, 0, 1, 0) (-3)%Z; Node 1 3%Z; Shift (1, 0, 0, 0)], 8, inl (0, [Some (zm 0 0 0 1); Some (zm 1 0 0 1)])) /\
  ends (r_split_step tw_sys 6 plain_svd plain_svd n1_calls (fun k => k) Z.opp Z.div2 true 4%Z (tw_s, 0)) =
    ([Shift (0, 0, 1, 0); Node 1 2%Z; Bond (1, 0, 0, 0) (-2)%Z; Node 0 4%Z; Bond (0, 0, 1, 0) (-2)%Z; Node 1 2%Z; Shift (1, 0, 0, 0)],
     14, inl (0, [Some (zm 0 0 (-1) 0); Some (zm 1 0 0 1)])).
Proof.
  split; [apply tw_network|]. split; [reflexivity|]. split; [cbn; lia|]. split; [exact Ps_Prop.ps_seated|]. split; [exact tw_canonical|].
  split; [apply plain_whole|]. split; [apply whole_cut, plain_whole|]. split; [reflexivity|].
  assert (Q : forall k, sqnorm (snd (n1_answers k)) = 1%Z) by (intros k; unfold n1_answers; destruct (Nat.even k); reflexivity).
  split; [exact Q|]. split; [intros k y [X|[X|[X|[X|[]]]]]; try discriminate; injection X as <-; apply Q|].
  split; [|split; [|split]]; vm_compute; reflexivity.
Qed.
Example C90_example_two_site :
  network (sheap _ th_s) th_t th_a /\ top th_t = sroot _ th_s /\ S (length (ids th_t)) <= 9 /\ seated (sheap _ th_s) th_terms /\ inner_edges th_t <> [] /\
  canonical_about (sheap _ th_s) th_t th_a /\ cut_svd (first_column Z_star) /\ state_norm th_t th_a = 7%Z /\
  (forall k, sqnorm (snd (n7_answers k)) = 7%Z) /\ (forall k, sqnorm (snd (c7_answers k)) = 7%Z) /\ (forall k y, In (Update Z_star nat y) (n7_calls k) -> sqnorm y = 7%Z) /\
  ends3 (two_site_step th_terms 9 plain_svd plain_svd n7_answers Z.opp 3%Z false (th_s, 0)) =
    ([Pair (1, 0, 0, 0) 3%Z; Node 0 (-3)%Z; Pair (2, 0, 0, 1) 3%Z], 5, inl (0, [z8 [0; 1; 1; 0; 2; 0; 0; 1]%Z; Some (zm 1 0 0 1); Some (zm 1 0 0 1)])) /\
  ends3 (unite_step th_sys 9 plain_svd plain_svd n7_calls (fun k => k) Z.opp 3%Z false (th_s, 0)) =
    ([Pair (1, 0, 0, 0) 3%Z; Node 0 (-3)%Z; Pair (2, 0, 0, 1) 3%Z], 2, inl (0, [z8 [0; 1; 1; 0; 2; 0; 0; 1]%Z; Some (zm 1 0 0 1); Some (zm 1 0 0 1)])) /\
  ends3 (two_site_step th_terms 9 plain_svd (first_column Z_star) c7_answers Z.opp 3%Z false (th_s, 0)) =
    ([Pair (1, 0, 0, 0) 3%Z; Node 0 (-3)%Z; Pair (2, 0, 0, 1) 3%Z], 2,
     inl (0, [Some (mkArr [1; 1; 2] ([1; -1]%Z : list Z_star)); Some (mkArr [1; 2] ([1; 0]%Z : list Z_star)); Some (mkArr [1; 2] ([1; 0]%Z : list Z_star))])).
Proof.
  split; [apply th_network|]. split; [reflexivity|]. split; [cbn; lia|]. split; [exact th_seated|]. split; [discriminate|]. split; [exact th_canonical|].
  split; [apply first_cut|]. split; [reflexivity|].
  assert (Q : forall k, sqnorm (snd (n7_answers k)) = 7%Z) by (intros k; unfold n7_answers; destruct (Nat.even k); reflexivity).
  split; [exact Q|]. split; [intros k; unfold c7_answers; destruct (k =? 1), (k =? 2); reflexivity|].
  split; [intros k y [X|[]]; injection X as <-; apply Q|].
  split; [|split]; vm_compute; reflexivity.
Qed.

(** Where the bonds are cut, the norm is lost. *)
Theorem C90_norm_with_cut_bonds_refuted :
  ~ forall (K : StarRing) hl fuel csvd1 csvd2 answers (s : Cache_Model.state K) k R A (tau : Z) ev log s' k' A',
    cut_svd csvd1 -> cut_svd csvd2 ->
    network (sheap K s) R A -> top R = sroot K s -> S (length (ids R)) <= fuel -> seated (sheap K s) hl -> inner_edges R <> [] ->
    canonical_about (sheap K s) R A -> (forall k, sqnorm (snd (answers k)) = state_norm R A) ->
    two_site_step hl fuel csvd1 csvd2 answers Z.opp tau false (s, k) = (ev, (log, Ok (s', k'))) ->
    network (sheap K s') R A' -> state_norm R A' = state_norm R A.
Proof.
  intros H. assert (X : match two_site_step th_terms 9 plain_svd (first_column Z_star) c7_answers Z.opp 3%Z false (th_s, 0) with
    | (_, (_, Ok (s', _))) => option_map data (oarr (hget (sheap _ s') 0)) = Some ([1; -1]%Z : list Z_star) | _ => False end) by (vm_compute; reflexivity).
  destruct (two_site_step th_terms 9 plain_svd (first_column Z_star) c7_answers Z.opp 3%Z false (th_s, 0)) as (ev, (log, [(s', k')|e])) eqn:E; [|destruct X].
  assert (Se : S (length (ids th_t)) <= 9) by (cbn; lia). assert (Ne : inner_edges th_t <> []) by discriminate.
  destruct (C90_two_site_step Z_star th_terms 9 plain_svd (first_column Z_star) c7_answers Z Z.opp th_s 0 th_t th_a 3%Z ev log s' k'
    (whole_cut _ _ (plain_whole _)) (first_cut _) th_network eq_refl Se th_seated Ne th_canonical E) as (A' & N' & C' & _).
  assert (Q : forall k, sqnorm (snd (c7_answers k)) = state_norm th_t th_a) by (intros k; unfold c7_answers; destruct (k =? 1), (k =? 2); reflexivity).
  pose proof (H Z_star th_terms 9 plain_svd (first_column Z_star) c7_answers th_s 0 th_t th_a 3%Z ev log s' k' A' (whole_cut _ _ (plain_whole _)) (first_cut _) th_network eq_refl Se th_seated Ne
    th_canonical Q E N') as Y.
  rewrite (canonical_norm Z_star _ th_t A' N' C') in Y. destruct N' as (_ & _ & _ & _ & _ & _ & At). destruct (At 0 ltac:(left; auto)) as (Ea & _).
  rewrite Ea in X. cbn [option_map] in X. injection X as X. cbn [top th_t] in Y. rewrite X in Y. vm_compute in Y. discriminate.
Qed.
Print Assumptions C90_norm_with_cut_bonds_refuted.

(** Root and norm of the pairs that are yielded; the norm that [global_square] returns. *)
Example C90_example_generator :
  inner_edges tw_t = [(0, 0, 1, 0)] /\ height tw_t = 3 /\
  (let norms := fun so => map (fun y => let '(t, n, x, ev) := y in (t, n, option_map data (oarr (hget (cheap x) 0)),
       match global_square 6 (cheap x) 0 with Ok (Some c, _) => data c | _ => [] end))
     (fst (ps_propagator Z_star Ps_Prop.ps_terms 6 plain_svd plain_svd n1_answers Z_star (1%Z : Z_star) 4 (Some 3) (5%Z : Z_star) (7%Z : Z_star) "split" so (tw_s, 0))) in
   norms false = [(7%Z, 0, Some [1%Z; 0%Z; 0%Z; 0%Z], [1%Z]); (12%Z, 0, Some [0%Z; (-1)%Z; 0%Z; 0%Z], [1%Z]); (17%Z, 0, Some [0%Z; 0%Z; 0%Z; 1%Z], [1%Z])] /\
   norms true = [(7%Z, 0, Some [1%Z; 0%Z; 0%Z; 0%Z], [1%Z]); (12%Z, 0, Some [0%Z; 0%Z; (-1)%Z; 0%Z], [1%Z]); (17%Z, 0, Some [0%Z; 0%Z; (-1)%Z; 0%Z], [1%Z])]).
Proof. split; [reflexivity|]. split; [reflexivity|]. vm_compute. split; reflexivity. Qed.
