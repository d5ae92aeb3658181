(** Properties C88 and C89: the splitting steps with the arrays they work on. *)
From Coq Require Import String Ascii List Arith ZArith Bool Lia Permutation.
From Verif Require Import Py Alg ListX NdArray_Model Contract_Model Net_Model Net_Spec Trav_Proof Acyc_Proof Env_Spec
  Move_Spec Link_Spec State_Spec Split_Proof Env_Prop Move_Prop Cache_Model Cache_Spec Cache_Proof CacheExact_Proof Cache_Prop
  Ps_Spec Step_Model Sweep_Model Sweep_Spec Unite_Proof Rsplit_Proof Step_Spec Step_Proof StepRun_Proof.
From Verif Require Ps_Model Ps_Proof PsMove_Proof Ps_Prop Propagate_Model Propagate_Spec Propagate_Prop.
Import ListNotations.
Local Open Scope nat_scope.
Local Open Scope list_scope.

(** ** C88: the steps of propagate2.py *)
Section C88.
Variable K : StarRing.
Variable hl : list (list (id * arr K)).
Variable fuel : nat.
Variables csvd1 csvd2 : arr K -> res (arr K * arr K * arr K).
Variable answers : nat -> list (list K) * list K.
(** Each call of [diff] returns the derivative of the mixed terms, as in C79. *)
Definition mixed_calls (log : list (record K unit)) : Prop :=
  forall s cache t y, In (Called K unit s cache t y) log ->
    (exists ks, hangs (sheap K s) None (Nd (sroot K s) ks)) /\
    forall ks, hangs (sheap K s) None (Nd (sroot K s) ks) ->
      result (Ps_Model.diff K hl fuel (sroot K s) y s) =
      result (diff K unit (mkSystem K unit (mixtures ks hl) None) fuel (sroot K s) false tt y (forget s)).
Lemma good_mixed log : Ps_Proof.good K hl fuel log -> mixed_calls log.
Proof.
  intros G s cache t y Hin. destruct (G s cache t y Hin) as (R' & Rd).
  destruct (Ps_Proof.rd_top _ _ _ R' s Rd) as (ks & ER & _). pose proof (Ps_Proof.rd_hangs _ _ _ R' s Rd) as H. rewrite ER in H. split; [eauto|].
  intros ks' H'. pose proof (hangs_det K _ _ _ _ H H' eq_refl) as Q. injection Q as <-.
  apply (Ps_Proof.diff_mixed K hl fuel R' ks s y Rd ER).
Qed.
Lemma ps_refuses T (tau : T) t x : oaxis (hget (cheap x) t) <> None -> ps_prop K hl fuel answers tau t x = ([], Raise RuntimeError).
Proof.
  intros Na. unfold ps_prop, Ps_Model.single_prop. fold (cheap x). destruct (oaxis (hget (cheap x) t)); [reflexivity|congruence].
Qed.
Definition one_site_step {T} (opp : T -> T) := one_site opp fuel cheap croot (ps_form K hl fuel) (ps_prop K hl fuel answers) (ps_move K hl fuel csvd1 csvd2 answers).
Definition two_site_step {T} (opp : T -> T) := two_site opp fuel cheap croot (ps_form K hl fuel) (ps_prop K hl fuel answers) (ps_move K hl fuel csvd1 csvd2 answers).
End C88.
Arguments mixed_calls {K} _ _ _. Arguments one_site_step {K} _ _ _ _ _ {T} _ _ _ _. Arguments two_site_step {K} _ _ _ _ _ {T} _ _ _ _.

(** Whatever the solver answers, [one_site_step] propagates tensors and bonds in the order of C18, each
    call of [diff] being for the mixed terms, and gives back a network with the same links,
    the root where it was.  If it raises, it has done a first part of the same. *)
Theorem C88_one_site_step :
  forall (K : StarRing) hl fuel csvd1 csvd2 answers T (opp : T -> T) (s : Cache_Model.state K) k R A tau backward ev log out,
    some_svd csvd1 -> some_svd csvd2 ->
    network (sheap K s) R A -> top R = sroot K s -> S (length (ids R)) <= fuel -> seated (sheap K s) hl ->
    one_site_step hl fuel csvd1 csvd2 answers opp tau backward (s, k) = (ev, (log, out)) ->
    (exists l, one_site_order opp R tau backward l /\ as_far l ev (ended out)) /\
    mixed_calls hl fuel log /\
    forall s' k', out = Ok (s', k') -> sroot K s' = sroot K s /\ exists A', network (sheap K s') R A'.
Proof.
  intros K hl fuel csvd1 csvd2 answers T opp s k R A tau b ev log out S1 S2 N Et Hf Se E.
  assert (P : ps_pre K hl fuel (s, k)) by (exists R, A; auto).
  pose proof (one_achieves K T opp fuel _ _ cheap croot (ps_form K hl fuel) (ps_prop K hl fuel answers) (ps_move K hl fuel csvd1 csvd2 answers)
    (ps_inv K hl fuel) (Ps_Proof.good K hl fuel) (Ps_Proof.good_nil K hl fuel) (Ps_Proof.good_app K hl fuel) (ps_net K hl fuel)
    (ps_prop_ok K hl fuel answers T) (ps_move_ok K hl fuel csvd1 csvd2 S1 S2 answers T) (ps_pre K hl fuel) (ps_pre_fuel K hl fuel) (ps_form_ok K hl fuel)
    (s, k) R A tau b P N Et) as H.
  unfold one_site_step in E. rewrite E in H. destruct H as (G & Af & Ho). split; [|split].
  - eexists. split; [|exact Af]. eapply one_list_order; eauto.
  - apply good_mixed; auto.
  - intros s' k' ->. destruct (Ho (s', k') eq_refl) as (_ & Er & Nn). split; [rewrite <- Et; exact Er|exact Nn].
Qed.
Print Assumptions C88_one_site_step.

(** [snd_order_step] with it: in the order of C19. *)
Theorem C88_second_order_step :
  forall (K : StarRing) hl fuel csvd1 csvd2 answers T (opp half_of : T -> T) (s : Cache_Model.state K) k R A tau ev log out,
    some_svd csvd1 -> some_svd csvd2 ->
    network (sheap K s) R A -> top R = sroot K s -> S (length (ids R)) <= fuel -> seated (sheap K s) hl ->
    second_order half_of (one_site_step hl fuel csvd1 csvd2 answers opp) tau (s, k) = (ev, (log, out)) ->
    (exists l, second_order_order opp half_of R tau l /\ as_far l ev (ended out)) /\
    mixed_calls hl fuel log /\
    forall s' k', out = Ok (s', k') -> sroot K s' = sroot K s /\ exists A', network (sheap K s') R A'.
Proof.
  intros K hl fuel csvd1 csvd2 answers T opp half_of s k R A tau ev log out S1 S2 N Et Hf Se E.
  assert (P : ps_pre K hl fuel (s, k)) by (exists R, A; auto).
  pose proof (second_achieves K T opp half_of fuel _ _ cheap croot (ps_form K hl fuel) (ps_prop K hl fuel answers) (ps_move K hl fuel csvd1 csvd2 answers)
    (ps_inv K hl fuel) (Ps_Proof.good K hl fuel) (Ps_Proof.good_nil K hl fuel) (Ps_Proof.good_app K hl fuel) (ps_net K hl fuel)
    (ps_prop_ok K hl fuel answers T) (ps_move_ok K hl fuel csvd1 csvd2 S1 S2 answers T) (ps_pre K hl fuel) (ps_pre_inv K hl fuel) (ps_pre_fuel K hl fuel) (ps_form_ok K hl fuel)
    (s, k) R A tau P N Et) as H.
  unfold one_site_step in E. rewrite E in H. destruct H as (G & Af & Ho). split; [|split].
  - eexists. split; [|exact Af]. eapply second_list_order; eauto.
  - apply good_mixed; auto.
  - intros s' k' ->. destruct (Ho (s', k') eq_refl) as (_ & Er & Nn). split; [rewrite <- Et; exact Er|exact Nn].
Qed.
Print Assumptions C88_second_order_step.

(** The backward [two_site_step] raises before it has propagated anything, unless all tensors are
    in one. *)
Theorem C88_backward_two_site_step_raises :
  forall (K : StarRing) hl fuel csvd1 csvd2 answers T (opp : T -> T) (s : Cache_Model.state K) k R A tau,
    network (sheap K s) R A -> top R = sroot K s -> S (length (ids R)) <= fuel -> seated (sheap K s) hl -> inner_edges R <> [] ->
    exists e, two_site_step hl fuel csvd1 csvd2 answers opp tau true (s, k) = ([], ([], Raise e)) /\
      (e = RuntimeError \/ Ps_Model.form_env K hl fuel s = Raise e).
Proof.
  intros K hl fuel csvd1 csvd2 answers T opp s k R A tau N Et Hf Se Ne.
  assert (P : ps_pre K hl fuel (s, k)) by (exists R, A; auto).
  destruct (two_back K T opp fuel _ _ cheap croot (ps_form K hl fuel) (ps_prop K hl fuel answers) (ps_move K hl fuel csvd1 csvd2 answers)
    (ps_inv K hl fuel) (ps_net K hl fuel) (ps_pre K hl fuel) (ps_pre_fuel K hl fuel) (ps_form_ok K hl fuel) (ps_refuses K hl fuel answers T)
    (s, k) R A tau P N Et Ne) as (e & E & Or). exists e. split; [exact E|]. destruct Or as [->|Or]; [auto|right]. unfold ps_form in Or. cbn [fst snd] in Or.
  destruct (Ps_Model.form_env K hl fuel s); [discriminate|]. injection Or as <-. auto.
Qed.
Print Assumptions C88_backward_two_site_step_raises.

(** The forward [two_site_step] of more than one tensor: in the order of C20, the same otherwise. *)
Theorem C88_two_site_step :
  forall (K : StarRing) hl fuel csvd1 csvd2 answers T (opp : T -> T) (s : Cache_Model.state K) k R A tau ev log out,
    some_svd csvd1 -> some_svd csvd2 ->
    network (sheap K s) R A -> top R = sroot K s -> S (length (ids R)) <= fuel -> seated (sheap K s) hl -> inner_edges R <> [] ->
    two_site_step hl fuel csvd1 csvd2 answers opp tau false (s, k) = (ev, (log, out)) ->
    (exists l, two_site_order opp R tau l /\ as_far l ev (ended out)) /\
    mixed_calls hl fuel log /\
    forall s' k', out = Ok (s', k') -> sroot K s' = sroot K s /\ exists A', network (sheap K s') R A'.
Proof.
  intros K hl fuel csvd1 csvd2 answers T opp s k R A tau ev log out S1 S2 N Et Hf Se Ne E.
  assert (P : ps_pre K hl fuel (s, k)) by (exists R, A; auto).
  pose proof (two_achieves K T opp fuel _ _ cheap croot (ps_form K hl fuel) (ps_prop K hl fuel answers) (ps_move K hl fuel csvd1 csvd2 answers)
    (ps_inv K hl fuel) (Ps_Proof.good K hl fuel) (Ps_Proof.good_nil K hl fuel) (Ps_Proof.good_app K hl fuel) (ps_net K hl fuel)
    (ps_prop_ok K hl fuel answers T) (ps_move_ok K hl fuel csvd1 csvd2 S1 S2 answers T) (ps_pre K hl fuel) (ps_pre_fuel K hl fuel) (ps_form_ok K hl fuel) (ps_unite_ok K hl fuel csvd1 csvd2 S2 answers T)
    (s, k) R A tau P N Et Ne) as H.
  unfold two_site_step in E. rewrite E in H. destruct H as (G & Af & Ho). split; [|split].
  - eexists. split; [|exact Af]. eapply two_list_order; eauto.
  - apply good_mixed; auto.
  - intros s' k' ->. destruct (Ho (s', k') eq_refl) as (_ & Er & Nn). split; [rewrite <- Et; exact Er|exact Nn].
Qed.
Print Assumptions C88_two_site_step.

(** [snd_order_step] with it never ends: it raises during the forward half, or right after it. *)
Theorem C88_second_order_two_site_raises :
  forall (K : StarRing) hl fuel csvd1 csvd2 answers T (opp half_of : T -> T) (s : Cache_Model.state K) k R A tau ev log out,
    some_svd csvd1 -> some_svd csvd2 ->
    network (sheap K s) R A -> top R = sroot K s -> S (length (ids R)) <= fuel -> seated (sheap K s) hl -> inner_edges R <> [] ->
    second_order half_of (two_site_step hl fuel csvd1 csvd2 answers opp) tau (s, k) = (ev, (log, out)) ->
    (exists e, out = Raise e) /\ mixed_calls hl fuel log /\
    exists rest, two_site_order opp R (half_of tau) (ev ++ rest).
Proof.
  intros K hl fuel csvd1 csvd2 answers T opp half_of s k R A tau ev log out S1 S2 N Et Hf Se Ne E.
  assert (P : ps_pre K hl fuel (s, k)) by (exists R, A; auto).
  destruct (two_second K T opp half_of fuel _ _ cheap croot (ps_form K hl fuel) (ps_prop K hl fuel answers) (ps_move K hl fuel csvd1 csvd2 answers)
    (ps_inv K hl fuel) (Ps_Proof.good K hl fuel) (Ps_Proof.good_nil K hl fuel) (Ps_Proof.good_app K hl fuel) (ps_net K hl fuel)
    (ps_prop_ok K hl fuel answers T) (ps_move_ok K hl fuel csvd1 csvd2 S1 S2 answers T) (ps_pre K hl fuel) (ps_pre_inv K hl fuel) (ps_pre_fuel K hl fuel) (ps_form_ok K hl fuel)
    (ps_refuses K hl fuel answers T) (ps_unite_ok K hl fuel csvd1 csvd2 S2 answers T)
    (s, k) R A tau ev log out P N Et Ne E) as (G & (rest & Er) & Ho). split; auto. split; [apply good_mixed; auto|].
  exists rest. rewrite <- Er. eapply two_list_order; eauto.
Qed.
Print Assumptions C88_second_order_two_site_raises.

(** [propagator] with a method whose first letter is S: the pairs have the times [first], [first + dt], ...
    and the tensor that is the root all along; between two pairs one step has been done, completely; at each pair the
    tensors form a network with the links of the start.  It stops after [steps] pairs and yields
    no more of them than asked for; an exception comes after at least one pair. *)
Theorem C88_propagator :
  forall (K Q : StarRing) hl fuel csvd1 csvd2 answers (half dt first : Q) calls steps ps_method snd_order (s : Cache_Model.state K) k R A ys log st,
    some_svd csvd1 -> some_svd csvd2 ->
    network (sheap K s) R A -> top R = sroot K s -> S (length (ids R)) <= fuel -> seated (sheap K s) hl ->
    Propagate_Model.starts ps_method "S" = true ->
    ps_propagator K hl fuel csvd1 csvd2 answers Q half calls steps dt first ps_method snd_order (s, k) = (ys, (log, st)) ->
    mixed_calls hl fuel log /\
    (exists l, (if snd_order then second_order_order ropp (rmul half) R dt l else one_site_order ropp R dt false l) /\
      forall n t r x ev, nth_error ys n = Some (t, r, x, ev) ->
        t = Propagate_Spec.ticks first dt n /\ r = sroot K s /\ croot x = r /\ (exists A', network (cheap x) R A') /\
        if n =? 0 then x = (s, k) /\ ev = [] else ev = l) /\
    match st with
    | Propagate_Model.Stopped => steps = Some (length ys) /\ length ys < calls
    | Propagate_Model.Suspended => length ys = calls /\ forall N, steps = Some N -> length ys <= N
    | Propagate_Model.Failed _ => 0 < length ys < calls /\ forall N, steps = Some N -> length ys <= N
    end.
Proof.
  intros K Q hl fuel csvd1 csvd2 answers half dt first calls steps m so s k R A ys log st S1 S2 N Et Hf Se Em E.
  assert (P : ps_pre K hl fuel (s, k)) by (exists R, A; auto).
  assert (El : exists l, (if so then second_order_order ropp (rmul half) R dt l else one_site_order ropp R dt false l) /\
    forall x A, ps_pre K hl fuel x -> network (cheap x) R A -> top R = croot x ->
      achieves K Q (Step_Model.counted K) (record K unit) cheap croot (ps_inv K hl fuel) (Ps_Proof.good K hl fuel) R l
        (ps_step K hl fuel csvd1 csvd2 answers Q half (false, so) dt x)).
  { destruct so; eexists.
    - split; [eapply (second_list_order K Q ropp (rmul half)); eauto|]. intros x A' P' N' Et'.
      exact (second_achieves K Q ropp (rmul half) fuel _ _ cheap croot (ps_form K hl fuel) (ps_prop K hl fuel answers) (ps_move K hl fuel csvd1 csvd2 answers)
        (ps_inv K hl fuel) (Ps_Proof.good K hl fuel) (Ps_Proof.good_nil K hl fuel) (Ps_Proof.good_app K hl fuel) (ps_net K hl fuel)
        (ps_prop_ok K hl fuel answers Q) (ps_move_ok K hl fuel csvd1 csvd2 S1 S2 answers Q) (ps_pre K hl fuel) (ps_pre_inv K hl fuel) (ps_pre_fuel K hl fuel) (ps_form_ok K hl fuel)
        x R A' dt P' N' Et').
    - split; [eapply (one_list_order K Q ropp); eauto|]. intros x A' P' N' Et'.
      exact (one_achieves K Q ropp fuel _ _ cheap croot (ps_form K hl fuel) (ps_prop K hl fuel answers) (ps_move K hl fuel csvd1 csvd2 answers)
        (ps_inv K hl fuel) (Ps_Proof.good K hl fuel) (Ps_Proof.good_nil K hl fuel) (Ps_Proof.good_app K hl fuel) (ps_net K hl fuel)
        (ps_prop_ok K hl fuel answers Q) (ps_move_ok K hl fuel csvd1 csvd2 S1 S2 answers Q) (ps_pre K hl fuel) (ps_pre_fuel K hl fuel) (ps_form_ok K hl fuel)
        x R A' dt false P' N' Et'). }
  destruct El as (l & Ol & Hs). unfold ps_propagator in E.
  assert (Ec : ps_choose m so = Ok (false, so)).
  { unfold ps_choose. rewrite Em. destruct (Propagate_Model.starts m "U") eqn:Eu; auto. exfalso. unfold Propagate_Model.starts in *. destruct m as [|d m]; [discriminate|].
    apply Ascii.eqb_eq in Em, Eu. congruence. }
  assert (E' : ps_loop K hl fuel csvd1 csvd2 answers Q half steps dt first (false, so) (sroot K s) calls 0 [] (s, k) = (ys, (log, st))).
  { destruct calls; [exact E|]. rewrite Ec in E. exact E. }
  clear E. destruct (loop_ok K hl fuel csvd1 csvd2 answers Q half dt first R l (false, so) steps (sroot K s) Hs calls 0 [] (s, k) A ys log st P N Et E') as (G & Y & St).
  split; [apply good_mixed; auto|]. split.
  - exists l. split; auto. intros n t r x ev En. destruct (Y n t r x ev En) as (Y1 & Y2 & Y3 & Y4 & Y5 & Y6). rewrite <- Propagate_Prop.ticks_time.
    split; auto. split; auto. split; [congruence|]. split; auto. destruct (Nat.eqb_spec n 0) as [->|Nn]; [apply Y5; auto|apply Y6; lia].
  - destruct st.
    + destruct St as (St & B). split; auto. intros N0 EN. specialize (B N0 EN). lia.
    + destruct St as (N0 & -> & B1 & B2). rewrite Nat.sub_0_r in B1. rewrite B1 in *. auto.
    + destruct St as (St & B). split; auto. intros N0 EN. specialize (B N0 EN). lia.
Qed.
Print Assumptions C88_propagator.

(** The same for a method whose first letter is U, of first order. *)
Theorem C88_propagator_two_site :
  forall (K Q : StarRing) hl fuel csvd1 csvd2 answers (half dt first : Q) calls steps ps_method (s : Cache_Model.state K) k R A ys log st,
    some_svd csvd1 -> some_svd csvd2 ->
    network (sheap K s) R A -> top R = sroot K s -> S (length (ids R)) <= fuel -> seated (sheap K s) hl -> inner_edges R <> [] ->
    Propagate_Model.starts ps_method "U" = true ->
    ps_propagator K hl fuel csvd1 csvd2 answers Q half calls steps dt first ps_method false (s, k) = (ys, (log, st)) ->
    mixed_calls hl fuel log /\
    (exists l, two_site_order ropp R dt l /\
      forall n t r x ev, nth_error ys n = Some (t, r, x, ev) ->
        t = Propagate_Spec.ticks first dt n /\ r = sroot K s /\ croot x = r /\ (exists A', network (cheap x) R A') /\
        if n =? 0 then x = (s, k) /\ ev = [] else ev = l) /\
    match st with
    | Propagate_Model.Stopped => steps = Some (length ys) /\ length ys < calls
    | Propagate_Model.Suspended => length ys = calls /\ forall N, steps = Some N -> length ys <= N
    | Propagate_Model.Failed _ => 0 < length ys < calls /\ forall N, steps = Some N -> length ys <= N
    end.
Proof.
  intros K Q hl fuel csvd1 csvd2 answers half dt first calls steps m s k R A ys log st S1 S2 N Et Hf Se Ne Em E.
  assert (P : ps_pre K hl fuel (s, k)) by (exists R, A; auto).
  assert (Hs : forall x A, ps_pre K hl fuel x -> network (cheap x) R A -> top R = croot x ->
      achieves K Q (Step_Model.counted K) (record K unit) cheap croot (ps_inv K hl fuel) (Ps_Proof.good K hl fuel) R (Unite_Proof.utr Q ropp dt true R)
        (ps_step K hl fuel csvd1 csvd2 answers Q half (true, false) dt x)).
  { intros x A' P' N' Et'.
    exact (two_achieves K Q ropp fuel _ _ cheap croot (ps_form K hl fuel) (ps_prop K hl fuel answers) (ps_move K hl fuel csvd1 csvd2 answers)
    (ps_inv K hl fuel) (Ps_Proof.good K hl fuel) (Ps_Proof.good_nil K hl fuel) (Ps_Proof.good_app K hl fuel) (ps_net K hl fuel)
    (ps_prop_ok K hl fuel answers Q) (ps_move_ok K hl fuel csvd1 csvd2 S1 S2 answers Q) (ps_pre K hl fuel) (ps_pre_fuel K hl fuel) (ps_form_ok K hl fuel) (ps_unite_ok K hl fuel csvd1 csvd2 S2 answers Q)
      x R A' dt P' N' Et' Ne). }
  assert (E' : ps_loop K hl fuel csvd1 csvd2 answers Q half steps dt first (true, false) (sroot K s) calls 0 [] (s, k) = (ys, (log, st))).
  { unfold ps_propagator, ps_choose in E. rewrite Em in E. destruct calls; exact E. }
  clear E. destruct (loop_ok K hl fuel csvd1 csvd2 answers Q half dt first R _ (true, false) steps (sroot K s) Hs calls 0 [] (s, k) A ys log st P N Et E') as (G & Y & St).
  split; [apply good_mixed; auto|]. split.
  - eexists. split; [eapply (two_list_order K Q ropp); eauto|]. intros n t r x ev En. destruct (Y n t r x ev En) as (Y1 & Y2 & Y3 & Y4 & Y5 & Y6). rewrite <- Propagate_Prop.ticks_time.
    split; auto. split; auto. split; [congruence|]. split; auto. destruct (Nat.eqb_spec n 0) as [->|Nn]; [apply Y5; auto|apply Y6; lia].
  - destruct st.
    + destruct St as (St & B). split; auto. intros N0 EN. specialize (B N0 EN). lia.
    + destruct St as (N0 & -> & B1 & B2). rewrite Nat.sub_0_r in B1. rewrite B1 in *. auto.
    + destruct St as (St & B). split; auto. intros N0 EN. specialize (B N0 EN). lia.
Qed.
Print Assumptions C88_propagator_two_site.

(** Of second order, it yields the pair of the start and never another. *)
Theorem C88_propagator_two_site_second_order_fails :
  forall (K Q : StarRing) hl fuel csvd1 csvd2 answers (half dt first : Q) calls steps ps_method (s : Cache_Model.state K) k R A ys log st,
    some_svd csvd1 -> some_svd csvd2 ->
    network (sheap K s) R A -> top R = sroot K s -> S (length (ids R)) <= fuel -> seated (sheap K s) hl -> inner_edges R <> [] ->
    Propagate_Model.starts ps_method "U" = true -> steps <> Some 0 -> 2 <= calls ->
    ps_propagator K hl fuel csvd1 csvd2 answers Q half calls steps dt first ps_method true (s, k) = (ys, (log, st)) ->
    mixed_calls hl fuel log /\ ys = [(first, sroot K s, (s, k), [])] /\ exists e, st = Propagate_Model.Failed e.
Proof.
  intros K Q hl fuel csvd1 csvd2 answers half dt first calls steps m s k R A ys log st S1 S2 N Et Hf Se Ne Em Ns Hc E.
  unfold ps_propagator, ps_choose in E. rewrite Em in E. destruct calls as [|[|calls]]; [lia|lia|]. cbn [ps_loop] in E.
  replace (match steps with Some m => m <=? 0 | None => false end) with false in E by (destruct steps as [[|]|]; auto; congruence).
  destruct (ps_step K hl fuel csvd1 csvd2 answers Q half (true, true) dt (s, k)) as (ev, (lg, out)) eqn:Es.
  unfold ps_step in Es. cbn [fst snd] in Es.
  destruct (C88_second_order_two_site_raises K hl fuel csvd1 csvd2 answers Q ropp (fun x => (half * x)%S) s k R A dt ev lg out S1 S2 N Et Hf Se Ne Es) as ((e & ->) & G & _).
  injection E as <- <- <-. split; auto. split; [|eauto]. change (croot (s, k)) with (sroot K s). do 4 f_equal. apply (Propagate_Prop.ticks_time Q first dt 0).
Qed.
Print Assumptions C88_propagator_two_site_second_order_fails.

(** A method whose first letter is neither U nor S, upper or lower case, is refused when the first pair is asked
    for, and not before. *)
Theorem C88_other_methods_refused :
  forall (K Q : StarRing) hl fuel csvd1 csvd2 answers (half dt first : Q) calls steps ps_method snd_order (x : Step_Model.counted K),
    (forall c rest, ps_method = String c rest -> ~ In c ["U"; "u"; "S"; "s"]%char) ->
    ps_propagator K hl fuel csvd1 csvd2 answers Q half calls steps dt first ps_method snd_order x =
    ([], ([], if calls =? 0 then Propagate_Model.Suspended else Propagate_Model.Failed ValueError)).
Proof.
  intros K Q hl fuel csvd1 csvd2 answers half dt first calls steps m so x Hm. unfold ps_propagator. destruct calls as [|calls]; [reflexivity|].
  assert (X : ps_choose m so = Raise ValueError); [|rewrite X; reflexivity].
  unfold ps_choose, Propagate_Model.starts. destruct m as [|c m]; [reflexivity|]. specialize (Hm c m eq_refl).
  destruct c as [[] [] [] [] [] [] [] []]; try reflexivity; exfalso; apply Hm; cbn; auto.
Qed.
Print Assumptions C88_other_methods_refused.

(** ** C89: the steps of ml.py *)
Section C89.
Variable K : StarRing.
Variable D : Type.
Variable sys : system K D.
Variable fuel : nat.
Variables csvd1 csvd2 : arr K -> res (arr K * arr K * arr K).
Variable calls : nat -> list (call K D).
Variable clock : nat -> D.
(** Each call of [diff] returns what it returns with nothing stored, as in C23. *)
Definition exact_calls (log : list (record K D)) : Prop :=
  forall s cache t y, In (Called K D s cache t y) log ->
    result (diff K D sys fuel (sroot K s) cache t y s) = result (diff K D sys fuel (sroot K s) false t y (forget s)).
Lemma good_exact log : f_list K D sys = None \/ f_list K D sys = Some [] -> CacheExact_Proof.good K D sys fuel log -> exact_calls log.
Proof. intros Ef G s cache t y Hin. destruct (G s cache t y Hin) as (R' & Rd). eapply diff_exact; eauto. Qed.
Definition split_step {T} (opp : T -> T) := one_site opp fuel cheap croot (ml_form K D sys fuel clock) (ml_prop K D sys fuel calls) (ml_move K D sys fuel csvd1 csvd2 calls true).
Definition unite_step {T} (opp : T -> T) := two_site opp fuel cheap croot (ml_form K D sys fuel clock) (ml_prop K D sys fuel calls) (ml_move K D sys fuel csvd1 csvd2 calls true).
Definition r_split_step {T} (opp half_of : T -> T) := recursive_step opp half_of fuel cheap croot (ml_form K D sys fuel clock) (ml_prop K D sys fuel calls) (ml_move K D sys fuel csvd1 csvd2 calls false).
Lemma ml_refuses T (tau : T) t x : oaxis (hget (cheap x) t) <> None -> ml_prop K D sys fuel calls tau t x = ([], Raise RuntimeError).
Proof.
  intros Na. unfold ml_prop, Cache_Model.split_prop. fold (cheap x). destruct (oaxis (hget (cheap x) t)); [reflexivity|congruence].
Qed.
End C89.
Arguments exact_calls {K D} _ _ _. Arguments split_step {K D} _ _ _ _ _ _ {T} _ _ _ _. Arguments unite_step {K D} _ _ _ _ _ _ {T} _ _ _ _.
Arguments r_split_step {K D} _ _ _ _ _ _ {T} _ _ _ _ _.

(** Whatever the solver does, [split_step] propagates tensors and bonds in the order of C18, the
    environments that are used are those computed anew, and a network with the same links comes back. *)
Theorem C89_split_step :
  forall (K : StarRing) D (sys : system K D) fuel csvd1 csvd2 calls clock T (opp : T -> T) (s : Cache_Model.state K) k R A tau backward ev log out,
    f_list K D sys = None \/ f_list K D sys = Some [] -> some_svd csvd1 -> some_svd csvd2 ->
    network (sheap K s) R A -> top R = sroot K s -> S (length (ids R)) <= fuel ->
    split_step sys fuel csvd1 csvd2 calls clock opp tau backward (s, k) = (ev, (log, out)) ->
    (exists l, one_site_order opp R tau backward l /\ as_far l ev (ended out)) /\
    exact_calls sys fuel log /\
    forall s' k', out = Ok (s', k') -> sroot K s' = sroot K s /\ exists A', network (sheap K s') R A'.
Proof.
  intros K D sys fuel csvd1 csvd2 calls clock T opp s k R A tau b ev log out Ef S1 S2 N Et Hf E.
  assert (P : ml_pre K fuel (s, k)) by (exists R, A; auto).
  pose proof (one_achieves K T opp fuel _ _ cheap croot (ml_form K D sys fuel clock) (ml_prop K D sys fuel calls) (ml_move K D sys fuel csvd1 csvd2 calls true)
    (ml_inv K D sys fuel) (CacheExact_Proof.good K D sys fuel) (CacheExact_Proof.good_nil K D sys fuel) (CacheExact_Proof.good_app K D sys fuel) (ml_net K D sys fuel)
    (ml_prop_ok K D sys fuel calls T) (ml_move_ok K D sys fuel csvd1 csvd2 S1 S2 calls true T) (ml_pre K fuel) (ml_pre_fuel K fuel) (ml_form_ok K D sys fuel clock)
    (s, k) R A tau b P N Et) as H.
  unfold split_step in E. rewrite E in H. destruct H as (G & Af & Ho). split; [|split].
  - eexists. split; [|exact Af]. eapply one_list_order; eauto.
  - apply good_exact; auto.
  - intros s' k' ->. destruct (Ho (s', k') eq_refl) as (_ & Er & Nn). split; [rewrite <- Et; exact Er|exact Nn].
Qed.
Print Assumptions C89_split_step.

(** [snd_order_step] with it: in the order of C19. *)
Theorem C89_second_order_step :
  forall (K : StarRing) D (sys : system K D) fuel csvd1 csvd2 calls clock T (opp half_of : T -> T) (s : Cache_Model.state K) k R A tau ev log out,
    f_list K D sys = None \/ f_list K D sys = Some [] -> some_svd csvd1 -> some_svd csvd2 ->
    network (sheap K s) R A -> top R = sroot K s -> S (length (ids R)) <= fuel ->
    second_order half_of (split_step sys fuel csvd1 csvd2 calls clock opp) tau (s, k) = (ev, (log, out)) ->
    (exists l, second_order_order opp half_of R tau l /\ as_far l ev (ended out)) /\
    exact_calls sys fuel log /\
    forall s' k', out = Ok (s', k') -> sroot K s' = sroot K s /\ exists A', network (sheap K s') R A'.
Proof.
  intros K D sys fuel csvd1 csvd2 calls clock T opp half_of s k R A tau ev log out Ef S1 S2 N Et Hf E.
  assert (P : ml_pre K fuel (s, k)) by (exists R, A; auto).
  pose proof (second_achieves K T opp half_of fuel _ _ cheap croot (ml_form K D sys fuel clock) (ml_prop K D sys fuel calls) (ml_move K D sys fuel csvd1 csvd2 calls true)
    (ml_inv K D sys fuel) (CacheExact_Proof.good K D sys fuel) (CacheExact_Proof.good_nil K D sys fuel) (CacheExact_Proof.good_app K D sys fuel) (ml_net K D sys fuel)
    (ml_prop_ok K D sys fuel calls T) (ml_move_ok K D sys fuel csvd1 csvd2 S1 S2 calls true T) (ml_pre K fuel) (ml_pre_inv K D sys fuel) (ml_pre_fuel K fuel) (ml_form_ok K D sys fuel clock)
    (s, k) R A tau P N Et) as H.
  unfold split_step in E. rewrite E in H. destruct H as (G & Af & Ho). split; [|split].
  - eexists. split; [|exact Af]. eapply second_list_order; eauto.
  - apply good_exact; auto.
  - intros s' k' ->. destruct (Ho (s', k') eq_refl) as (_ & Er & Nn). split; [rewrite <- Et; exact Er|exact Nn].
Qed.
Print Assumptions C89_second_order_step.

(** [r_split_step], of first or second order: the totals of C22; of second order it is symmetric just for chains. *)
Theorem C89_recursive_step :
  forall (K Q : StarRing) D (sys : system K D) fuel csvd1 csvd2 calls clock (half_of : Q -> Q) snd_order (s : Cache_Model.state K) k R A tau ev log out,
    (forall x, radd (half_of x) (half_of x) = x) ->
    f_list K D sys = None \/ f_list K D sys = Some [] -> some_svd csvd1 -> some_svd csvd2 ->
    network (sheap K s) R A -> top R = sroot K s -> S (length (ids R)) <= fuel ->
    r_split_step sys fuel csvd1 csvd2 calls clock ropp half_of snd_order tau (s, k) = (ev, (log, out)) ->
    (exists l, recursive_totals R tau l /\ (if snd_order then symmetric l <-> chain R else one_site_order ropp R tau false l) /\
      as_far l ev (ended out)) /\
    exact_calls sys fuel log /\
    forall s' k', out = Ok (s', k') -> sroot K s' = sroot K s /\ exists A', network (sheap K s') R A'.
Proof.
  intros K Q D sys fuel csvd1 csvd2 calls clock half_of so s k R A tau ev log out Hh Ef S1 S2 N Et Hf E.
  assert (P : ml_pre K fuel (s, k)) by (exists R, A; auto).
  pose proof (recursive_achieves K Q ropp half_of fuel _ _ cheap croot (ml_form K D sys fuel clock) (ml_prop K D sys fuel calls) (ml_move K D sys fuel csvd1 csvd2 calls false)
    (ml_inv K D sys fuel) (CacheExact_Proof.good K D sys fuel) (CacheExact_Proof.good_nil K D sys fuel) (CacheExact_Proof.good_app K D sys fuel) (ml_net K D sys fuel)
    (ml_prop_ok K D sys fuel calls Q) (ml_move_ok K D sys fuel csvd1 csvd2 S1 S2 calls false Q) (ml_pre K fuel) (ml_pre_fuel K fuel) (ml_form_ok K D sys fuel clock)
    (s, k) R A so tau P N Et) as H.
  unfold r_split_step in E. rewrite E in H. destruct H as (G & Af & Ho). destruct (net_facts K fuel (sheap K s) R A N Hf) as (Hg & NS & Or & ND & Hht & Hi). split; [|split].
  - exists (rtr Q ropp half_of so R tau). split; [|split; auto].
    + split; [apply rtr_follows|]. split; [now apply rtr_totals|]. split; [now apply rtr_totals|]. split.
      * apply rtr_pairs.
      * intros n t Hin. apply in_flat_map in Hin. destruct Hin as (e & He & Hin). pose proof (rtr_inside Q ropp half_of so R tau e He) as X. destruct e; cbn in Hin; try tauto.
        destruct Hin as [Hin|[]]. injection Hin as <- _. exact X.
    + destruct so; [apply rtr_symmetric; auto|]. rewrite rtr_first by auto. exact (one_list_order K Q ropp fuel (sheap K s) R A tau false N Hf).
  - apply good_exact; auto.
  - intros s' k' ->. destruct (Ho (s', k') eq_refl) as (_ & Er & Nn). split; [rewrite <- Et; exact Er|exact Nn].
Qed.
Print Assumptions C89_recursive_step.

(** The backward [unite_step] raises before it has propagated anything. *)
Theorem C89_backward_unite_step_raises :
  forall (K : StarRing) D (sys : system K D) fuel csvd1 csvd2 calls clock T (opp : T -> T) (s : Cache_Model.state K) k R A tau,
    network (sheap K s) R A -> top R = sroot K s -> S (length (ids R)) <= fuel -> inner_edges R <> [] ->
    exists e, unite_step sys fuel csvd1 csvd2 calls clock opp tau true (s, k) = ([], ([], Raise e)) /\
      (e = RuntimeError \/ form_env K D sys fuel false (clock k) s = Raise e).
Proof.
  intros K D sys fuel csvd1 csvd2 calls clock T opp s k R A tau N Et Hf Ne.
  assert (P : ml_pre K fuel (s, k)) by (exists R, A; auto).
  destruct (two_back K T opp fuel _ _ cheap croot (ml_form K D sys fuel clock) (ml_prop K D sys fuel calls) (ml_move K D sys fuel csvd1 csvd2 calls true)
    (ml_inv K D sys fuel) (ml_net K D sys fuel) (ml_pre K fuel) (ml_pre_fuel K fuel) (ml_form_ok K D sys fuel clock) (ml_refuses K D sys fuel calls T)
    (s, k) R A tau P N Et Ne) as (e & E & Or). exists e. split; [exact E|]. destruct Or as [->|Or]; [auto|right]. unfold ml_form in Or. cbn [fst snd] in Or.
  destruct (form_env K D sys fuel false (clock k) s); [discriminate|]. injection Or as <-. auto.
Qed.
Print Assumptions C89_backward_unite_step_raises.

(** The forward [unite_step] of more than one tensor: in the order of C20, the same otherwise. *)
Theorem C89_unite_step :
  forall (K : StarRing) D (sys : system K D) fuel csvd1 csvd2 calls clock T (opp : T -> T) (s : Cache_Model.state K) k R A tau ev log out,
    f_list K D sys = None \/ f_list K D sys = Some [] -> some_svd csvd1 -> some_svd csvd2 ->
    network (sheap K s) R A -> top R = sroot K s -> S (length (ids R)) <= fuel -> inner_edges R <> [] ->
    unite_step sys fuel csvd1 csvd2 calls clock opp tau false (s, k) = (ev, (log, out)) ->
    (exists l, two_site_order opp R tau l /\ as_far l ev (ended out)) /\
    exact_calls sys fuel log /\
    forall s' k', out = Ok (s', k') -> sroot K s' = sroot K s /\ exists A', network (sheap K s') R A'.
Proof.
  intros K D sys fuel csvd1 csvd2 calls clock T opp s k R A tau ev log out Ef S1 S2 N Et Hf Ne E.
  assert (P : ml_pre K fuel (s, k)) by (exists R, A; auto).
  pose proof (two_achieves K T opp fuel _ _ cheap croot (ml_form K D sys fuel clock) (ml_prop K D sys fuel calls) (ml_move K D sys fuel csvd1 csvd2 calls true)
    (ml_inv K D sys fuel) (CacheExact_Proof.good K D sys fuel) (CacheExact_Proof.good_nil K D sys fuel) (CacheExact_Proof.good_app K D sys fuel) (ml_net K D sys fuel)
    (ml_prop_ok K D sys fuel calls T) (ml_move_ok K D sys fuel csvd1 csvd2 S1 S2 calls true T) (ml_pre K fuel) (ml_pre_fuel K fuel) (ml_form_ok K D sys fuel clock) (ml_unite_ok K D sys fuel csvd1 csvd2 S2 calls true T)
    (s, k) R A tau P N Et Ne) as H.
  unfold unite_step in E. rewrite E in H. destruct H as (G & Af & Ho). split; [|split].
  - eexists. split; [|exact Af]. eapply two_list_order; eauto.
  - apply good_exact; auto.
  - intros s' k' ->. destruct (Ho (s', k') eq_refl) as (_ & Er & Nn). split; [rewrite <- Et; exact Er|exact Nn].
Qed.
Print Assumptions C89_unite_step.

(** [snd_order_step] with it never ends. *)
Theorem C89_second_order_unite_step_raises :
  forall (K : StarRing) D (sys : system K D) fuel csvd1 csvd2 calls clock T (opp half_of : T -> T) (s : Cache_Model.state K) k R A tau ev log out,
    f_list K D sys = None \/ f_list K D sys = Some [] -> some_svd csvd1 -> some_svd csvd2 ->
    network (sheap K s) R A -> top R = sroot K s -> S (length (ids R)) <= fuel -> inner_edges R <> [] ->
    second_order half_of (unite_step sys fuel csvd1 csvd2 calls clock opp) tau (s, k) = (ev, (log, out)) ->
    (exists e, out = Raise e) /\ exact_calls sys fuel log /\
    exists rest, two_site_order opp R (half_of tau) (ev ++ rest).
Proof.
  intros K D sys fuel csvd1 csvd2 calls clock T opp half_of s k R A tau ev log out Ef S1 S2 N Et Hf Ne E.
  assert (P : ml_pre K fuel (s, k)) by (exists R, A; auto).
  destruct (two_second K T opp half_of fuel _ _ cheap croot (ml_form K D sys fuel clock) (ml_prop K D sys fuel calls) (ml_move K D sys fuel csvd1 csvd2 calls true)
    (ml_inv K D sys fuel) (CacheExact_Proof.good K D sys fuel) (CacheExact_Proof.good_nil K D sys fuel) (CacheExact_Proof.good_app K D sys fuel) (ml_net K D sys fuel)
    (ml_prop_ok K D sys fuel calls T) (ml_move_ok K D sys fuel csvd1 csvd2 S1 S2 calls true T) (ml_pre K fuel) (ml_pre_inv K D sys fuel) (ml_pre_fuel K fuel) (ml_form_ok K D sys fuel clock)
    (ml_refuses K D sys fuel calls T) (ml_unite_ok K D sys fuel csvd1 csvd2 S2 calls true T)
    (s, k) R A tau ev log out P N Et Ne E) as (G & (rest & Er) & Ho). split; auto. split; [apply good_exact; auto|].
  exists rest. rewrite <- Er. eapply two_list_order; eauto.
Qed.
Print Assumptions C89_second_order_unite_step_raises.

(** ** Examples *)
(** The network of C79's example: tensors 0 and 1 with leaves 2 and 3, two terms.  The solver calls [diff] once or twice. *)
Definition st_answers (k : nat) : list (list Z_star) * list Z_star := if Nat.even k then ([y1; y2], y1) else ([y2], y2).
Definition ends {D} (r : srun Z (Step_Model.counted Z_star) (record Z_star D)) :=
  (fst r, length (fst (snd r)), match snd (snd r) with Ok x => inl (croot x, map (fun n => oarr (hget (cheap x) n)) [0; 1]) | Raise e => inr e end).
Example C88_example :
  network (sheap _ tw_s) tw_t tw_a /\ top tw_t = sroot _ tw_s /\ S (length (ids tw_t)) <= 6 /\ some_svd (@plain_svd Z_star) /\ seated (sheap _ tw_s) Ps_Prop.ps_terms /\
  inner_edges tw_t = [(0, 0, 1, 0)] /\
  ends (one_site_step Ps_Prop.ps_terms 6 plain_svd plain_svd st_answers Z.opp 3%Z false (tw_s, 0)) =
    ([Shift (0, 0, 1, 0); Node 1 3%Z; Bond (1, 0, 0, 0) (-3)%Z; Node 0 3%Z], 7, inl (0, [Some (zm 1 2 3 4); Some (zm 1 0 0 1)])) /\
  ends (second_order Z.div2 (one_site_step Ps_Prop.ps_terms 6 plain_svd plain_svd st_answers Z.opp) 4%Z (tw_s, 0)) =
    ([Shift (0, 0, 1, 0); Node 1 2%Z; Bond (1, 0, 0, 0) (-2)%Z; Node 0 2%Z; Node 0 2%Z; Bond (0, 0, 1, 0) (-2)%Z; Node 1 2%Z; Shift (1, 0, 0, 0)],
     14, inl (0, [Some (zm 1 3 2 4); Some (zm 1 0 0 1)])) /\
  ends (two_site_step Ps_Prop.ps_terms 6 plain_svd plain_svd st_answers Z.opp 3%Z true (tw_s, 0)) = ([], 0, inr RuntimeError).
Proof.
  split; [apply tw_network|]. split; [reflexivity|]. split; [cbn; lia|]. split; [apply plain_some|]. split; [exact Ps_Prop.ps_seated|]. split; [reflexivity|].
  split; [|split]; vm_compute; reflexivity.
Qed.
(** The generator: two steps asked for, [next] called four times; then a solver that returns a vector of the wrong length at last;
    then methods that are refused. *)
Definition pairs_of {Q : StarRing} (r : list (Q * id * Step_Model.counted Z_star * list (event Q)) * (list (record Z_star unit) * Propagate_Model.status)) :=
  (map (fun y => let '(t, n, x, ev) := y in (t, n, oarr (hget (cheap x) 0), length ev)) (fst r), snd (snd r)).
Example C88_example_generator :
  Propagate_Model.starts "split" "S" = true /\
  (let gen := fun ans m => pairs_of (ps_propagator Z_star Ps_Prop.ps_terms 6 plain_svd plain_svd ans Z_star (1%Z : Z_star) 4 (Some 2) (5%Z : Z_star) (7%Z : Z_star) m false (tw_s, 0)) in
   gen st_answers "split"%string = ([(7%Z, 0, Some (zm 1 0 0 0), 0); (12%Z, 0, Some (zm 1 2 3 4), 4)], Propagate_Model.Stopped) /\
   gen (fun k => if k <? 4 then st_answers k else ([y1], [1%Z : Z_star])) "s"%string = ([(7%Z, 0, Some (zm 1 0 0 0), 0)], Propagate_Model.Failed ValueError) /\
   gen st_answers "r"%string = ([], Propagate_Model.Failed ValueError) /\ gen st_answers EmptyString = ([], Propagate_Model.Failed ValueError)).
Proof. vm_compute. repeat split. Qed.

Definition ml_calls (k : nat) : list (call Z_star nat) := if Nat.even k then [Diff _ _ k y1; Diff _ _ k y2; Update _ _ y1] else [Diff _ _ k y2; Reform _ _ k; Diff _ _ k y2; Update _ _ y2].
Example C89_example :
  network (sheap _ tw_s) tw_t tw_a /\ top tw_t = sroot _ tw_s /\ S (length (ids tw_t)) <= 6 /\ some_svd (@plain_svd Z_star) /\ f_list _ _ tw_sys = None /\
  inner_edges tw_t = [(0, 0, 1, 0)] /\
  ends (split_step tw_sys 6 plain_svd plain_svd ml_calls (fun k => k) Z.opp 3%Z true (tw_s, 0)) =
    ([Node 0 3%Z; Bond (0, 0, 1, 0) (-3)%Z; Node 1 3%Z; Shift (1, 0, 0, 0)], 8, inl (0, [Some (zm 2 1 0 1); Some (zm 1 0 0 1)])) /\
  ends (second_order Z.div2 (split_step tw_sys 6 plain_svd plain_svd ml_calls (fun k => k) Z.opp) 4%Z (tw_s, 0)) =
    ([Shift (0, 0, 1, 0); Node 1 2%Z; Bond (1, 0, 0, 0) (-2)%Z; Node 0 2%Z; Node 0 2%Z; Bond (0, 0, 1, 0) (-2)%Z; Node 1 2%Z; Shift (1, 0, 0, 0)],
     16, inl (0, [Some (zm 1 3 2 4); Some (zm 1 0 0 1)])) /\
  ends (r_split_step tw_sys 6 plain_svd plain_svd ml_calls (fun k => k) Z.opp Z.div2 true 4%Z (tw_s, 0)) =
    ([Shift (0, 0, 1, 0); Node 1 2%Z; Bond (1, 0, 0, 0) (-2)%Z; Node 0 4%Z; Bond (0, 0, 1, 0) (-2)%Z; Node 1 2%Z; Shift (1, 0, 0, 0)],
     14, inl (0, [Some (zm 1 3 2 4); Some (zm 1 0 0 1)])) /\
  ends (unite_step tw_sys 6 plain_svd plain_svd ml_calls (fun k => k) Z.opp 3%Z true (tw_s, 0)) = ([], 0, inr RuntimeError).
Proof.
  split; [apply tw_network|]. split; [reflexivity|]. split; [cbn; lia|]. split; [apply plain_some|]. split; [reflexivity|]. split; [reflexivity|].
  split; [|split; [|split]]; vm_compute; reflexivity.
Qed.

(** ** Examples of the two-site step: a root 0 with leaf 5 and two neighbours 1 and 2, with leaves 3 and 4 *)
Definition th_a (n : nat) : arr Z_star := match n with 0 => mkArr [2; 2; 2] ([1; 0; 0; 2; 0; 1; 1; 0]%Z : list Z_star) | _ => zm 1 0 0 1 end.
Definition th_h : heap Z_star :=
  [mkObj (Some "0"%string) false (Some (th_a 0)) None None true [(0, (1, 0)); (1, (2, 0)); (2, (5, 0))] [];
   mkObj (Some "1"%string) false (Some (th_a 1)) None (Some 0) true [(0, (0, 0)); (1, (3, 0))] [];
   mkObj (Some "2"%string) false (Some (th_a 2)) None (Some 0) true [(0, (0, 1)); (1, (4, 0))] [];
   mkObj (Some "3"%string) true None None None false [(0, (1, 1))] [];
   mkObj (Some "4"%string) true None None None false [(0, (2, 1))] [];
   mkObj (Some "5"%string) true None None None false [(0, (0, 2))] []].
Definition th_t : tree := Nd 0 [(0, Nd 1 [(1, Lf 3, 0)], 0); (1, Nd 2 [(1, Lf 4, 0)], 0); (2, Lf 5, 0)].
Lemma th_network : network th_h th_t th_a.
Proof.
  split; [|split; [|split; [|split; [|split; [|split]]]]].
  - intros n. destruct n as [|[|[|[|[|[|n]]]]]]; [cbn; repeat constructor; cbn; intuition discriminate..|]. unfold th_h, hget. destruct n; cbn; constructor.
  - intros n i e j H. unfold points in *. destruct n as [|[|[|[|[|[|n]]]]]]; cbn in H; [..|destruct n; destruct H];
    repeat (destruct H as [H|H]; [injection H as <- <- <-; cbn; auto|]); destruct H.
  - intros n i H. destruct n as [|[|[|[|[|[|n]]]]]]; cbn in H; try (destruct n; exact H);
    repeat (destruct H as [H|H]; [inversion H|]); exact H.
  - apply hangs_root; [reflexivity|reflexivity|cbn; repeat constructor; cbn; intuition discriminate|].
    repeat constructor.
    + apply (hangs_node _ _ 1 0 (0, 0) [] [(1, Lf 3, 0)]); [reflexivity|reflexivity| |repeat constructor].
      cbn. repeat constructor; cbn; intuition discriminate.
    + apply (hangs_node _ _ 2 0 (0, 1) [] [(1, Lf 4, 0)]); [reflexivity|reflexivity| |repeat constructor].
      cbn. repeat constructor; cbn; intuition discriminate.
  - repeat constructor.
  - constructor; [reflexivity|repeat constructor|exact Logic.I|reflexivity|]. constructor; [|constructor; [|repeat constructor]];
    (constructor; [reflexivity|repeat constructor|cbn; lia|reflexivity|repeat constructor]).
  - intros n Hn. cbn in Hn. destruct Hn as [<-|[<-|[<-|[]]]]; (split; [reflexivity|eexists; split; reflexivity]).
Qed.
Definition th_s : Cache_Model.state Z_star := mkState Z_star th_h 0 (no_env Z_star).
Definition th_terms : list (list (nat * arr Z_star)) := [[(5, sz)]; [(3, zm 0 1 1 0); (4, sz)]].
Lemma th_seated : seated th_h th_terms.
Proof.
  intros term l m Ht Hl. cbn in Ht. destruct Ht as [<-|[<-|[]]]; cbn in Hl; repeat (destruct Hl as [Q|Hl]; [injection Q as <- <-; cbn; split; auto; lia|]); destruct Hl.
Qed.
Definition z1 : list Z_star := ([1; 2; 0; 1; 0; 0; 1; 1]%Z : list Z_star).
Definition z2 : list Z_star := ([0; 1; 1; 0; 2; 0; 0; 1]%Z : list Z_star).
Definition th_answers (k : nat) : list (list Z_star) * list Z_star := if Nat.even k then ([z1; z2], z1) else ([z2], z2).
Definition th_calls (k : nat) : list (call Z_star nat) := if Nat.even k then [Diff _ _ k z1; Diff _ _ k z2; Update _ _ z1] else [Diff _ _ k z2; Reform _ _ k; Diff _ _ k z2; Update _ _ z2].
Definition th_sys : system Z_star nat := mkSystem Z_star nat th_terms None.
Definition ends3 {D} (r : srun Z (Step_Model.counted Z_star) (record Z_star D)) :=
  (fst r, length (fst (snd r)), match snd (snd r) with Ok x => inl (croot x, map (fun n => oarr (hget (cheap x) n)) [0; 1; 2]) | Raise e => inr e end).
Definition z8 (l : list Z) : option (arr Z_star) := Some (mkArr [2; 2; 2] (l : list Z_star)).
Example C88_example_two_site :
  network (sheap _ th_s) th_t th_a /\ top th_t = sroot _ th_s /\ S (length (ids th_t)) <= 9 /\ some_svd (@plain_svd Z_star) /\ seated (sheap _ th_s) th_terms /\
  inner_edges th_t <> [] /\ Propagate_Model.starts "unite" "U" = true /\
  ends3 (two_site_step th_terms 9 plain_svd plain_svd th_answers Z.opp 3%Z false (th_s, 0)) =
    ([Pair (1, 0, 0, 0) 3%Z; Node 0 (-3)%Z; Pair (2, 0, 0, 1) 3%Z], 6, inl (0, [z8 [0; 1; 1; 0; 2; 0; 0; 1]%Z; Some (zm 1 0 0 1); Some (zm 1 0 0 1)])) /\
  ends3 (second_order Z.div2 (two_site_step th_terms 9 plain_svd plain_svd th_answers Z.opp) 4%Z (th_s, 0)) =
    ([Pair (1, 0, 0, 0) 2%Z; Node 0 (-2)%Z; Pair (2, 0, 0, 1) 2%Z], 6, inr RuntimeError) /\
  (let gen := fun so => pairs_of (ps_propagator Z_star th_terms 9 plain_svd plain_svd th_answers Z_star (1%Z : Z_star) 4 (Some 2) (5%Z : Z_star) (7%Z : Z_star) "unite" so (th_s, 0)) in
   gen false = ([(7%Z, 0, z8 [1; 0; 0; 2; 0; 1; 1; 0]%Z, 0); (12%Z, 0, z8 [0; 1; 1; 0; 2; 0; 0; 1]%Z, 3)], Propagate_Model.Stopped) /\
   gen true = ([(7%Z, 0, z8 [1; 0; 0; 2; 0; 1; 1; 0]%Z, 0)], Propagate_Model.Failed RuntimeError)).
Proof.
  split; [apply th_network|]. split; [reflexivity|]. split; [cbn; lia|]. split; [apply plain_some|]. split; [exact th_seated|]. split; [discriminate|]. split; [reflexivity|].
  split; [|split; [|split]]; vm_compute; reflexivity.
Qed.
Example C89_example_two_site :
  network (sheap _ th_s) th_t th_a /\ top th_t = sroot _ th_s /\ S (length (ids th_t)) <= 9 /\ some_svd (@plain_svd Z_star) /\ f_list _ _ th_sys = None /\ inner_edges th_t <> [] /\
  ends3 (unite_step th_sys 9 plain_svd plain_svd th_calls (fun k => k) Z.opp 3%Z false (th_s, 0)) =
    ([Pair (1, 0, 0, 0) 3%Z; Node 0 (-3)%Z; Pair (2, 0, 0, 1) 3%Z], 8, inl (0, [z8 [0; 1; 1; 0; 2; 0; 0; 1]%Z; Some (zm 1 0 0 1); Some (zm 1 0 0 1)])) /\
  ends3 (second_order Z.div2 (unite_step th_sys 9 plain_svd plain_svd th_calls (fun k => k) Z.opp) 4%Z (th_s, 0)) =
    ([Pair (1, 0, 0, 0) 2%Z; Node 0 (-2)%Z; Pair (2, 0, 0, 1) 2%Z], 8, inr RuntimeError).
Proof.
  split; [apply th_network|]. split; [reflexivity|]. split; [cbn; lia|]. split; [apply plain_some|]. split; [reflexivity|]. split; [discriminate|].
  split; vm_compute; reflexivity.
Qed.
