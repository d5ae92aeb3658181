(** Lemmas on the loops of a propagation. *)
From Coq Require Import String Ascii List Arith Bool Lia.
From Verif Require Import Py Alg Propagate_Model Propagate_Spec.
Import ListNotations.
Local Open Scope nat_scope.
Local Open Scope list_scope.

Section Loops.
Variable W : Type.
Notation act := (act W).

Lemma repeated_first (a : nat -> act) : forall m n w,
  repeated a n (S m) w = match a n w with (w', None) => repeated a (S n) m w' | r => r end.
Proof.
  induction m as [|m IH]; intros n w.
  - cbn [repeated]. rewrite Nat.add_0_r. destruct (a n w) as (w', [e|]); auto.
  - change (repeated a n (S (S m)) w) with (match repeated a n (S m) w with (w, None) => a (n + S m) w | r => r end).
    rewrite IH. destruct (a n w) as (w', [e|]); auto. cbn [repeated]. replace (n + S m) with (S n + m) by lia. reflexivity.
Qed.
Lemma repeated_le (a : nat -> act) n w : forall m k wm, k <= m -> repeated a n m w = (wm, None) -> exists wk, repeated a n k w = (wk, None).
Proof.
  induction m as [|m IH]; intros k wm Hk E; [replace k with 0 by lia; exists w; reflexivity|].
  destruct (Nat.eq_dec k (S m)) as [->|Hn]; [eauto|]. cbn [repeated] in E. destruct (repeated a n m w) as (w', [e|]) eqn:Em; [discriminate|].
  apply (IH k w'); auto. lia.
Qed.

Section Ode.
Variable running : W -> bool.
Variables start step update : act.
Variable reform : option act.
Variables cmf max N : nat.
Hypothesis Hc : 0 < cmf.
Hypothesis HN : is_limit cmf max N.
Notation loop := (ode_loop W running step update reform cmf max).
Notation rnd := (round step update reform cmf).

Lemma below_limit n : 0 < n -> n < N -> n mod cmf = 0 -> max <= n -> False.
Proof.
  intros H0 Hn Hm Hx. destruct HN as (_ & _ & _ & L). assert (N <= n); [|lia]. apply L; auto.
  exists (n / cmf). pose proof (Nat.div_mod n cmf). lia.
Qed.
Lemma limit_mod : N mod cmf = 0.
Proof. destruct HN as ((k & ->) & _). apply Nat.mod_mul. lia. Qed.

Definition reforming (n m : nat) : list nat :=
  match reform with None => [] | Some _ => filter (fun k => k mod cmf =? 0) (seq n m) end.

(** One round below the limit. *)
Lemma loop_round f n w : 0 < n -> n < N -> running w = true ->
  loop (S f) n w = match rnd n w with
    | (w', None) => let '(l, r) := loop f (S n) w' in
        ((if match reform with None => false | Some _ => n mod cmf =? 0 end then [Reforming n] else []) ++ Stepping n :: l, r)
    | (w', Some e) => (fst (loop (S f) n w), (w', Raised e))
    end.
Proof.
  intros H0 Hn Hr. cbn [ode_loop]. rewrite Hr. cbn [negb]. replace (cmf =? 0) with false by (symmetry; apply Nat.eqb_neq; lia).
  unfold round, next. destruct (n mod cmf =? 0) eqn:Em.
  - assert (X : max <=? n = false).
    { apply Nat.leb_gt. destruct (Nat.lt_ge_cases n max); auto. exfalso. apply (below_limit n); auto. apply Nat.eqb_eq. auto. }
    rewrite X. destruct reform as [g|].
    + destruct (g w) as (w1, [e|]); auto. destruct (step w1) as (w2, [e|]); auto. destruct (update w2) as (w3, [e|]); auto.
      destruct (ode_loop _ _ _ _ _ _ _ f (S n) w3). reflexivity.
    + destruct (step w) as (w2, [e|]); auto. destruct (update w2) as (w3, [e|]); auto.
  - destruct reform as [g|]; destruct (step w) as (w2, [e|]); auto; destruct (update w2) as (w3, [e|]); auto.
Qed.

Lemma loop_rounds f : forall m n w wm, 0 < n -> n + m <= N -> repeated rnd n m w = (wm, None) ->
  (forall k wk, k < m -> repeated rnd n k w = (wk, None) -> running wk = true) ->
  exists pre, loop (m + f) n w = (let '(l, r) := loop f (n + m) wm in (pre ++ l, r)) /\
    steps_of pre = seq n m /\ reforms_of pre = reforming n m.
Proof.
  induction m as [|m IH]; intros n w wm H0 Hn E Hr.
  - cbn in E. injection E as <-. exists []. rewrite Nat.add_0_r. cbn [Nat.add app]. split; [destruct (loop f n w); auto|].
    split; auto. unfold reforming. destruct reform; auto.
  - rewrite repeated_first in E. destruct (rnd n w) as (w1, [e|]) eqn:E1; [discriminate|].
    assert (R0 : running w = true) by (apply (Hr 0); [lia|reflexivity]).
    destruct (IH (S n) w1 wm) as (pre & P1 & P2 & P3); auto; [lia| |].
    { intros k wk Hk Ek. apply (Hr (S k)); [lia|]. rewrite repeated_first, E1. auto. }
    cbn [Nat.add]. rewrite loop_round by (auto; lia). rewrite E1, P1. replace (S n + m) with (n + S m) by lia.
    destruct (loop f (n + S m) wm) as (l, r).
    exists ((if match reform with None => false | Some _ => n mod cmf =? 0 end then [Reforming n] else []) ++ Stepping n :: pre).
    split; [rewrite <- app_assoc; reflexivity|]. unfold reforming, steps_of, reforms_of in *. rewrite !flat_map_app. cbn [flat_map app seq filter]. rewrite P2, P3.
    destruct reform; cbn [flat_map app]; auto. destruct (n mod cmf =? 0); cbn; auto.
Qed.

Lemma loop_ends : forall f n w, 0 < n -> n <= N -> N - n < f ->
  snd (snd (loop f n w)) <> Unfinished /\ length (steps_of (fst (loop f n w))) <= N - n.
Proof.
  induction f as [|f IH]; intros n w H0 Hn Hf; [lia|].
  destruct (running w) eqn:Hr.
  2:{ cbn [ode_loop]. rewrite Hr. cbn [negb]. replace (cmf =? 0) with false by (symmetry; apply Nat.eqb_neq; lia). cbn. split; [discriminate|lia]. }
  destruct (Nat.eq_dec n N) as [->|Hne].
  - cbn [ode_loop]. rewrite Hr, limit_mod. cbn [negb Nat.eqb]. replace (cmf =? 0) with false by (symmetry; apply Nat.eqb_neq; lia).
    replace (max <=? N) with true by (symmetry; apply Nat.leb_le; apply HN). cbn. split; [discriminate|lia].
  - assert (Q : forall w1, let r := next W step update w1 in
      snd (snd (match r with (w2, Some e) => ([Stepping n], (w2, Raised e)) | (w2, None) => let '(l, r) := loop f (S n) w2 in (Stepping n :: l, r) end)) <> Unfinished /\
      length (steps_of (fst (match r with (w2, Some e) => ([Stepping n], (w2, Raised e)) | (w2, None) => let '(l, r) := loop f (S n) w2 in (Stepping n :: l, r) end))) <= N - n).
    { intros w1. cbv zeta. destruct (next W step update w1) as (w2, [e|]); [cbn; split; [discriminate|lia]|].
      destruct (IH (S n) w2) as (A & B); [lia|lia|lia|]. destruct (ode_loop _ _ _ _ _ _ _ f (S n) w2) as (l, r). cbn [fst snd] in *. split; auto. cbn [steps_of flat_map app length] in *. unfold steps_of in B. lia. }
    cbn [ode_loop]. rewrite Hr. cbn [negb]. replace (cmf =? 0) with false by (symmetry; apply Nat.eqb_neq; lia).
    destruct (n mod cmf =? 0) eqn:Em; [|apply Q].
    destruct (max <=? n) eqn:Ex; [cbn; split; [discriminate|lia]|].
    destruct reform as [g|]; [|apply Q]. destruct (g w) as (w1, [e|]); [cbn; split; [discriminate|lia]|].
    specialize (Q w1). cbv zeta in Q. destruct (next W step update w1) as (w2, [e|]); [cbn in *; auto|].
    destruct (ode_loop _ _ _ _ _ _ _ f (S n) w2) as (l, r). cbn [fst snd] in *. exact Q.
Qed.

Lemma ode_finishes fuel w0 w m wm : start w0 = (w, None) -> N <= fuel -> m < N -> repeated rnd 1 m w = (wm, None) ->
  (forall k wk, k < m -> repeated rnd 1 k w = (wk, None) -> running wk = true) -> running wm = false ->
  exists l, solve_ode W running start step update reform cmf max fuel w0 = (l, (wm, Finished)) /\
    steps_of l = seq 1 m /\ reforms_of l = reforming 1 m.
Proof.
  intros Es Hf Hm E Hr Hs. unfold solve_ode. rewrite Es.
  destruct (loop_rounds (fuel - m) m 1 w wm) as (pre & P1 & P2 & P3); auto; try lia.
  replace (m + (fuel - m)) with fuel in P1 by lia. rewrite P1. destruct (fuel - m) as [|f] eqn:Ef; [lia|].
  cbn [ode_loop]. rewrite Hs. cbn [negb]. replace (cmf =? 0) with false by (symmetry; apply Nat.eqb_neq; lia). exists pre. rewrite app_nil_r. auto.
Qed.
Lemma ode_limit fuel w0 w wm : start w0 = (w, None) -> N <= fuel -> repeated rnd 1 (N - 1) w = (wm, None) ->
  (forall k wk, k < N -> repeated rnd 1 k w = (wk, None) -> running wk = true) ->
  exists l, solve_ode W running start step update reform cmf max fuel w0 = (l, (wm, Raised RuntimeWarning)) /\
    steps_of l = seq 1 (N - 1) /\ reforms_of l = reforming 1 (N - 1).
Proof.
  intros Es Hf E Hr. unfold solve_ode. rewrite Es. assert (H1 : 1 <= N) by apply HN.
  destruct (loop_rounds (fuel - (N - 1)) (N - 1) 1 w wm) as (pre & P1 & P2 & P3); auto; try lia; [intros k wk Hk; apply Hr; lia|].
  replace (N - 1 + (fuel - (N - 1))) with fuel in P1 by lia. rewrite P1. destruct (fuel - (N - 1)) as [|f] eqn:Ef; [lia|].
  replace (1 + (N - 1)) with N by lia. cbn [ode_loop]. rewrite (Hr (N - 1) wm) by (auto; lia). rewrite limit_mod. cbn [negb Nat.eqb].
  replace (cmf =? 0) with false by (symmetry; apply Nat.eqb_neq; lia). replace (max <=? N) with true by (symmetry; apply Nat.leb_le; apply HN).
  exists pre. rewrite app_nil_r. auto.
Qed.
Lemma ode_fails fuel w0 w m w' e : start w0 = (w, None) -> N <= fuel -> S m < N -> repeated rnd 1 (S m) w = (w', Some e) ->
  (forall k wk, k <= m -> repeated rnd 1 k w = (wk, None) -> running wk = true) -> (exists wm, repeated rnd 1 m w = (wm, None)) ->
  snd (solve_ode W running start step update reform cmf max fuel w0) = (w', Raised e).
Proof.
  intros Es Hf Hm E Hr (wm & Em). unfold solve_ode. rewrite Es. cbn [repeated] in E. rewrite Em in E.
  destruct (loop_rounds (fuel - m) m 1 w wm) as (pre & P1 & P2 & P3); auto; try lia; [intros k wk Hk; apply Hr; lia|].
  replace (m + (fuel - m)) with fuel in P1 by lia. rewrite P1. destruct (fuel - m) as [|f] eqn:Ef; [lia|].
  pose proof (loop_round f (1 + m) wm ltac:(lia) ltac:(lia) (Hr m wm ltac:(lia) Em)) as X. rewrite E in X.
  destruct (loop (S f) (1 + m) wm) as (l, r). cbn [fst] in X. injection X as ->. reflexivity.
Qed.
Lemma ode_ends fuel w0 : N <= fuel -> snd (snd (solve_ode W running start step update reform cmf max fuel w0)) <> Unfinished /\
  length (steps_of (fst (solve_ode W running start step update reform cmf max fuel w0))) <= N - 1.
Proof.
  intros Hf. assert (1 <= N) by apply HN. unfold solve_ode. destruct (start w0) as (w, [e|]); [cbn; split; [discriminate|lia]|]. apply loop_ends; lia.
Qed.
End Ode.


Lemma block_quiet (l : list act) x : (forall a, In a l -> forall w, snd (a w) <> Some x) -> forall w, snd (block W l w) <> Some x.
Proof.
  induction l as [|a l IH]; intros H w; [discriminate|]. cbn [block]. unfold next. pose proof (H a (or_introl eq_refl) w) as Ha.
  destruct (a w) as (w', [e|]); [exact Ha|]. apply IH. intros b Hb. apply H. right. auto.
Qed.

(** ** The generator *)
Section Gen.
Variable K : StarRing.
Variable Id : Type.
Variable half : K.
Variable do_step : kind -> K -> bool -> bool -> act.
Variable set_time : option K -> W -> W.
Variable renorm : act.
Section Run.
Variables (steps : option nat) (dt : K) (imaginary : bool) (first : K) (c : kind * bool) (root : Id).
Notation loop := (gen_loop W K half do_step Id set_time renorm steps dt imaginary first c root).
Definition time (n : nat) : K := (first + of_nat K n * dt)%S.
Definition timed (n : nat) (w : W) : W := set_time (if imaginary then None else Some (time n)) w.
(** Setting the clock and doing the step number [n]. *)
Definition astroke (n : nat) : act := fun w => body W K half do_step renorm dt imaginary c (timed n w).

Lemma gen_ok : forall calls n w, (forall m, steps = Some m -> n <= m) ->
  (forall k, k < calls - 1 -> (forall m, steps = Some m -> n + k < m) -> exists wk, repeated astroke n (S k) w = (wk, None)) ->
  let q := match steps with None => calls | Some m => min calls (m - n) end in
  fst (loop calls n w) = map (fun k => (time (n + k), root, timed (n + k) (fst (repeated astroke n k w)))) (seq 0 q) /\
  snd (snd (loop calls n w)) = match steps with Some m => if calls <=? m - n then Suspended else Stopped | None => Suspended end.
Proof.
  induction calls as [|calls IH]; intros n w Hn Hok; cbv zeta.
  - cbn. destruct steps as [m|]; auto.
  - cbn [gen_loop].
    destruct (match steps with None => false | Some m => m <=? n end) eqn:Es.
    { destruct steps as [m|]; [|discriminate]. apply Nat.leb_le in Es. replace (m - n) with 0 by lia. cbn. auto. }
    fold (time n). fold (timed n w).
    assert (Q : match steps with None => S calls | Some m => min (S calls) (m - n) end = S match steps with None => calls | Some m => min calls (m - S n) end).
    { destruct steps as [m|]; auto. apply Nat.leb_gt in Es. lia. }
    rewrite Q. cbn [seq map fst repeated]. rewrite Nat.add_0_r.
    destruct calls as [|calls].
    { cbn [fst snd]. destruct steps as [m|]; cbn [seq map Nat.min]; split; auto. apply Nat.leb_gt in Es. replace (1 <=? m - n) with true by (symmetry; apply Nat.leb_le; lia). auto. }
    assert (Hlt : forall m, steps = Some m -> n < m) by (intros m Em; rewrite Em in Es; apply Nat.leb_gt in Es; lia).
    destruct (Hok 0) as (w1 & E1); [lia|intros m Em; specialize (Hlt m Em); lia|].
    cbn [repeated] in E1. rewrite Nat.add_0_r in E1. unfold astroke in E1. rewrite E1.
    destruct (IH (S n) w1) as (A & B).
    + intros m Em. specialize (Hlt m Em). lia.
    + intros k Hk Hm. destruct (Hok (S k)) as (wk & Ek); [lia|intros m Em; specialize (Hm m Em); lia|]. exists wk.
      rewrite repeated_first in Ek. unfold astroke at 1 in Ek. rewrite E1 in Ek. exact Ek.
    + destruct (loop (S calls) (S n) w1) as (l, r) eqn:El. cbn [fst snd] in A, B. cbn [fst snd]. split.
      * f_equal. rewrite A. rewrite <- (seq_shift _ 0), map_map. apply map_ext_in. intros k Hk. rewrite repeated_first. unfold astroke at 2. rewrite E1.
        replace (n + S k) with (S n + k) by lia. reflexivity.
      * rewrite B. destruct steps as [m|]; auto. specialize (Hlt m eq_refl).
        destruct (Nat.leb_spec (S calls) (m - S n)), (Nat.leb_spec (S (S calls)) (m - n)); auto; lia.
Qed.

(** A step that raises. *)
Lemma gen_stop : forall k calls n w wk e, k < calls - 1 -> (forall m, steps = Some m -> n + k < m) ->
  (exists w', repeated astroke n k w = (w', None)) -> repeated astroke n (S k) w = (wk, Some e) ->
  fst (loop calls n w) = map (fun k => (time (n + k), root, timed (n + k) (fst (repeated astroke n k w)))) (seq 0 (S k)) /\
  snd (loop calls n w) = (wk, match e with RuntimeWarning => Stopped | _ => Failed e end).
Proof.
  induction k as [|k IH]; intros calls n w wk e Hk Hm (w' & E') E; (destruct calls as [|[|calls]]; [lia|lia|]).
  - change (loop (S (S calls)) n w) with
      (if match steps with None => false | Some m => m <=? n end then ([], (w, Stopped)) else
        match astroke n w with
          | (w', None) => let '(l, r) := loop (S calls) (S n) w' in ((time n, root, timed n w) :: l, r)
          | (w', Some RuntimeWarning) => ([(time n, root, timed n w)], (w', Stopped))
          | (w', Some e) => ([(time n, root, timed n w)], (w', Failed e))
          end).
    replace (match steps with None => false | Some m => m <=? n end) with false
      by (destruct steps as [m|]; auto; symmetry; apply Nat.leb_gt; specialize (Hm m eq_refl); lia).
    cbn [repeated] in E. rewrite Nat.add_0_r in E. rewrite E. cbn [seq map repeated fst]. rewrite Nat.add_0_r. destruct e; auto.
  - change (loop (S (S calls)) n w) with
      (if match steps with None => false | Some m => m <=? n end then ([], (w, Stopped)) else
        match astroke n w with
          | (w', None) => let '(l, r) := loop (S calls) (S n) w' in ((time n, root, timed n w) :: l, r)
          | (w', Some RuntimeWarning) => ([(time n, root, timed n w)], (w', Stopped))
          | (w', Some e) => ([(time n, root, timed n w)], (w', Failed e))
          end).
    replace (match steps with None => false | Some m => m <=? n end) with false
      by (destruct steps as [m|]; auto; symmetry; apply Nat.leb_gt; specialize (Hm m eq_refl); lia).
    rewrite repeated_first in E', E. destruct (astroke n w) as (w1, [x|]) eqn:E1; [discriminate|].
    destruct (IH (S calls) (S n) w1 wk e) as (A & B); [lia|intros m Em; specialize (Hm m Em); lia|eauto|auto|].
    destruct (loop (S calls) (S n) w1) as (l, r). cbn [fst snd] in *. split; auto.
    change (seq 0 (S (S k))) with (0 :: seq 1 (S k)). cbn [map repeated fst]. rewrite Nat.add_0_r. f_equal. rewrite A.
    rewrite <- (seq_shift _ 0), map_map. apply map_ext_in. intros q Hq. rewrite repeated_first, E1. replace (n + S q) with (S n + q) by lia. reflexivity.
Qed.

(** Steps that never raise [RuntimeWarning]. *)
Lemma gen_full : (forall w, snd (body W K half do_step renorm dt imaginary c w) <> Some RuntimeWarning) ->
  forall calls n w, (forall m, steps = Some m -> n <= m) -> snd (snd (loop calls n w)) = Stopped -> exists m, steps = Some m /\ length (fst (loop calls n w)) = m - n.
Proof.
  intros Hb. induction calls as [|calls IH]; intros n w Hn E; [discriminate|]. cbn [gen_loop] in E |- *.
  destruct (match steps with None => false | Some m => m <=? n end) eqn:Es.
  { destruct steps as [m|]; [|discriminate]. apply Nat.leb_le in Es. exists m. split; auto. cbn. lia. }
  destruct calls as [|calls]; [discriminate|]. set (w1 := set_time _ w) in *. specialize (Hb w1).
  destruct (body W K half do_step renorm dt imaginary c w1) as (w2, [e|]).
  - cbn in Hb. destruct e; try discriminate. congruence.
  - destruct (IH (S n) w2) as (m & Em & L).
    + intros m Em. rewrite Em in Es. apply Nat.leb_gt in Es. lia.
    + destruct (loop (S calls) (S n) w2) as (l, r). exact E.
    + exists m. split; auto. destruct (loop (S calls) (S n) w2) as (l, r). cbn [fst length] in *. rewrite Em in Es. apply Nat.leb_gt in Es. lia.
Qed.
End Run.
End Gen.
End Loops.
