(** Properties C25, C26. *)
From Coq Require Import String Ascii List Arith Bool ZArith Lia.
From Verif Require Import Py Alg Propagate_Model Propagate_Spec Propagate_Proof.
Import ListNotations.
Local Open Scope nat_scope.
Local Open Scope list_scope.

Section Ticks.
Variable K : StarRing.
Add Ring Kr : (r_theory K).
Local Open Scope star_scope.
Lemma ticks_time (first dt : K) n : first + of_nat K n * dt = ticks first dt n.
Proof. induction n as [|n IH]; cbn [of_nat ticks]; [ring|]. rewrite <- IH. ring. Qed.
End Ticks.

Section Bridge.
Variables (W : Type) (K : StarRing) (Id : Type) (half : K) (do_step : kind -> K -> bool -> bool -> act W)
  (set_time : option K -> W -> W) (renorm : act W) (dt : K) (imaginary : bool) (first : K) (c : kind * bool).
Lemma timed_clock n w : timed W K set_time dt imaginary first n w = set_clock set_time imaginary (ticks first dt n) w.
Proof. unfold timed, time, set_clock. rewrite ticks_time. reflexivity. Qed.
Lemma stroke_eq n w : astroke W K half do_step set_time renorm dt imaginary first c n w
  = stroke set_time (chosen_step W K half do_step c dt imaginary) renorm imaginary (ticks first dt n) w.
Proof.
  unfold astroke, stroke, body, next. rewrite timed_clock.
  destruct (chosen_step _ _ _ _ _ _ _ _) as (w1, [e|]); auto. destruct imaginary; reflexivity.
Qed.
Lemma repeated_ext (a b : nat -> act W) : (forall n w, a n w = b n w) -> forall m n w, repeated a n m w = repeated b n m w.
Proof. intros H m n w. induction m as [|m IH]; cbn [repeated]; auto. rewrite IH. destruct (repeated b n m w) as (w', [e|]); auto. Qed.
Lemma repeated_stroke n m w : repeated (astroke W K half do_step set_time renorm dt imaginary first c) n m w
  = repeated (fun k => stroke set_time (chosen_step W K half do_step c dt imaginary) renorm imaginary (ticks first dt k)) n m w.
Proof. apply repeated_ext. intros. apply stroke_eq. Qed.
End Bridge.

(** ** C25: the time grid *)

(** [calls] calls of [next] on [propagator(steps=m)] whose steps raise nothing: the pairs
    are (first + k dt, root), the world at pair number [k] is the one after [k] steps
    with the clock set, and the generator stops after [m] pairs. *)
Theorem C25_time_grid :
  forall W (K : StarRing) Id (half : K) do_step root_of set_time renorm set_energy
         calls steps (dt : K) split imaginary first move_energy ps_method snd_order (w w1 : W) c,
    choose split ps_method snd_order = Ok c -> 0 < calls ->
    (if move_energy : bool then set_energy w else (w, None)) = (w1, None) ->
    let step := chosen_step W K half do_step c dt imaginary in
    let worlds k := repeated (fun k => stroke set_time step renorm imaginary (ticks first dt k)) 0 k w1 in
    (forall k, k < calls - 1 -> (forall m, steps = Some m -> k < m) -> snd (worlds (S k)) = None) ->
    let out := propagator W K half do_step Id root_of set_time renorm set_energy calls steps dt split imaginary first
                 move_energy ps_method snd_order w in
    fst out = map (fun k => (ticks first dt k, root_of w, set_clock set_time imaginary (ticks first dt k) (fst (worlds k))))
                  (seq 0 (match steps with None => calls | Some m => min calls m end)) /\
    snd (snd out) = match steps with Some m => if calls <=? m then Suspended else Stopped | None => Suspended end.
Proof.
  intros W K Id half do_step root_of set_time renorm set_energy calls steps dt split imaginary first move_energy ps_method snd_order w w1 c Ec Hc E1 step worlds Hok out.
  unfold out, propagator. destruct calls as [|calls]; [lia|]. rewrite Ec, E1.
  destruct (gen_ok W K Id half do_step set_time renorm steps dt imaginary first c (root_of w) (S calls) 0 w1) as (A & B).
  - intros; lia.
  - intros k Hk Hm. specialize (Hok k Hk Hm). rewrite repeated_stroke. unfold worlds, step in Hok.
    destruct (repeated _ 0 (S k) w1) as (wk, r). cbn in Hok. subst r. eauto.
  - split.
    + rewrite A. replace (match steps with None => S calls | Some m => min (S calls) (m - 0) end) with (match steps with None => S calls | Some m => min (S calls) m end)
        by (destruct steps; rewrite ?Nat.sub_0_r; auto).
      apply map_ext. intros k. cbn [Nat.add]. rewrite timed_clock, repeated_stroke. unfold time. rewrite ticks_time. reflexivity.
    + rewrite B. destruct steps; rewrite ?Nat.sub_0_r; auto.
Qed.
Print Assumptions C25_time_grid.

(** The step is chosen by the first letter of [ps_method]. *)
Theorem C25_method :
  forall d rest snd_order,
    let s := String d rest in
    (In d ["u"; "U"]%char -> choose true s snd_order = Ok (Unite, snd_order)) /\
    (In d ["s"; "S"]%char -> choose true s snd_order = Ok (Split, snd_order)) /\
    (In d ["r"; "R"]%char -> choose true s snd_order = Ok (Recursive, false)) /\
    (~ In d ["u"; "U"; "s"; "S"; "r"; "R"]%char -> choose true s snd_order = Raise ValueError) /\
    choose true EmptyString snd_order = Raise ValueError /\
    (forall s, choose false s snd_order = Ok (Direct, false)).
Proof.
  intros d rest o. cbv zeta.
  assert (U : forall x, Ascii.eqb (upper d) x = true -> upper d = x) by (intros x; apply Ascii.eqb_eq).
  repeat split.
  - intros [<-|[<-|[]]]; reflexivity.
  - intros [<-|[<-|[]]]; reflexivity.
  - intros [<-|[<-|[]]]; reflexivity.
  - intros H. unfold choose, starts.
    destruct d as [b0 b1 b2 b3 b4 b5 b6 b7]. destruct b0, b1, b2, b3, b4, b5, b6, b7; try reflexivity; exfalso; apply H; cbn; tauto.
Qed.
Print Assumptions C25_method.

(** With [snd_order] the one- and two-site steps are done forwards and then backwards,
    each over half the time. *)
Theorem C25_second_order :
  forall W (K : StarRing) (half : K) do_step (k : kind) (dt : K) imaginary (w : W),
    chosen_step W K half do_step (k, false) dt imaginary w = do_step k dt imaginary false w /\
    chosen_step W K half do_step (k, true) dt imaginary w =
      match do_step k (half * dt)%S imaginary false w with
      | (w', None) => do_step k (half * dt)%S imaginary true w'
      | r => r
      end.
Proof. intros. split; reflexivity. Qed.
Print Assumptions C25_second_order.

(** An unknown method raises [ValueError] at the first [next], before anything is done. *)
Theorem C25_unknown_method :
  forall W (K : StarRing) Id (half : K) do_step root_of set_time renorm set_energy
         calls steps (dt : K) imaginary first move_energy ps_method snd_order (w : W),
    (forall d rest, ps_method = String d rest -> ~ In d ["u"; "U"; "s"; "S"; "r"; "R"]%char) ->
    propagator W K half do_step Id root_of set_time renorm set_energy (S calls) steps dt true imaginary first
      move_energy ps_method snd_order w = ([], (w, Failed ValueError)).
Proof.
  intros W K Id half do_step root_of set_time renorm set_energy calls steps dt imaginary first move_energy ps_method snd_order w H.
  assert (E : choose true ps_method snd_order = Raise ValueError).
  { destruct ps_method as [|d rest]; [reflexivity|]. apply C25_method. eapply H. reflexivity. }
  unfold propagator. rewrite E. reflexivity.
Qed.
Print Assumptions C25_unknown_method.

(** A world that counts: the clock, and the steps done with their length. *)
Definition toy : Type := option Z * list (kind * Z * bool).
Definition toy_step (k : kind) (dt : Z) (imaginary backward : bool) : act toy :=
  fun w => ((fst w, snd w ++ [(k, dt, backward)]), None).
Definition toy_time (t : option Z) (w : toy) : toy := (t, snd w).
Definition toy_run (calls : nat) (steps : option nat) (ps : string) (o : bool) :=
  propagator toy Z_star (3%Z : Z_star) toy_step nat (fun _ => 7) toy_time (skip toy) (skip toy) calls steps
    (2%Z : Z_star) true false (10%Z : Z_star) false ps o (None, []).
Example C25_example :
  map (fun x => fst x) (fst (toy_run 9 (Some 3) "Split" true)) = [(10, 7%nat); (12, 7%nat); (14, 7%nat)]%Z /\
  map (fun x => snd x) (fst (toy_run 9 (Some 3) "Split" true)) =
    [(Some 10, []); (Some 12, [(Split, 6, false); (Split, 6, true)]);
     (Some 14, [(Split, 6, false); (Split, 6, true); (Split, 6, false); (Split, 6, true)])]%Z /\
  snd (snd (toy_run 9 (Some 3) "Split" true)) = Stopped /\
  map (fun x => fst (fst x)) (fst (toy_run 2 None "r" true)) = [10; 12]%Z /\
  snd (toy_run 2 None "r" true) = ((Some 12, [(Recursive, 2, false)])%Z, Suspended) /\
  toy_run 2 (Some 1) "Jacobi" false = ([], ((None, []), Failed ValueError)).
Proof. vm_compute. repeat split; reflexivity. Qed.

(** ** C26: the limit on the number of solver steps *)

(** The solver finishes after [m] steps, before the limit. *)
Theorem C26_solver_finishes :
  forall W running (start step update : act W) reform cmf max N fuel w0 w m wm,
    0 < cmf -> is_limit cmf max N -> N <= fuel -> start w0 = (w, None) ->
    let worlds k := repeated (round step update reform cmf) 1 k w in
    m < N -> worlds m = (wm, None) -> (forall k wk, k < m -> worlds k = (wk, None) -> running wk = true) -> running wm = false ->
    exists l, solve_ode W running start step update reform cmf max fuel w0 = (l, (wm, Finished)) /\
      steps_of l = seq 1 m /\
      reforms_of l = match reform with None => [] | Some _ => filter (fun k => k mod cmf =? 0) (seq 1 m) end.
Proof. intros. eapply ode_finishes; eauto. Qed.
Print Assumptions C26_solver_finishes.

(** The solver is still running when the limit is reached: [RuntimeWarning], with the world
    after one step less than the limit. *)
Theorem C26_limit_reached :
  forall W running (start step update : act W) reform cmf max N fuel w0 w wm,
    0 < cmf -> is_limit cmf max N -> N <= fuel -> start w0 = (w, None) ->
    let worlds k := repeated (round step update reform cmf) 1 k w in
    worlds (N - 1) = (wm, None) -> (forall k wk, k < N -> worlds k = (wk, None) -> running wk = true) ->
    exists l, solve_ode W running start step update reform cmf max fuel w0 = (l, (wm, Raised RuntimeWarning)) /\
      steps_of l = seq 1 (N - 1) /\
      reforms_of l = match reform with None => [] | Some _ => filter (fun k => k mod cmf =? 0) (seq 1 (N - 1)) end.
Proof. intros. eapply ode_limit; eauto. Qed.
Print Assumptions C26_limit_reached.

(** Whatever the solver does, the loop ends and no more than [N - 1] steps are made. *)
Theorem C26_at_most :
  forall W running (start step update : act W) reform cmf max N fuel w0,
    0 < cmf -> is_limit cmf max N -> N <= fuel ->
    snd (snd (solve_ode W running start step update reform cmf max fuel w0)) <> Unfinished /\
    length (steps_of (fst (solve_ode W running start step update reform cmf max fuel w0))) <= N - 1.
Proof. intros. apply ode_ends; auto. Qed.
Print Assumptions C26_at_most.

(** In the direct scheme, a step that reaches the limit ends the propagation: after pair
    number [k] nothing more is yielded. *)
Theorem C26_direct_stops :
  forall W (K : StarRing) Id (half : K) do_step root_of set_time renorm set_energy
         calls steps (dt : K) imaginary first ps_method snd_order (w : W)
         running prepare start step update reform cmf max N fuel k wy wp ws we,
    (forall t im b v, do_step Direct t im b v =
       next W prepare (solve_ode_act W running start step update (Some reform) cmf max fuel) v) ->
    0 < cmf -> is_limit cmf max N -> N <= fuel ->
    k < calls - 1 -> (forall m, steps = Some m -> k < m) ->
    let worlds k := repeated (fun k => stroke set_time (do_step Direct dt imaginary false) renorm imaginary (ticks first dt k)) 0 k w in
    worlds k = (wy, None) -> prepare (set_clock set_time imaginary (ticks first dt k) wy) = (wp, None) -> start wp = (ws, None) ->
    repeated (round step update (Some reform) cmf) 1 (N - 1) ws = (we, None) ->
    (forall j wj, j < N -> repeated (round step update (Some reform) cmf) 1 j ws = (wj, None) -> running wj = true) ->
    let out := propagator W K half do_step Id root_of set_time renorm set_energy calls steps dt false imaginary first
                 false ps_method snd_order w in
    map (fun x => fst (fst x)) (fst out) = map (ticks first dt) (seq 0 (S k)) /\ snd out = (we, Stopped).
Proof.
  intros W K Id half do_step root_of set_time renorm set_energy calls steps dt imaginary first ps_method snd_order w
    running prepare start step update reform cmf max N fuel k wy wp ws we Hd Hc HN Hf Hk Hm worlds Ey Ep Es Ee Hr out.
  assert (E : stroke set_time (do_step Direct dt imaginary false) renorm imaginary (ticks first dt k) wy = (we, Some RuntimeWarning)).
  { unfold stroke. rewrite Hd. unfold next. rewrite Ep. unfold solve_ode_act.
    destruct (ode_limit W running start step update (Some reform) cmf max N Hc HN fuel wp ws we Es Hf Ee Hr) as (l & -> & _). reflexivity. }
  unfold out, propagator, choose. destruct calls as [|calls]; [lia|].
  destruct (gen_stop W K Id half do_step set_time renorm steps dt imaginary first (Direct, false) (root_of w) k (S calls) 0 w we RuntimeWarning) as (A & B); auto.
  - exists wy. rewrite repeated_stroke. exact Ey.
  - rewrite repeated_stroke. cbn [repeated]. unfold worlds in Ey. cbn [chosen_step fst snd] in *. unfold chosen_step. cbn [fst snd]. rewrite Ey. cbn [Nat.add]. exact E.
  - rewrite B. split; auto. rewrite A, map_map. apply map_ext. intros j. cbn [fst Nat.add]. apply ticks_time.
Qed.
Print Assumptions C26_direct_stops.

(** In the splitting schemes the exception is swallowed: a propagation of a tensor that
    reaches the limit returns normally with the time step cut short. *)
Theorem C26_swallowed :
  forall W running (start step update : act W) reform cmf max N fuel w0 w wm,
    0 < cmf -> is_limit cmf max N -> N <= fuel -> start w0 = (w, None) ->
    repeated (round step update reform cmf) 1 (N - 1) w = (wm, None) ->
    (forall k wk, k < N -> repeated (round step update reform cmf) 1 k w = (wk, None) -> running wk = true) ->
    guarded W (solve_ode_act W running start step update reform cmf max fuel) w0 = (wm, None).
Proof.
  intros W running start step update reform cmf max N fuel w0 w wm Hc HN Hf Es Ee Hr. unfold guarded, solve_ode_act.
  destruct (ode_limit W running start step update reform cmf max N Hc HN fuel w0 w wm Es Hf Ee Hr) as (l & -> & _). reflexivity.
Qed.
Print Assumptions C26_swallowed.

(** ... and the propagation never stops early: when steps consist of guarded propagations
    and of moves that raise no [RuntimeWarning], a generator that has stopped has
    yielded all [steps] pairs. *)
Theorem C26_split_goes_on :
  forall W (K : StarRing) Id (half : K) do_step root_of set_time (renorm : act W) set_energy
         calls steps (dt : K) imaginary first ps_method snd_order move_energy (w : W) k o,
    choose true ps_method snd_order = Ok (k, o) ->
    (forall t im b, exists l, do_step k t im b = block W l /\
       forall a, In a l -> (exists f, a = guarded W f) \/ (forall v, snd (a v) <> Some RuntimeWarning)) ->
    (forall v, snd (renorm v) <> Some RuntimeWarning) ->
    let out := propagator W K half do_step Id root_of set_time renorm set_energy calls steps dt true imaginary first
                 move_energy ps_method snd_order w in
    snd (snd out) = Stopped -> steps = Some (length (fst out)).
Proof.
  intros W K Id half do_step root_of set_time renorm set_energy calls steps dt imaginary first ps_method snd_order move_energy w k o Ec Hd Hn out.
  unfold out, propagator. destruct calls as [|calls]; [discriminate|]. rewrite Ec.
  destruct (if move_energy then set_energy w else (w, None)) as (w1, [e|]); [discriminate|]. intros E.
  destruct (gen_full W K Id half do_step set_time renorm steps dt imaginary first (k, o) (root_of w)) with (calls := S calls) (n := 0) (w := w1) as (m & Em & L); auto; [|intros; lia|rewrite L, Nat.sub_0_r; auto].
  assert (Q : forall t im b v, snd (do_step k t im b v) <> Some RuntimeWarning).
  { intros t im b v. destruct (Hd t im b) as (l & -> & Hl). apply block_quiet. intros a Ha x. destruct (Hl a Ha) as [(f & ->)|H]; [discriminate|auto]. }
  intros v. unfold body, next, chosen_step. cbn [fst snd]. destruct o.
  - unfold next. pose proof (Q (half * dt)%S imaginary false v) as X. destruct (do_step k (half * dt)%S imaginary false v) as (v1, [e|]); [exact X|].
    pose proof (Q (half * dt)%S imaginary true v1) as Y. destruct (do_step k (half * dt)%S imaginary true v1) as (v2, [e|]); [exact Y|]. destruct imaginary; [apply Hn|discriminate].
  - pose proof (Q dt imaginary false v) as X. destruct (do_step k dt imaginary false v) as (v1, [e|]); [exact X|]. destruct imaginary; [apply Hn|discriminate].
Qed.
Print Assumptions C26_split_goes_on.

(** A solver that needs [fst w] more steps, with [cmf_steps = 3]; the world also counts
    the steps and the times the environments were formed. *)
Definition cnt : Type := nat * (nat * nat).
Definition cnt_run (need : nat) (w0 : cnt) :=
  solve_ode cnt (fun w => negb (fst w =? 0)) (fun w => ((need, snd w), None)) (fun w => ((fst w - 1, (S (fst (snd w)), snd (snd w))), None))
    (skip cnt) (Some (fun w => ((fst w, (fst (snd w), S (snd (snd w)))), None))) 3 10 20 w0.
Definition cnt_act (need : nat) : act cnt := fun w =>
  match snd (cnt_run need w) with (w, Finished) => (w, None) | (w, Raised e) => (w, Some e) | (w, Unfinished) => (w, Some RecursionError) end.
Definition cnt_prop (split : bool) (need : nat) :=
  propagator cnt Z_star (0%Z : Z_star) (fun k _ _ _ => if split then block cnt [guarded cnt (cnt_act need); skip cnt; guarded cnt (cnt_act 2)] else cnt_act need)
    nat (fun _ => 0) (fun _ w => w) (skip cnt) (skip cnt) 4 (Some 2) (1%Z : Z_star) split false (0%Z : Z_star) false "s" false (0, (0, 0)).
Example C26_example :
  is_limit 3 10 12 /\
  (let r := cnt_run 5 (0, (0, 0)) in (steps_of (fst r), reforms_of (fst r), snd r) = ([1; 2; 3; 4; 5], [3], ((0, (5, 1)), Finished))) /\
  (let r := cnt_run 12 (0, (0, 0)) in (steps_of (fst r), reforms_of (fst r), snd r) = (seq 1 11, [3; 6; 9], ((1, (11, 3)), Raised RuntimeWarning))) /\
  (let r := cnt_prop false 12 in (map (fun x => fst (fst x)) (fst r), snd r) = ([0%Z], ((1, (11, 3)), Stopped))) /\
  (let r := cnt_prop false 11 in (map (fun x => fst (fst x)) (fst r), snd r) = ([0%Z; 1%Z], ((0, (22, 6)), Stopped))) /\
  (let r := cnt_prop true 12 in (map (fun x => fst (fst x)) (fst r), snd r) = ([0%Z; 1%Z], ((0, (26, 6)), Stopped))).
Proof.
  split.
  - split; [exists 4; auto|]. split; [lia|]. split; [lia|]. intros M (k & ->) _ H. lia.
  - vm_compute. repeat split; reflexivity.
Qed.
