(** What the last operation of a step leaves at the root; the generator of ml.py. *)
From Coq Require Import String List Arith Bool ZArith Lia Permutation.
From Verif Require Import Py Alg ListX NdArray_Model NdArray_Proof Contract_Model Net_Model Net_Spec Trav_Proof Acyc_Proof Env_Spec Env_Proof EnvThm_Proof
  Move_Spec Link_Spec Link_Proof State_Spec State_Proof Cache_Model Cache_Spec Cache_Proof CacheExact_Proof CacheMove_Proof
  Ps_Spec Step_Model Sweep_Model Sweep_Spec Step_Spec Step_Proof StepRun_Proof Norm_Spec NormAlg_Proof Norm_Proof NormRun_Proof NormEnd_Proof Last_Spec MlGen_Model.
From Verif Require Ps_Model Ps_Proof PsMove_Proof Propagate_Model Propagate_Proof.
Import ListNotations.
Local Open Scope nat_scope.
Local Open Scope list_scope.

(** ** /repo/minitn/algorithms/ml.py *)
Section MlLast.
Variable K : StarRing.
Variable D : Type.
Variable sys : system K D.
Variable fuel : nat.
Variable calls : nat -> list (call K D).

Lemma foreach_app {A} (f : A -> Cache_Model.state K -> Cache_Model.run K D) : forall l1 l2 s,
  Cache_Model.foreach K D f (l1 ++ l2) s = Cache_Model.andthen K D (Cache_Model.foreach K D f l1 s) (Cache_Model.foreach K D f l2).
Proof.
  induction l1 as [|a l1 IH]; intros l2 s; cbn [app Cache_Model.foreach].
  - unfold Cache_Model.andthen. destruct (Cache_Model.foreach K D f l2 s); reflexivity.
  - destruct (f a s) as (l, [s1|e]); cbn [Cache_Model.andthen]; [|reflexivity]. rewrite IH.
    destruct (Cache_Model.foreach K D f l1 s1) as (l', [s2|e]); cbn [Cache_Model.andthen]; [|reflexivity].
    destruct (Cache_Model.foreach K D f l2 s2) as (l'', r). now rewrite app_assoc.
Qed.
Lemma ml_last T (tau : T) t x l x' y : ml_prop K D sys fuel calls tau t x = (l, Ok x') -> oleaf (hget (cheap x') t) = false ->
  last_update (calls (snd x)) y -> croot x' = t /\ snd x' = S (snd x) /\ normed K (Some (sqnorm y)) t (fst x').
Proof.
  intros E Lf (c1 & c2 & Ec & No). unfold ml_prop, count in E.
  destruct (Cache_Model.split_prop K D sys fuel t true (calls (snd x)) (fst x)) as (l1, r1) eqn:Ep. cbn [fst snd] in E. injection E as _ E.
  destruct r1 as [s'|]; [|discriminate]. injection E as <-. cbn [fst snd] in *. unfold Cache_Model.split_prop in Ep. destruct (negb _); [discriminate|].
  pose proof (calls_near K D sys fuel t true _ _ _ _ Ep) as (_ & Er & _). split; [exact Er|]. split; auto.
  rewrite Ec, foreach_app in Ep. destruct (Cache_Model.foreach K D (do_call K D sys fuel t true) c1 _) as (l2, [s2|e]) eqn:E1; [|discriminate].
  unfold Cache_Model.andthen at 1 in Ep. cbn [Cache_Model.foreach do_call] in Ep. unfold Cache_Model.andthen in Ep.
  destruct (update K t y s2) as [s3|e] eqn:Eu; [|discriminate].
  destruct (Cache_Model.foreach K D (do_call K D sys fuel t true) c2 s3) as (l4, r4) eqn:E2. injection Ep as _ ->.
  apply (calls_normed K D sys fuel (Some (sqnorm y)) t true c2 s3 l4 s'); auto.
  - apply Forall_forall. intros [? ?|y'|?] Hin; cbn; auto. destruct (No y' Hin).
  - pose proof (calls_near K D sys fuel t true _ _ _ _ E2) as (_ & _ & _ & At & _). destruct (At t) as (_ & <- & _). exact Lf.
  - apply (update_normed K (Some (sqnorm y)) t y s2 s3); auto. reflexivity.
Qed.
End MlLast.

(** ** /repo/minitn/heom/propagate2.py *)
Section PsLast.
Variable K : StarRing.
Variable hl : list (list (id * arr K)).
Variable fuel : nat.
Variable answers : nat -> list (list K) * list K.

Lemma terms_root t : forall terms n acc s x s', Ps_Model.each_term K (Ps_Model.diff_term K fuel t) n terms acc s = Ok (x, s') -> sroot K s' = sroot K s.
Proof.
  induction terms as [|tn terms IH]; intros n acc s x s' E; cbn [Ps_Model.each_term] in E; [injection E as _ <-; auto|].
  destruct (Ps_Model.diff_term K fuel t n acc _) as [(acc1, s1)|] eqn:Ed; [|discriminate]. cbn [bind] in E. apply IH in E. cbn [with_heap Cache_Model.sroot] in E. rewrite E.
  unfold Ps_Model.diff_term, Ps_Model.single_diff in Ed. destruct (oarr _) as [a|]; [|discriminate].
  destruct (apply_envs K fuel n t false _ a _) as [(v, s2)|] eqn:Ea; [|discriminate]. cbn [bind] in Ed. destruct (is_none _); [|discriminate]. cbn [bind] in Ed.
  destruct (vec_add K acc (data v)); [|discriminate]. injection Ed as _ <-. apply Ps_Proof.apply_quiet in Ea. destruct Ea as (-> & _). reflexivity.
Qed.
Lemma calls_root t : forall ys s l s', Cache_Model.foreach K unit (Ps_Model.do_call K hl fuel t) ys s = (l, Ok s') -> sroot K s' = sroot K s.
Proof.
  induction ys as [|y ys IH]; intros s l s' E; cbn [Cache_Model.foreach] in E; [injection E as _ <-; auto|].
  unfold Cache_Model.andthen in E. unfold Ps_Model.do_call at 1 in E. destruct (Ps_Model.diff K hl fuel t y s) as [(x, s1)|] eqn:E1; [|discriminate]. cbn [bind snd] in E.
  destruct (Cache_Model.foreach K unit (Ps_Model.do_call K hl fuel t) ys s1) as (l2, r2) eqn:E2. injection E as _ ->. apply IH in E2. rewrite E2.
  unfold Ps_Model.diff in E1. destruct (oarr _) as [a|]; [|discriminate]. destruct (reshape _ _) as [b|]; [|discriminate]. cbn [bind] in E1.
  unfold Ps_Model.term_visitor in E1. destruct (visitor _ _ _ _ _) as [vl|]; [|discriminate]. cbn [bind] in E1. apply terms_root in E1. exact E1.
Qed.
Lemma ps_last T (tau : T) t x l x' : ps_prop K hl fuel answers tau t x = (l, Ok x') ->
  croot x' = t /\ snd x' = S (snd x) /\ normed K (Some (sqnorm (snd (answers (snd x))))) t (fst x').
Proof.
  intros E. unfold ps_prop, count in E. destruct (Ps_Model.single_prop K hl fuel t _ _ (fst x)) as (l1, r1) eqn:Ep. cbn [fst snd] in E. injection E as _ E.
  destruct r1 as [s'|]; [|discriminate]. injection E as <-. cbn [fst snd] in *. unfold Ps_Model.single_prop in Ep. destruct (negb _); [discriminate|].
  destruct (Cache_Model.foreach K unit (Ps_Model.do_call K hl fuel t) _ _) as (l2, [s2|e]) eqn:E1; [|discriminate]. cbn [Cache_Model.andthen] in Ep. injection Ep as _ Eu.
  apply calls_root in E1. cbn [Cache_Model.sroot] in E1. split; [|split; auto].
  - unfold update in Eu. destruct (oarr _); [|discriminate]. destruct (reshape _ _); [|discriminate]. injection Eu as <-. exact E1.
  - apply (update_normed K (Some (sqnorm (snd (answers (snd x))))) t _ s2 s' eq_refl Eu).
Qed.
End PsLast.

(** ** The last operation of a step *)
Section LastOp.
Variables (K : StarRing) (T : Type) (opp half_of : T -> T) (fuel : nat) (X L : Type) (hp : X -> heap K) (rt : X -> id).
Variable form : X -> res X.
Variable prop : T -> id -> X -> list L * res X.
Variable mv : id -> nat -> option T -> bool -> X -> list L * res X.
Definition ends_with_prop (tau : T) (x' : X) : Prop := exists x l t, prop tau t x = (l, Ok x').
Lemma then_last m f ev lg x' : sthen m f = (ev, (lg, Ok x')) -> exists x ev2 lg2, f x = (ev2, (lg2, Ok x')) :> srun T X L.
Proof.
  destruct m as (e1, (l1, [x|e])); cbn [sthen]; [|discriminate]. destruct (f x) as (e2, (l2, r)) eqn:Ef. intros Q. injection Q as _ _ ->. eauto.
Qed.
Lemma prop_last t tau x ev lg x' : sprop prop t tau x = (ev, (lg, Ok x')) -> ends_with_prop tau x'.
Proof. unfold sprop. destruct (prop tau t x) as (l, [x1|e]) eqn:E; [|discriminate]. intros Q. injection Q as _ _ <-. exists x, l, t. auto. Qed.
Lemma one_last tau x ev lg x' : one_site opp fuel hp rt form prop mv tau false x = (ev, (lg, Ok x')) -> ends_with_prop tau x'.
Proof.
  unfold one_site. destruct (form x) as [x1|]; [|discriminate]. destruct (decorated_visitor _ _ _ _ _) as [lk|]; [|discriminate].
  intros E. apply then_last in E. destruct E as (x2 & ev2 & lg2 & E). apply prop_last in E. exact E.
Qed.
Lemma recursive_last tau x ev lg x' : recursive_step opp half_of fuel hp rt form prop mv false tau x = (ev, (lg, Ok x')) -> ends_with_prop tau x'.
Proof.
  unfold recursive_step. destruct (form x) as [x1|]; [|discriminate]. destruct fuel as [|n]; [discriminate|]. cbn [recursive].
  intros E. apply then_last in E. destruct E as (x2 & ev2 & lg2 & E). apply prop_last in E. exact E.
Qed.
End LastOp.

(** ** The norm at the end *)
Section NormAtEnd.
Variable K : StarRing.
Lemma norm_at_end (s' : Cache_Model.state K) R A N : network (sheap K s') R A -> canonical_about (sheap K s') R A ->
  normed K (Some N) (top R) s' -> state_norm R A = N.
Proof.
  intros Nw C (a & Ea & En). rewrite (canonical_norm K (sheap K s') R A Nw C). destruct (root_array K _ R A (top R) Nw eq_refl) as (_ & Ea' & _). cbn in En. congruence.
Qed.
End NormAtEnd.

(** ** The generator *)
Section Each.
Variable W : Type.
Variable Q : StarRing.
Variable half : Q.
Variable do_step : Propagate_Model.kind -> Q -> bool -> bool -> Propagate_Model.act W.
Variable Id : Type.
Variables (P P2 : W -> Prop).
Variables (steps : option nat) (dt first : Q) (c : Propagate_Model.kind * bool) (root : Id).
Variable renorm : Propagate_Model.act W.
Hypothesis Hs : forall w w', P w -> Propagate_Model.chosen_step W Q half do_step c dt false w = (w', None) -> P w' /\ P2 w'.
Lemma gen_each : forall n k w ys out, P w -> (0 < k -> P2 w) ->
  Propagate_Model.gen_loop W Q half do_step Id (fun _ w => w) renorm steps dt false first c root n k w = (ys, out) ->
  forall m t r x, nth_error ys m = Some (t, r, x) ->
    t = (first + Propagate_Model.of_nat Q (k + m) * dt)%S /\ r = root /\ P x /\ (0 < k + m -> P2 x).
Proof.
  induction n as [|n IH]; intros k w ys out Pw P2w E; cbn [Propagate_Model.gen_loop] in E.
  { injection E as <- <-. intros [|m]; discriminate. }
  destruct (match steps with None => false | Some m => m <=? k end); [injection E as <- <-; intros [|m]; discriminate|].
  assert (Z : forall t r x, Some ((first + Propagate_Model.of_nat Q k * dt)%S, root, w) = Some (t, r, x) ->
    t = (first + Propagate_Model.of_nat Q (k + 0) * dt)%S /\ r = root /\ P x /\ (0 < k + 0 -> P2 x)).
  { intros t r x X. injection X as <- <- <-. rewrite Nat.add_0_r. auto. }
  destruct n as [|n]; [injection E as <- <-; intros [|[|m]]; [exact Z|discriminate..]|].
  unfold Propagate_Model.body, Propagate_Model.next in E.
  destruct (Propagate_Model.chosen_step W Q half do_step c dt false w) as (w', [e|]) eqn:Ec.
  - destruct e; injection E as <- <-; intros [|[|m]]; (exact Z || discriminate).
  - unfold Propagate_Model.skip in E. destruct (Propagate_Model.gen_loop _ _ _ _ _ _ _ _ _ _ _ _ _ (S n) (S k) w') as (ys', out') eqn:El. injection E as <- <-.
    destruct (Hs w w' Pw Ec) as (Pw' & P2w'). intros [|m] t r x En; [apply (Z _ _ _ En)|]. cbn [nth_error] in En.
    destruct (IH (S k) w' ys' out' Pw' (fun _ => P2w') El m t r x En) as (A1 & A2 & A3 & A4). rewrite Nat.add_succ_r. auto.
Qed.
End Each.
