(** Proofs about [autocorr]. *)
From Coq Require Import String List Arith Bool Lia Ring.
From Verif Require Import Py Alg ListX NdArray_Model NdArray_Proof Net_Model Net_Spec Propagate_Model
  Trav_Proof Acyc_Proof EnvThm_Proof Env_Proof State_Proof TEnv_Proof Pair_Proof Link_Proof Contraction_Proof Auto_Spec Auto_Model.
Import ListNotations.
Local Open Scope nat_scope.
Local Open Scope list_scope.

Section Heaps.
Variable K : StarRing.
Implicit Types h : heap K.

Definition noaux (o : obj K) : obj K := put_aux None o.
Lemma noaux_fields o o' : noaux o = noaux o' ->
  oname o = oname o' /\ oleaf o = oleaf o' /\ oarr o = oarr o' /\ oaxis o = oaxis o' /\ onorm o = onorm o' /\ oacc o = oacc o' /\ ocache o = ocache o'.
Proof. destruct o, o'. unfold noaux, put_aux. cbn. intros E. inversion E. auto 10. Qed.

Definition same h h' : Prop := map noaux h = map noaux h'.
Lemma same_get h h' n : same h h' -> noaux (hget h n) = noaux (hget h' n).
Proof.
  intros E. unfold hget. rewrite <- !(map_nth noaux). unfold same in E. now rewrite E.
Qed.
Lemma same_refl h : same h h. Proof. reflexivity. Qed.
Lemma same_sym h h' : same h h' -> same h' h. Proof. unfold same. auto. Qed.
Lemma same_trans h1 h2 h3 : same h1 h2 -> same h2 h3 -> same h1 h3. Proof. unfold same. congruence. Qed.
Lemma map_upd {A B} (f : A -> B) i x (l : list A) : map f (ListX.upd i x l) = ListX.upd i (f x) (map f l).
Proof.
  unfold ListX.upd. rewrite map_length. destruct (i <? length l); auto. rewrite map_app. cbn [map]. now rewrite firstn_map, skipn_map.
Qed.
Lemma upd_same {A} i (d : A) l : ListX.upd i (nth i l d) l = l.
Proof.
  unfold ListX.upd. destruct (Nat.ltb_spec i (length l)) as [Hi|Hi]; auto. revert i Hi. induction l as [|x l IH]; intros [|i] Hi; cbn in *; try lia; auto.
  f_equal. apply IH. lia.
Qed.
Lemma same_modify h n a : same h (modify h n (put_aux a)).
Proof.
  unfold same, modify. rewrite map_upd. change (noaux (put_aux a (hget h n))) with (noaux (hget h n)).
  unfold hget. rewrite <- (map_nth noaux). now rewrite upd_same.
Qed.
Lemma same_set_all a l : forall h, same h (set_all (put_aux a) h l).
Proof. induction l as [|n l IH]; intros h; [apply same_refl|]. cbn [set_all]. eapply same_trans; [apply same_modify|apply IH]. Qed.
Lemma same_length h h' : same h h' -> length h = length h'.
Proof. intros E. apply (f_equal (@length _)) in E. now rewrite !map_length in E. Qed.

Lemma arrays_same h h' n : same h h' -> arrays h n = arrays h' n.
Proof. intros E. unfold arrays. apply (same_get _ _ n) in E. apply noaux_fields in E. destruct E as (_ & _ & -> & _). reflexivity. Qed.
Lemma holds_same h h' t ds : same h h' -> holds h t ds -> holds h' t ds.
Proof.
  intros E (H & NS & Ax & Ar & F & D). pose proof (fun n => noaux_fields _ _ (same_get _ _ n E)) as P.
  assert (Ag : forall n, In n (nids t) -> arrays h' n = arrays h n) by (intros; symmetry; now apply arrays_same).
  repeat split.
  - revert H. apply hangs_same. intros n. destruct (P n) as (_ & ? & _ & _ & _ & ? & _). split; congruence.
  - intros n i. destruct (P n) as (_ & _ & _ & _ & _ & Q & _). rewrite <- Q. apply NS.
  - destruct (P (top t)) as (_ & _ & _ & Q & _). congruence.
  - intros n Hn. destruct (P n) as (_ & _ & Q & _). rewrite <- Q. now apply Ar.
  - revert F. apply fits_agree. auto.
  - rewrite <- D. apply (Contraction_Proof.ldims_agree K). auto.
Qed.
Lemma wave_same h h' t v : same h h' -> wave h t v = wave h' t v.
Proof. intros E. unfold wave, dense. apply amp_agree. intros. now apply arrays_same. Qed.

Lemma env_list_true : forall (f : heap K -> id -> nat -> res (option (arr K) * heap K)), (forall h n j v h', f h n j = Ok (v, h') -> h' = h) ->
  forall l h es h', env_list f h l = Ok (es, h') -> h' = h.
Proof.
  intros f Hf. induction l as [|((i & c) & j) l IH]; intros h es h' E; cbn [env_list] in E.
  - now inversion E.
  - destruct (f h c j) as [(e & h1)|] eqn:E1; cbn [bind] in E; [|discriminate]. apply Hf in E1. subst h1.
    destruct (env_list f h l) as [(es' & h2)|] eqn:E2; cbn [bind] in E; [|discriminate]. apply IH in E2. now inversion E; subst.
Qed.
Lemma partial_env_true : forall fuel h n i v h', partial_env fuel true h n i = Ok (v, h') -> h' = h.
Proof.
  induction fuel as [|fuel IH]; intros h n i v h' E; [discriminate|]. cbn [partial_env] in E.
  destruct (oleaf (hget h n)); [now inversion E|].
  replace (match i with Some _ | _ => None end) with (@None (option (arr K))) in E by (destruct i; reflexivity).
  destruct (env_list _ _ _) as [(es & h1)|] eqn:E1 in E; cbn [bind] in E; [|discriminate].
  apply env_list_true in E1; [|intros; eapply IH; eauto]. subst h1.
  match type of E with bind ?x _ = _ => destruct x as [ans|]; cbn [bind] in E; [|discriminate] end.
  destruct i; now inversion E.
Qed.

Lemma partners_ok fast init l : forall h g, (forall n h', In n l -> same h h' -> partner fast init h' n = Ok (Some (g n))) ->
  (forall n, In n l -> n < length h) ->
  exists h1, partners fast init h l = Ok h1 /\ same h h1 /\ forall n, In n l \/ oaux (hget h n) = Some (g n) -> oaux (hget h1 n) = Some (g n).
Proof.
  induction l as [|x l IH]; intros h g P L.
  - exists h. split; [reflexivity|]. split; [apply same_refl|]. intros n [[]|E]; auto.
  - cbn [partners]. rewrite (P x h) by (auto using same_refl; left; auto). cbn [bind].
    destruct (IH (modify h x (put_aux (Some (g x)))) g) as (h1 & E & Sm & A).
    + intros n h' Hn S1. apply P; [right; auto|]. eapply same_trans; [apply same_modify|exact S1].
    + intros n Hn. rewrite length_modify. apply L. right; auto.
    + exists h1. split; auto. split; [eapply same_trans; [apply same_modify|exact Sm]|].
      intros n Hn. apply A. destruct (Nat.eq_dec n x) as [->|Ne].
      * right. rewrite hget_modify_eq by (apply L; left; auto). reflexivity.
      * rewrite hget_modify_neq by auto. destruct Hn as [[->|Hn]|Hn]; tauto.
Qed.

(** What is observed, from arrays [g] in [aux]. *)
Lemma observe_ok fuel fast init t ds h g :
  holds h t ds -> height t <= fuel ->
  (forall n h', In n (nids t) -> same h h' -> partner fast init h' n = Ok (Some (g n))) ->
  fits g None 0 t -> ldims g None 0 t = ds ->
  exists c h1, observe fuel fast init h (top t) = Ok (Some c, h1) /\ same h h1 /\ shape c = [] /\
    get c [] = sumL (indices ds) (fun v => rmul (wave h t v) (dense g t v)).
Proof.
  intros Hh Hf P Fg Dg. pose proof Hh as (H & NS & Ax & Ar & F & D).
  assert (V : visitor fuel h (top t) None false = Ok (nids t)) by (apply (visitor_hangs _ h t None fuel false H Hf)).
  unfold observe. rewrite Ax, V. cbn [bind].
  destruct (partners_ok fast init (nids t) h g P) as (h1 & E1 & S1 & A1).
  { intros n Hn. apply (hangs_lt _ _ None _ H). now apply nids_ids. }
  rewrite E1. cbn [bind]. pose proof (holds_same _ _ _ _ S1 Hh) as (H1 & NS1 & Ax1 & Ar1 & F1 & D1).
  destruct (inner_product_ok K h1 t fuel (arrays h1) g H1 NS1 Ax1 Hf F1 Fg) as (c & h' & E & Sc & Gc).
  - congruence.
  - intros n Hn. split; [|apply A1; auto]. unfold arrays. specialize (Ar1 n Hn). destruct (oarr (hget h1 n)); congruence.
  - exists c, h'. split; auto. split; [|split; auto].
    + unfold global_inner_product in E. rewrite leaves_ok in E by auto. cbn [bind] in E. apply partial_env_true in E. subst h'.
      eapply same_trans; [exact S1|apply same_set_all].
    + rewrite Gc, D1. apply sumL_ext. intros v. rewrite (wave_same h h1) by auto. reflexivity.
Qed.

Lemma tidy_ok fuel t ds h : holds h t ds -> height t <= fuel -> exists h', tidy fuel h (top t) = Ok h' /\ same h h'.
Proof.
  intros (H & NS & Ax & _) Hf. unfold tidy. rewrite Ax.
  assert (V : visitor fuel h (top t) None false = Ok (nids t)) by (apply (visitor_hangs _ h t None fuel false H Hf)).
  rewrite V. cbn [bind]. eexists. split; [reflexivity|apply same_set_all].
Qed.
End Heaps.

Section Runs.
Variable K : StarRing.
Variable X : Type.
Variables (fuel : nat) (fast : bool) (half : K) (do_step : kind -> K -> bool -> bool -> act (world K X))
  (root_of : world K X -> id) (set_time : option K -> world K X -> world K X) (renorm set_energy : act (world K X)).
Variable t : tree.
Variable ds : list nat.
Variable init : list (id * option (arr K)).
(** The partner arrays for a heap. *)
Variable g : heap K -> id -> arr K.
Hypothesis Hf : height t <= fuel.
Hypothesis Hg : forall h, holds h t ds ->
  (forall n h', In n (nids t) -> same K h h' -> partner fast init h' n = Ok (Some (g h n))) /\ fits (g h) None 0 t /\ ldims (g h) None 0 t = ds.
Hypothesis Hgs : forall h h' v, same K h h' -> holds h t ds -> dense (g h) t v = dense (g h') t v.
Variables (steps : option nat) (ode_inter : K) (imaginary : bool) (first : K) (c : kind * bool).
Hypothesis St : forall o w w', alike w w' -> alike (set_time o w) (set_time o w').
Hypothesis Bd : unaware (body (world K X) K half do_step renorm ode_inter imaginary c).

Let item (y : K * id * world K X) (z : K * option (arr K)) : Prop :=
  let '(time, _, w) := y in
  fst z = (if fast then (r1 + r1) * time else time)%S /\ exists a, snd z = Some a /\ shape a = [] /\
    get a [] = sumL (indices ds) (fun v => rmul (wave (fst w) t v) (dense (g (fst w)) t v)).

Lemma loop_ok : forall calls n w w', alike w w' ->
  let G := gen_loop (world K X) K half do_step id set_time renorm steps ode_inter imaginary first c (top t) calls n w in
  let B := auto_loop fuel fast half do_step set_time renorm init steps ode_inter imaginary first c (top t) calls n w' in
  (forall y, In y (fst G) -> holds (fst (snd y)) t ds) ->
  Forall2 item (fst G) (fst B) /\ snd (snd B) = snd (snd G) /\ alike (fst (snd G)) (fst (snd B)).
Proof.
  induction calls as [|calls IH]; intros n w w' A; cbn [gen_loop auto_loop].
  - cbn. intros _. auto.
  - destruct (match steps with None => false | Some m => m <=? n end).
    { cbn. intros _. auto. }
    set (time := (first + of_nat K n * ode_inter)%S).
    assert (A1 : alike (set_time (if imaginary then None else Some time) w) (set_time (if imaginary then None else Some time) w')) by now apply St.
    revert A1. generalize (set_time (if imaginary then None else Some time) w) as u. generalize (set_time (if imaginary then None else Some time) w') as u'.
    intros u' u (A1 & A2). cbv zeta. intros HH.
    assert (Hu : holds (fst u) t ds).
    { destruct calls; [apply (HH (time, top t, u)); left; reflexivity|].
      apply (HH (time, top t, u)). destruct (body _ _ _ _ _ _ _ _ u) as (w1 & [[]|]); try (left; reflexivity).
      destruct (gen_loop _ _ _ _ _ _ _ _ _ _ _ _ _ _ _ w1). left; reflexivity. }
    pose proof (holds_same K _ _ _ _ A1 Hu) as Hu'. destruct (Hg _ Hu') as (P & Fg & Dg).
    destruct (observe_ok K fuel fast init t ds (fst u') (g (fst u')) Hu' Hf P Fg Dg) as (a & h1 & E & S1 & Sa & Ga).
    rewrite E. cbn [fst snd].
    assert (It : item (time, top t, u) (if fast then ((r1 + r1) * time)%S else time, Some a)).
    { split; [reflexivity|]. exists a. split; [reflexivity|]. split; auto. rewrite Ga. apply sumL_ext. intros v.
      rewrite (wave_same K (fst u') (fst u)) by (now apply same_sym). rewrite (Hgs (fst u') (fst u) v) by (auto; now apply same_sym). reflexivity. }
    destruct calls as [|calls].
    { cbn [fst snd]. split; [constructor; auto|]. split; auto. split; cbn; auto. eapply same_trans; eauto. }
    pose proof (holds_same K _ _ _ _ S1 Hu') as H1. destruct (tidy_ok K fuel t ds h1 H1 Hf) as (h2 & E2 & S2). rewrite E2.
    assert (A3 : alike u (h2, snd u')). { split; cbn; auto. eapply same_trans; [exact A1|]. eapply same_trans; eauto. }
    destruct (Bd _ _ A3) as (B1 & B2). revert HH.
    set (bd := body (world K X) K half do_step renorm ode_inter imaginary c) in *.
    destruct (bd u) as (w1 & e1). destruct (bd (h2, snd u')) as (w2 & e2).
    cbn [fst snd] in B1, B2. subst e2. intros HH.
    destruct e1 as [e1|].
    + destruct e1; cbn [fst snd]; (split; [constructor; auto|]; split; auto).
    + specialize (IH (S n) w1 w2 B1). cbv zeta in IH.
      set (gl := gen_loop (world K X) K half do_step id set_time renorm steps ode_inter imaginary first c (top t)) in *.
      set (al := auto_loop fuel fast half do_step set_time renorm init steps ode_inter imaginary first c (top t)) in *.
      destruct (gl (S calls) (S n) w1) as (l1 & r1'). destruct (al (S calls) (S n) w2) as (l2 & r2').
      cbn [fst snd] in *. destruct IH as (I1 & I2 & I3); [intros y Hy; apply HH; right; auto|]. split; [constructor; auto|auto].
Qed.
End Runs.
