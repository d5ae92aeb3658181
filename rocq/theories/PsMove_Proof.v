(** [propagate2.py]: moving the root keeps the network and the stored environments in step. *)
From Coq Require Import String List Arith Bool Lia Permutation Sorting.Sorted.
From Verif Require Import Py Alg ListX NdArray_Model NdArray_Proof Contract_Model Contract_Spec Contract_Proof
  Net_Model Net_Spec Sweep_Spec Sweep_Proof Trav_Proof Acyc_Proof Env_Proof TEnv_Proof EnvThm_Proof Link_Spec Link_Proof Move_Spec
  Split_Proof Relink_Proof Move_Proof MoveRoot_Proof Pair_Proof State_Spec State_Proof Contraction_Proof Mid_Proof
  Cache_Model Cache_Spec Cache_Proof CacheExact_Proof CacheMove_Proof Ps_Spec Ps_Proof.
From Verif Require Ps_Model.
Import ListNotations.
Local Open Scope nat_scope.
Local Open Scope list_scope.
Local Open Scope py_scope.

Section PsMove.
Variable K : StarRing.
Implicit Types h : heap K.
Variable hl : list (list (id * arr K)).
Variable fuel : nat.
Notation state := (state K).
Notation sheap := (sheap K).
Notation sroot := (sroot K).
Notation senv := (senv K).
Notation env_ok := (Ps_Proof.env_ok K hl).
Notation uniform := (Ps_Proof.uniform K hl).
Notation ready := (Ps_Proof.ready K hl fuel).
Notation good := (Ps_Proof.good K hl fuel).
Notation sys := (mkSystem K unit hl None).
Notation run_op := (Ps_Model.run_op K hl fuel).
Notation remove_env := (Ps_Model.remove_env K hl).
Notation split_unite_op := (Ps_Model.split_unite_op K hl fuel).
Notation unite_split_op := (Ps_Model.unite_split_op K hl fuel).
Notation edits_alike := (CacheMove_Proof.edits_alike K).
Notation alike_trans := (CacheMove_Proof.alike_trans K).

(** ** Operations as functions on heaps *)
Lemma each_core A (body : nat -> A -> state -> res (A * state)) :
  (forall n acc s acc' s', body n acc s = Ok (acc', s') -> core K (sheap s) (sheap s') /\ sroot s' = sroot s) ->
  forall terms n acc s acc' s', seated (sheap s) terms -> Ps_Model.each_term K body n terms acc s = Ok (acc', s') -> core K (sheap s) (sheap s') /\ sroot s' = sroot s.
Proof.
  intros B. induction terms as [|term terms IH]; intros n acc s acc' s' Se E; cbn [Ps_Model.each_term] in E; [injection E as _ <-; split; auto; apply core_refl|].
  assert (E1 : set_leaves K (sheap s) term = Ok (Ps_Model.set_arrays K (sheap s) term)).
  { apply set_arrays_leaves. intros l m Hin. apply (Se term l m); auto. left. auto. }
  apply core_set_leaves in E1. destruct (body n acc _) as [(a1, s1)|] eqn:E2; [|discriminate]. cbn [bind] in E.
  apply B in E2. destruct E2 as (C2 & R2). cbn [with_heap Cache_Model.sheap Cache_Model.sroot] in *.
  assert (C3 : core K (sheap s) (set_all (reset_obj K) (sheap s1) (map fst term))).
  { eapply core_trans; [exact E1|]. eapply core_trans; [exact C2|apply core_set_all, kept_reset]. }
  apply IH in E.
  - cbn [with_heap Cache_Model.sheap Cache_Model.sroot] in E. destruct E as (C4 & R4). split; [eapply core_trans; eauto|congruence].
  - intros tm l m Ht Hin. destruct (Se tm l m (or_intror Ht) Hin) as (X1 & X2). destruct C3 as (L & C3). destruct (C3 l) as (_ & Q & _).
    cbn [with_heap Cache_Model.sheap]. rewrite L, Q. auto.
Qed.
Lemma diff_term_core t n acc s acc' s' : Ps_Model.diff_term K fuel t n acc s = Ok (acc', s') -> core K (sheap s) (sheap s') /\ sroot s' = sroot s.
Proof.
  unfold Ps_Model.diff_term, Ps_Model.single_diff. destruct (oarr (hget (sheap s) t)) as [a|]; [|discriminate].
  destruct (apply_envs K fuel n t false _ a s) as [(x, s1)|] eqn:E; [|discriminate]. cbn [bind].
  destruct (is_none _); [|discriminate]. cbn [bind]. destruct (vec_add K acc (data x)); [|discriminate]. cbn [bind]. intros X. injection X as _ <-.
  apply apply_frame in E. destruct E as (A & B & _). auto.
Qed.
Lemma diff_near t y s x s' : seated (sheap s) hl -> oleaf (hget (sheap s) t) = false -> Ps_Model.diff K hl fuel t y s = Ok (x, s') -> near K t s s'.
Proof.
  intros Se Lf. unfold Ps_Model.diff. destruct (oarr (hget (sheap s) t)) as [a|] eqn:Ea; [|discriminate].
  destruct (reshape _ (shape a)) as [b|] eqn:Eb; [|discriminate]. cbn [bind]. apply reshape_ok in Eb; [|apply vec_wf]. destruct Eb as (Wb & Sb).
  pose proof (near_put K t s a b Ea Sb Wb) as Nr. unfold Ps_Model.term_visitor. destruct (visitor _ _ _ _ _) as [l|]; [|discriminate]. cbn [bind]. intros E.
  eapply near_trans; [exact Nr|]. assert (C : core K (sheap (with_heap K s (modify (sheap s) t (put_arr (Some b)))))
    (set_all (reset_obj K) (sheap (with_heap K s (modify (sheap s) t (put_arr (Some b))))) l)) by apply core_set_all, kept_reset.
  apply each_core in E.
  - destruct E as (C2 & R2). apply near_core; [|exact R2]. eapply core_trans; [exact C|exact C2].
  - apply diff_term_core.
  - intros tm z m Ht Hin. destruct (Se tm z m Ht Hin) as (X1 & X2). cbn [with_heap Cache_Model.sheap] in *. destruct C as (L & C). destruct (C z) as (_ & Q & _). rewrite L, Q, length_modify.
    split; auto. rewrite hget_modify_neq; auto. intros ->. congruence.
Qed.
Lemma near_seated t s s' : near K t s s' -> seated (sheap s) hl -> seated (sheap s') hl.
Proof. intros (L & _ & _ & At & _) Se tm z m Ht Hin. destruct (Se tm z m Ht Hin) as (X1 & X2). rewrite L. destruct (At z) as (_ & -> & _). auto. Qed.
Lemma calls_near t : forall ys s l s', seated (sheap s) hl -> oleaf (hget (sheap s) t) = false -> foreach K unit (Ps_Model.do_call K hl fuel t) ys s = (l, Ok s') -> near K t s s'.
Proof.
  induction ys as [|y ys IH]; intros s l s' Se Lf E; cbn [foreach] in E; [injection E as _ <-; apply near_refl|].
  unfold andthen in E. unfold Ps_Model.do_call at 1 in E. destruct (Ps_Model.diff K hl fuel t y s) as [(x, s1)|] eqn:E1; [|discriminate]. cbn [bind snd] in E.
  destruct (foreach K unit (Ps_Model.do_call K hl fuel t) ys s1) as (l2, r2) eqn:E2. injection E as _ ->.
  apply diff_near in E1; auto. eapply near_trans; [exact E1|]. eapply IH; eauto; [eapply near_seated; eauto|]. destruct E1 as (_ & _ & _ & At & _). destruct (At t) as (_ & -> & _). auto.
Qed.
Lemma op_near op t s l s' : seated (sheap s) hl -> oleaf (hget (sheap s) t) = false -> run_op op t s = (l, Ok s') -> near K t (mkState K (sheap s) (sroot s') (senv s)) s'.
Proof.
  intros Se Lf. destruct op as [(ys, y)|]; cbn [Ps_Model.run_op].
  - unfold Ps_Model.single_prop. destruct (negb _); [discriminate|]. unfold andthen.
    destruct (foreach K unit _ ys _) as (l1, [s1|e]) eqn:E1; [|discriminate]. intros E. injection E as _ E.
    apply calls_near in E1; auto. pose proof (update_near K t y s1 s' E) as N2. pose proof (near_trans K t _ _ _ E1 N2) as N. pose proof N as (_ & Er & _).
    cbn [Cache_Model.sroot] in Er. rewrite Er. exact N.
  - intros X. injection X as _ <-. apply near_core; auto. apply core_refl.
Qed.
Definition seatedb h : bool := forallb (forallb (fun p => (fst p <? length h) && oleaf (hget h (fst p)))) hl.
Lemma seatedb_ok h : seatedb h = true <-> seated h hl.
Proof.
  unfold seatedb, seated. rewrite forallb_forall. split.
  - intros H term l m Ht Hin. specialize (H term Ht). rewrite forallb_forall in H. specialize (H (l, m) Hin). cbn [fst] in H.
    apply andb_true_iff in H. destruct H as (A & B). apply Nat.ltb_lt in A. auto.
  - intros H term Ht. apply forallb_forall. intros (l, m) Hin. cbn [fst]. destruct (H term l m Ht Hin) as (A & B). apply andb_true_iff. split; auto. apply Nat.ltb_lt. auto.
Qed.
Definition as_operator (op : option (list (list K) * list K)) (s : state) : heap K -> id -> res (id * heap K) :=
  fun hx m => if oleaf (hget hx m) then Ok (m, hx) else if seatedb hx then
    match run_op op m (with_heap K s hx) with (_, Ok s') => Ok (m, sheap s') | _ => Ok (m, hx) end else Ok (m, hx).
Lemma near_edits t s s' : oleaf (hget (sheap s) t) = false -> near K t s s' -> edits (sheap s) t (sheap s').
Proof. apply (CacheMove_Proof.near_edits K). Qed.
Lemma as_operator_lawful op s : lawful K (as_operator op s).
Proof.
  intros hA mid. unfold as_operator. destruct (oleaf (hget hA mid)) eqn:L; [exists hA; split; auto; apply edits_refl|].
  destruct (seatedb hA) eqn:Sb; [|exists hA; split; auto; apply edits_refl]. apply seatedb_ok in Sb.
  destruct (run_op op mid (with_heap K s hA)) as (l, [s'|e]) eqn:E; [|exists hA; split; auto; apply edits_refl].
  exists (sheap s'). split; auto. apply op_near in E; auto. apply near_edits in E; auto.
Qed.

(** ** Removing entries *)
Lemma remove_sub' ts s n t j v : senv (remove_env ts s) n t j = Some v -> senv s n t j = Some v.
Proof. apply (remove_sub K unit sys). Qed.
Lemma remove_hit' ts s n t j : n < length hl -> In t ts -> In j (map fst (oacc (hget (sheap s) t))) -> senv (remove_env ts s) n t j = None.
Proof. apply (remove_hit K unit sys). Qed.
Lemma fold_keep_in {A B} (P : A -> Prop) (f : A -> B -> A) l : (forall a x, In x l -> P a -> P (f a x)) -> forall a, P a -> P (fold_left f l a).
Proof. induction l as [|y l IH]; intros H a Ha; cbn; auto. apply IH; auto; [intros b x Hx; apply H; right; auto|]. apply H; auto. left. auto. Qed.
Lemma remove_miss ts s n t j : ~ (In t ts /\ In j (map fst (oacc (hget (sheap s) t)))) -> senv (remove_env ts s) n t j = senv s n t j.
Proof.
  intros H. unfold Ps_Model.remove_env, Cache_Model.remove_env. cbn [with_env Cache_Model.senv].
  apply (fold_keep_in (fun e : envs K => e n t j = senv s n t j)); auto. intros e n' _ H1.
  apply (fold_keep_in (fun e : envs K => e n t j = senv s n t j)); auto. intros e2 t' Ht H2.
  apply (fold_keep_in (fun e : envs K => e n t j = senv s n t j)); auto. intros e3 x Hx H3. unfold env_del.
  destruct (same_key n' t' (fst (fst x)) n t j) eqn:Sk; auto. exfalso. apply same_key_eq in Sk. destruct Sk as (-> & -> & <-). apply H. split; auto.
  unfold linkages in Hx. apply in_map_iff in Hx. destruct Hx as (y & <- & Hy). cbn [fst]. apply in_map. auto.
Qed.
Lemma uniform_remove ts s : uniform (senv s) -> uniform (senv (remove_env ts s)).
Proof.
  intros U n t j Hn E. destruct (in_dec Nat.eq_dec t ts) as [Ht|Ht]; [destruct (in_dec Nat.eq_dec j (map fst (oacc (hget (sheap s) t)))) as [Hj|Hj]|].
  - apply remove_hit'; auto. lia.
  - rewrite remove_miss in * by tauto. eapply U; eauto.
  - rewrite remove_miss in * by tauto. eapply U; eauto.
Qed.
Lemma env_transfer R R' h h' e e' : env_ok R h e ->
  (forall n t j u i v, n < length hl -> edge_in R' t j u i -> e' n t j = Some v ->
     e n t j = Some v /\ edge_in R t j u i /\ forall x, In x (ids u) -> alike K h h' x) -> env_ok R' h' e'.
Proof.
  intros O H n tn Ht. assert (Hn : n < length hl) by (apply nth_error_Some; congruence).
  eapply okm_agree; [apply O; eauto|]. intros t j u i v Ed Ev. destruct (H n t j u i v Hn Ed Ev) as (A & B & D). auto.
Qed.

Definition steady (s : state) : Prop := exists R A, network (sheap s) R A /\ ready R s /\ S (length (ids R)) <= fuel.
Lemma steady_near s s' R A : network (sheap s) R A -> S (length (ids R)) <= fuel -> top R = sroot s -> near K (sroot s) s s' -> ready R s' -> steady s'.
Proof.
  intros N Hf Et Nr Rd. destruct (network_near K R A (sroot s) s s' N Nr) as (A' & N').
  - destruct N as (_ & _ & _ & H & _). destruct R; [inversion H|]. cbn in *. left. auto.
  - exists R, A'. auto.
Qed.

(** ** One move *)
Section OneMove.
Variables (s : state) (A : id -> arr K) (n : id) (k1 k2 cks : list (nat * tree * nat)) (i : nat) (e : id) (j : nat).
Let R := Nd n (k1 ++ (i, Nd e cks, j) :: k2).
Let w := length (sheap s).
(** As in CacheMove_Proof.v. *)
Variables (hx : heap K) (Rr : tree).
Hypothesis Net : network hx R A.
Hypothesis Tw : twins K n e hx (sheap s).
Hypothesis Rd : ready Rr s.
Hypothesis Sub : forall t p u q, deep (k1 ++ k2 ++ cks) t p u q -> edge_in Rr t p u q.
Hypothesis Fu : S (length (ids R)) <= fuel.
Let s1 := remove_env [n; e] s.

Lemma mv_shaped : shaped (sheap s) R A. Proof. eapply twins_shaped; eauto. Qed.
Lemma mv_hangs : hangs (sheap s) None R. Proof. apply mv_shaped. Qed.
Lemma mv_nodup : NoDup (ids R).
Proof. eapply hangs_nodup; [|apply mv_hangs]. apply mv_shaped. Qed.
Lemma mv_gone t p u q n0 : n0 < length hl -> edge_in R t p u q -> t = n \/ t = e -> senv s1 n0 t p = None.
Proof.
  intros Hn Ed Ht. apply remove_hit'; auto; [destruct Ht as [->| ->]; cbn; auto|].
  destruct (edge_down_acc K (sheap s) R t p u q Ed None mv_hangs) as (Hin & _). apply in_map_iff. exists (p, (top u, q)). auto.
Qed.
Lemma mv_deep t p u q : deep (k1 ++ k2 ++ cks) t p u q -> edge_in R t p u q.
Proof.
  intros (k & Hk & E). rewrite !in_app_iff in Hk. unfold R. destruct Hk as [Hk|[Hk|Hk]].
  - eapply edge_deep; eauto. apply in_app_iff. auto.
  - eapply edge_deep; eauto. apply in_app_iff. right. right. auto.
  - eapply (edge_deep n _ (i, Nd e cks, j)); [apply in_app_iff; right; left; auto|]. cbn. eapply edge_deep; eauto.
Qed.
Lemma mv_kid_n k : In k (k1 ++ k2) -> edge_in R n (k_i k) (k_t k) (k_j k).
Proof. intros Hk. apply edge_kid. apply in_app_iff in Hk. apply in_app_iff. cbn. tauto. Qed.
Lemma mv_kid_e k : In k cks -> edge_in R e (k_i k) (k_t k) (k_j k).
Proof.
  intros Hk. eapply (edge_deep n _ (i, Nd e cks, j)); [apply in_app_iff; right; left; auto|]. cbn. apply edge_kid. auto.
Qed.

Section Mid.
Variables (hA : heap K) (kk : list (nat * tree * nat)).
Let Rm := Nd w kk.
Hypothesis HA : hangs hA None Rm.
Hypothesis Nk : map k_i kk = seq 0 (length kk).
Hypothesis DA : NoDup (ids Rm).
Hypothesis LA : length (ids Rm) <= S (length (ids R)).
Hypothesis GA : length (sheap s) <= length hA.
Hypothesis AA : forall x, x <> n -> x <> e -> x <> w -> attrs (hget (sheap s) x) (hget hA x).
Hypothesis XA : oaxis (hget hA w) = None.
Hypothesis WA : w < length hA.
Hypothesis E1 : forall t p u q, edge_in Rm t p u q -> t = w \/ ((t = n \/ t = e) /\ edge_in R t p u q) \/ deep (k1 ++ k2 ++ cks) t p u q.
Hypothesis E2 : forall t p u q, deep (k1 ++ k2 ++ cks) t p u q -> edge_in Rm t p u q.

Lemma mid_ready : ready Rm (mkState K hA w (senv s1)).
Proof.
  constructor; cbn [Cache_Model.sheap Cache_Model.sroot Cache_Model.senv]; auto.
  - exists kk. auto.
  - lia.
  - apply (env_transfer Rr Rm (sheap s) hA (senv s)); [apply Rd|]. intros n0 t p u q v Hn Ed Ev.
    destruct (E1 t p u q Ed) as [->|[(Ht & Ed')|Dp]].
    + apply remove_sub' in Ev. apply (rd_keys K hl fuel Rr s Rd) in Ev. unfold w in Ev. lia.
    + rewrite (mv_gone t p u q n0 Hn Ed' Ht) in Ev. discriminate.
    + apply remove_sub' in Ev. split; auto. split; [apply Sub; auto|]. intros x Hx.
      destruct (deep_avoid n _ k1 k2 i e cks j t p u q x mv_nodup eq_refl Dp Hx) as (X1 & X2 & X3).
      pose proof (hangs_lt K _ _ _ mv_hangs x X3). apply attrs_alike; auto; [lia|]. apply AA; auto. unfold w. lia.
  - intros n0 t p v Ev. cbn [Cache_Model.sheap Cache_Model.senv] in *. apply remove_sub' in Ev. apply (rd_keys K hl fuel Rr s Rd) in Ev. lia.
  - apply uniform_remove. apply Rd.
  - intros term y m Ht Hin. destruct (rd_seat K hl fuel Rr s Rd term y m Ht Hin) as (Y1 & Y2). split; [lia|].
    destruct (attrs_alike K (sheap s) hA y Y1 ltac:(lia)) as (_ & _ & -> & _); auto. apply AA.
    + intros ->. assert (oleaf (hget (sheap s) n) = false) by (apply (nids_inner K _ _ _ mv_hangs); left; auto). congruence.
    + intros ->. assert (oleaf (hget (sheap s) e) = false); [|congruence]. apply (nids_inner K _ _ _ mv_hangs). unfold R. cbn [nids]. right.
      apply in_flat_map. exists (i, Nd e cks, j). split; [apply in_app_iff; right; left; auto|left; auto].
    + unfold w. lia.
Qed.
Lemma mid_op op l r : run_op op w (with_heap K s1 hA) = (l, r) ->
  good l /\ forall s2, r = Ok s2 -> env_ok Rm (sheap s2) (senv s2) /\ (keyed K s2 /\ uniform (senv s2)) /\ edits hA w (sheap s2) /\
    as_operator op s1 hA w = Ok (w, sheap s2).
Proof.
  intros E. assert (Lw : oleaf (hget hA w) = false) by (inversion HA; auto).
  assert (C : forall s2, r = Ok s2 -> edits hA w (sheap s2) /\ as_operator op s1 hA w = Ok (w, sheap s2)).
  { intros s2 ->. pose proof (rd_seat K hl fuel Rm _ mid_ready) as Sm. cbn [Cache_Model.sheap] in Sm. split.
    - apply op_near in E; auto. apply near_edits in E; auto.
    - unfold as_operator. rewrite Lw, (proj2 (seatedb_ok hA) Sm), E. auto. }
  destruct op as [(ys, y)|]; cbn [Ps_Model.run_op] in E.
  - destruct (prop_ready K hl fuel Rm (with_heap K s1 hA) w ys y l r mid_ready E) as (G & X). split; auto.
    intros s2 Er. destruct (X s2 Er) as (Rd2 & _). split; [apply Rd2|]. split; [split; apply Rd2|apply C; auto].
  - injection E as <- <-. split; [apply (good_nil K hl fuel)|]. intros s2 Er. specialize (C s2 Er). injection Er as <-.
    split; [apply mid_ready|]. split; [|auto]. split; [exact (rd_keys K hl fuel Rm _ mid_ready)|exact (rd_uni K hl fuel Rm _ mid_ready)].
Qed.

Lemma mid_done s2 h' c1 c2 A' : env_ok Rm (sheap s2) (senv s2) -> keyed K s2 /\ uniform (senv s2) -> edits hA w (sheap s2) ->
  cks = c1 ++ c2 -> network h' (Nd e (c1 ++ (j, Nd n (k1 ++ k2), i) :: c2)) A' ->
  (forall t, t <> w -> oname (hget h' t) = oname (hget (sheap s) t) /\ oleaf (hget h' t) = oleaf (hget (sheap s) t) /\ onorm (hget h' t) = onorm (hget (sheap s) t)) ->
  (forall t, t <> n -> t <> e -> t <> w -> oaxis (hget h' t) = oaxis (hget (sheap s) t) /\ (oleaf (hget (sheap s) t) = false -> oarr (hget h' t) = oarr (hget (sheap s) t))) ->
  Permutation (ids R) (ids (Nd e (c1 ++ (j, Nd n (k1 ++ k2), i) :: c2))) -> length (sheap s2) <= length h' ->
  steady (remove_env [n; w; e] (mkState K h' e (senv s2))).
Proof.
  intros EO (Ky & Un) Ed Ec N' Nm Rm' Pm Gr. set (R' := Nd e (c1 ++ (j, Nd n (k1 ++ k2), i) :: c2)) in *.
  assert (L2 : length (sheap s2) = length hA) by apply Ed. pose proof N' as (_ & _ & NS & H' & _).
  exists R', A'. split; [exact N'|]. split; [|rewrite <- (Permutation_length Pm); auto].
  constructor.
  - destruct (network_top K R' A' h' N') as (ks & X1 & X2). exists ks. auto.
  - exact H'.
  - eapply hangs_nodup; eauto.
  - rewrite <- (Permutation_length Pm). lia.
  - pose proof N' as (_ & _ & _ & _ & Or & _). apply (oriented_kids K h' _ _ _ Or).
  - apply (env_transfer Rm R' (sheap s2) h' (senv s2)); auto. intros n0 t p u q v Hn Ed' Ev.
    assert (Dp : deep (k1 ++ k2 ++ cks) t p u q).
    { assert (G : t = n \/ t = e -> False).
      { intros Ht. rewrite remove_hit' in Ev; auto; [discriminate|cbn; destruct Ht as [->| ->]; auto|].
        destruct (edge_down_acc K h' R' t p u q Ed' None H') as (Hin & _). apply in_map_iff. exists (p, (top u, q)). auto. }
      unfold R' in Ed'. apply edge_cases in Ed'. destruct Ed' as [(-> & _)|(k & Hk & Ek)]; [exfalso; auto|].
      apply in_app_iff in Hk. destruct Hk as [Hk|[<-|Hk]].
      - exists k. split; auto. rewrite Ec. rewrite !in_app_iff. auto.
      - cbn in Ek. apply edge_cases in Ek. destruct Ek as [(-> & _)|Dk]; [exfalso; auto|]. eapply deep_in; [|exact Dk].
        intros y. rewrite !in_app_iff. tauto.
      - exists k. split; auto. rewrite Ec. rewrite !in_app_iff. auto. }
    split; [exact (remove_sub' _ _ _ _ _ _ Ev)|]. split; auto. intros x Hx.
    destruct (deep_avoid n _ k1 k2 i e cks j t p u q x mv_nodup eq_refl Dp Hx) as (X1 & X2 & X3).
    pose proof (hangs_lt K _ _ _ mv_hangs x X3) as Lx. assert (Xw : x <> w) by (unfold w; lia).
    apply (alike_trans _ hA); [apply alike_sym, (edits_alike hA w); auto; lia|].
    apply (alike_trans _ (sheap s)); [apply alike_sym, attrs_alike; auto; lia|].
    destruct (Nm x Xw) as (_ & Y1 & Y2). destruct (Rm' x X1 X2 Xw) as (Y3 & Y4). repeat split; auto; lia.
  - intros n0 t p v Ev. apply remove_sub' in Ev. cbn [Cache_Model.senv] in Ev. apply Ky in Ev. cbn. lia.
  - apply uniform_remove. auto.
  - intros term y m Ht Hin. destruct (rd_seat K hl fuel Rr s Rd term y m Ht Hin) as (Y1 & Y2). split; [cbn; lia|].
    destruct (Nm y ltac:(unfold w; lia)) as (_ & Y3 & _). change (oleaf (hget h' y) = true). congruence.
Qed.
End Mid.

Lemma mv_perm : Permutation (ids R) (n :: e :: flat_map (fun k => ids (k_t k)) (k1 ++ k2 ++ cks)).
Proof.
  unfold R. cbn [ids]. apply perm_skip. rewrite !flat_map_app. cbn [flat_map k_t fst snd ids app]. rewrite <- Permutation_middle. apply perm_skip.
  apply Permutation_app_head. apply Permutation_app_comm.
Qed.
Lemma mv_w x : In x (ids R) -> x <> w.
Proof. intros Hx. pose proof (hangs_lt K _ _ _ mv_hangs x Hx). unfold w. lia. Qed.
Lemma mv_dindex : dindex (oacc (hget (sheap s) n)) i = Ok (e, j).
Proof.
  pose proof mv_shaped as (D & _). assert (P : points (sheap s) n i e j).
  { assert (Ed : edge_in R n i (Nd e cks) j) by (unfold R; constructor; apply in_app_iff; right; left; auto).
    apply (edge_down_acc K (sheap s) R n i (Nd e cks) j Ed None mv_hangs). }
  apply (points_get K (sheap s) n i e j D) in P. unfold dindex. rewrite P. auto.
Qed.
Lemma mv_fit csvd : some_svd csvd -> fitting K csvd (A n) [i].
Proof.
  intros Sv. pose proof mv_shaped as N. unfold R in N. destruct (shaped_joint K (sheap s) A n k1 k2 i e cks j N) as (nn & ne & d1 & d2 & Ed & J & Li & Lj & Hi & Hj & _).
  pose proof J as (_ & _ & Sn & _). apply (some_fitting K csvd Sv); [apply Sn|constructor; auto].
Qed.

Lemma split_op_ready csvd op l r : network (sheap s) R A -> some_svd csvd -> split_unite_op csvd n i op s1 = (l, r) ->
  good l /\ forall s', r = Ok s' -> steady s' /\ sroot s' = e /\ shifted K (sheap s) R n i e (sheap s').
Proof.
  intros Nt Sv E. unfold Ps_Model.split_unite_op in E. change (sheap s1) with (sheap s) in E. rewrite mv_dindex in E. cbv zeta in E.
  set (nz := onorm (hget (sheap s) n) && onorm (hget (sheap s) e)) in E.
  destruct (split_mid K csvd (sheap s) A n k1 k2 i e cks j nz Nt (mv_fit csvd Sv)) as (hA & x & Es & HA & _ & Lw & _ & _ & XA & AA).
  fold w in HA, Es, Lw, AA, XA.
  destruct (split_any K csvd Sv (sheap s) A n k1 k2 i e cks j (as_operator op s1) None Nt (as_operator_lawful op s1)) as
    (h' & c1 & c2 & A' & E' & Ec & N' & Gr & Lk & Nm & Rm & Pm).
  unfold split_unite in E'. rewrite mv_dindex in E'. cbn [bind] in E'. fold nz in E'. rewrite Es in E, E'. cbn [bind] in E'.
  set (kk := [(0, Nd n (k1 ++ k2), i); (1, Nd e cks, j)]) in HA.
  assert (Pk : Permutation (ids (Nd w kk)) (w :: ids R)).
  { unfold kk. cbn [ids flat_map k_t fst snd]. apply perm_skip. rewrite mv_perm. rewrite app_nil_r. cbn [app]. apply perm_skip.
    rewrite <- Permutation_middle. apply perm_skip. rewrite !flat_map_app, app_assoc. reflexivity. }
  assert (DA : NoDup (ids (Nd w kk))).
  { eapply Permutation_NoDup; [symmetry; exact Pk|]. constructor; [|apply mv_nodup]. intros X. apply mv_w in X. congruence. }
  assert (LA : length (ids (Nd w kk)) <= S (length (ids R))) by (rewrite (Permutation_length Pk); cbn; lia).
  assert (AA' : forall y, y <> n -> y <> e -> y <> w -> attrs (hget (sheap s) y) (hget hA y)) by (intros y Y1 Y2 Y3; apply AA; auto).
  assert (X1 : forall t p u q, edge_in (Nd w kk) t p u q -> t = w \/ ((t = n \/ t = e) /\ edge_in R t p u q) \/ deep (k1 ++ k2 ++ cks) t p u q).
  { intros t p u q Ed. apply edge_cases in Ed. destruct Ed as [(-> & _)|(k & Hk & Ek)]; auto. right. unfold kk in Hk.
    assert (G : forall y ks, (y = n \/ y = e) -> incl ks (k1 ++ k2 ++ cks) -> (forall k, In k ks -> edge_in R y (k_i k) (k_t k) (k_j k)) ->
      edge_in (Nd y ks) t p u q -> ((t = n \/ t = e) /\ edge_in R t p u q) \/ deep (k1 ++ k2 ++ cks) t p u q).
    { intros y ks Hy I Q Z. inversion Z as [? ? ? ? ? H|? ? k' ? ? ? ? H Z']; subst; [left; split; auto; apply (Q _ H)|].
      right. exists k'. auto. }
    destruct Hk as [<-|[<-|[]]]; cbn [k_t fst snd] in Ek.
    - eapply (G n); [auto| |apply mv_kid_n|exact Ek]. intros y Hy. rewrite app_assoc. apply in_app_iff. auto.
    - eapply (G e); [auto| |apply mv_kid_e|exact Ek]. intros y Hy. apply in_app_iff. right. apply in_app_iff. auto. }
  assert (X2 : forall t p u q, deep (k1 ++ k2 ++ cks) t p u q -> edge_in (Nd w kk) t p u q).
  { intros t p u q (k & Hk & Ek). rewrite app_assoc in Hk. apply in_app_iff in Hk. destruct Hk as [Hk|Hk].
    - eapply (edge_deep w kk (0, Nd n (k1 ++ k2), i)); [left; auto|]. eapply edge_deep; eauto.
    - eapply (edge_deep w kk (1, Nd e cks, j)); [right; left; auto|]. eapply edge_deep; eauto. }
  assert (GA : length (sheap s) <= length hA) by (unfold w in Lw; lia).
  unfold andthen in E. destruct (run_op op w (with_heap K s1 hA)) as (l1, r1) eqn:Er.
  destruct (mid_op hA kk HA eq_refl DA LA GA AA' XA Lw X1 op l1 r1 Er) as (G1 & G2).
  destruct r1 as [s2|x1]; [|injection E as <- <-; split; auto; discriminate].
  destruct (G2 s2 eq_refl) as (EO & Ky & Edt & Eop). rewrite Eop in E'. cbn [bind] in E'.
  destruct (unite (sheap s2) e j (Some e) nz) as [(y, h2)|] eqn:Eu; [|discriminate]. cbn [bind] in E'. injection E' as ->.
  injection E as <- <-. rewrite app_nil_r. split; auto. intros s' X. injection X as <-. apply unite_grows in Eu.
  split; [apply (mid_done hA kk LA GA AA' Lw X2 s2 h' c1 c2 A'); auto|]. split; auto. apply (shifted_of K (sheap s) R n i e j k1 k2 c1 c2 A'); auto.
Qed.

Lemma unite_op_ready csvd op l r : (oaxis (hget (sheap s) n) = None \/ oaxis (hget (sheap s) e) = None) -> some_svd csvd -> unite_split_op csvd n i op s1 = (l, r) ->
  good l /\ forall s', r = Ok s' -> steady s' /\ sroot s' = e /\ shifted K (sheap s) R n i e (sheap s').
Proof.
  intros Ax Sv E. unfold Ps_Model.unite_split_op in E. change (sheap s1) with (sheap s) in E. rewrite mv_dindex in E. cbv zeta in E.
  set (nz := onorm (hget (sheap s) n) && onorm (hget (sheap s) e)) in E.
  destruct (unite_mid_any K (sheap s) A n k1 k2 i e cks j nz mv_shaped Ax) as (hA & x & Es & _ & HA & _ & Lw & _ & XA & AA).
  fold w in HA, Es, Lw, AA, XA.
  assert (Hf : height R <= fuel) by (pose proof (size_height R); lia).
  destruct (unite_any K csvd Sv fuel hx (sheap s) A n k1 k2 i e cks j (as_operator op s1) None Net Tw Ax (as_operator_lawful op s1) Hf) as
    (h' & c1 & c2 & A' & E' & Ec & N' & Gr & Lk & Nm & Rm & Pm).
  unfold unite_split in E'. destruct (linkage_visitor fuel (sheap s) n None true false) as [lo|]; [|discriminate]. cbn [bind] in E'.
  rewrite mv_dindex in E'. cbn [bind] in E'. fold nz in E'. rewrite Es in E, E'. cbn [bind] in E'.
  set (kk := renum 0 (k1 ++ cks ++ k2)) in HA.
  assert (Pk : Permutation (flat_map (fun k => ids (k_t k)) kk) (flat_map (fun k => ids (k_t k)) (k1 ++ k2 ++ cks))).
  { unfold kk. rewrite (renum_flat ids), !flat_map_app. apply Permutation_app_head, Permutation_app_comm. }
  pose proof (Permutation_NoDup mv_perm mv_nodup) as DR.
  assert (DA : NoDup (ids (Nd w kk))).
  { cbn [ids]. apply NoDup_cons_iff in DR. destruct DR as (_ & D1). apply NoDup_cons_iff in D1. destruct D1 as (_ & D2). constructor; [|eapply Permutation_NoDup; [symmetry; exact Pk|auto]].
    intros X. apply (Permutation_in _ Pk) in X. apply (mv_w w); auto. eapply Permutation_in; [symmetry; apply mv_perm|]. right. right. auto. }
  assert (LA : length (ids (Nd w kk)) <= S (length (ids R))).
  { rewrite (Permutation_length mv_perm). cbn [ids length]. rewrite (Permutation_length Pk). lia. }
  assert (AA' : forall y, y <> n -> y <> e -> y <> w -> attrs (hget (sheap s) y) (hget hA y)) by (intros y Y1 Y2 Y3; apply AA; auto).
  assert (X1 : forall t p u q, edge_in (Nd w kk) t p u q -> t = w \/ ((t = n \/ t = e) /\ edge_in R t p u q) \/ deep (k1 ++ k2 ++ cks) t p u q).
  { intros t p u q Ed. apply edge_cases in Ed. destruct Ed as [(-> & _)|(k & Hk & Ek)]; auto. right. right. unfold kk in Hk.
    apply renum_in in Hk. destruct Hk as (z & k0 & Hz & ->). apply nth_error_In in Hz. exists k0. split; [rewrite ?in_app_iff in *; tauto|exact Ek]. }
  assert (X2 : forall t p u q, deep (k1 ++ k2 ++ cks) t p u q -> edge_in (Nd w kk) t p u q).
  { intros t p u q (k & Hk & Ek). assert (Hk' : In (k_t k) (map (fun k => k_t k) kk)).
    { unfold kk. rewrite (renum_map (fun t _ => t)). apply in_map_iff. exists k. split; auto. rewrite ?in_app_iff in *. tauto. }
    apply in_map_iff in Hk'. destruct Hk' as (k' & Ek' & Hk'). apply (edge_deep w kk k'); auto. rewrite Ek'. auto. }
  assert (GA : length (sheap s) <= length hA) by (unfold w in Lw; lia).
  assert (Nk : map k_i kk = seq 0 (length kk)) by (unfold kk; rewrite renum_axes, renum_length; auto).
  unfold andthen in E. destruct (run_op op w (with_heap K s1 hA)) as (l1, r1) eqn:Er.
  destruct (mid_op hA kk HA Nk DA LA GA AA' XA Lw X1 op l1 r1 Er) as (G1 & G2).
  destruct r1 as [s2|x1]; [|injection E as <- <-; split; auto; discriminate].
  destruct (G2 s2 eq_refl) as (EO & Ky & Edt & Eop). rewrite Eop in E'. cbn [bind] in E'.
  destruct (split csvd (sheap s2) w _ (Some (j, i)) (Some e) (Some n) nz) as [((y, y'), h2)|] eqn:Eu; [|discriminate]. cbn [bind] in E'.
  destruct (linkage_visitor fuel h2 n None true false) as [ln|]; [|discriminate]. cbn [bind] in E'.
  destruct (edges_eqb lo ln); [|discriminate]. injection E' as ->.
  injection E as <- <-. rewrite app_nil_r. split; auto. intros s' X. injection X as <-. apply split_grows in Eu.
  split; [apply (mid_done hA kk LA GA AA' Lw X2 s2 h' c1 c2 A'); auto|]. split; auto. apply (shifted_of K (sheap s) R n i e j k1 k2 c1 c2 A'); auto.
Qed.
End OneMove.

(** ** Programs *)
Section Programs.
Variables csvd1 csvd2 : arr K -> res (arr K * arr K * arr K).
Hypothesis Sv1 : some_svd csvd1.
Hypothesis Sv2 : some_svd csvd2.

Lemma steady_top s R A : network (sheap s) R A -> ready R s -> top R = sroot s.
Proof. intros _ Rd. destruct (rd_top K hl fuel R s Rd) as (ks & -> & _). auto. Qed.
Lemma form_steady s R A s' : network (sheap s) R A -> top R = sroot s -> S (length (ids R)) <= fuel -> seated (sheap s) hl ->
  Ps_Model.form_env K hl fuel s = Ok s' -> steady s'.
Proof.
  intros N Et Hf Se E. pose proof N as (_ & _ & NS & H & Or & _). destruct (network_top K R A (sheap s) N) as (ks & ER & Ek). rewrite Et in ER.
  rewrite ER in Or. destruct (form_ready K hl fuel R s s') as (Rd & Nr); eauto; [eapply hangs_nodup; eauto|lia|apply (oriented_kids K _ _ _ _ Or)|].
  apply (steady_near s s' R A); auto.
Qed.
Lemma move_steady s R A i e j op uf l r : network (sheap s) R A -> ready R s -> S (length (ids R)) <= fuel ->
  dget (oacc (hget (sheap s) (sroot s))) i = Some (e, j) -> oleaf (hget (sheap s) e) = false -> Ps_Model.move K hl fuel csvd1 csvd2 (sroot s) i op uf s = (l, r) ->
  good l /\ forall s', r = Ok s' -> steady s' /\ sroot s' = e /\ shifted K (sheap s) R (sroot s) i e (sheap s').
Proof.
  intros N Rd Hf Eg Le E. pose proof (steady_top s R A N Rd) as Et. unfold Ps_Model.move in E.
  assert (Ed : dindex (oacc (hget (sheap s) (sroot s))) i = Ok (e, j)) by (unfold dindex; rewrite Eg; auto). rewrite Ed in E.
    unfold andthen in E. 
    destruct ((if uf then unite_split_op csvd2 else split_unite_op csvd1) (sroot s) i op (remove_env [sroot s; e] s)) as (l2, r2) eqn:E2.
    assert (E3 : l = Moved K unit s i :: l2 /\ r = r2) by (destruct uf; rewrite E2 in E; injection E as <- <-; auto). destruct E3 as (-> & ->).
    pose proof N as (D & _). apply (points_get K (sheap s) _ _ _ _ D) in Eg.
    destruct (point_kid K (sheap s) R A (sroot s) i e j N Et Eg Le) as (k1 & cks & k2 & ->).
    assert (Z : good l2 /\ forall s', r2 = Ok s' -> steady s' /\ sroot s' = e /\ shifted K (sheap s) (Nd (sroot s) (k1 ++ (i, Nd e cks, j) :: k2)) (sroot s) i e (sheap s')).
    { pose proof (twins_refl K (sroot s) e (sheap s)) as Tw. pose proof (mv_deep (sroot s) k1 k2 cks i e j) as Sub.
      destruct uf; [eapply unite_op_ready with (csvd := csvd2) (hx := sheap s)|eapply split_op_ready with (csvd := csvd1) (hx := sheap s)]; eauto.
      left. pose proof N as (_ & _ & _ & _ & Or & _). apply oriented_kids in Or. apply Or. }
    destruct Z as (Z1 & Z2). split; [|auto]. intros s0 cache time y [X|X]; [discriminate|eauto].
Qed.
(** The united move when the root is the tensor that is moved to. *)
Lemma unite_steady s R A n i j op l r : network (sheap s) R A -> ready R s -> S (length (ids R)) <= fuel ->
  dget (oacc (hget (sheap s) n)) i = Some (sroot s, j) -> oleaf (hget (sheap s) n) = false -> Ps_Model.move K hl fuel csvd1 csvd2 n i op true s = (l, r) ->
  good l /\ forall s', r = Ok s' -> steady s' /\ sroot s' = sroot s /\ shifted K (sheap s) R n i (sroot s) (sheap s').
Proof.
  intros N Rd Hf Eg Le E. pose proof (steady_top s R A N Rd) as Et. unfold Ps_Model.move in E.
  assert (Ed : dindex (oacc (hget (sheap s) n)) i = Ok (sroot s, j)) by (unfold dindex; rewrite Eg; auto). rewrite Ed in E.
  unfold andthen in E.
  destruct (unite_split_op csvd2 n i op (remove_env [n; sroot s] s)) as (l2, r2) eqn:E2. injection E as <- <-.
  destruct (other_end K (sheap s) R A n i (sroot s) j N Et Eg Le) as (k1 & k2 & c1 & c2 & A' & hx & ER & N' & Tw & Ax & Pm).
  assert (Z : good l2 /\ forall s', r2 = Ok s' -> steady s' /\ sroot s' = sroot s /\ shifted K (sheap s) (Nd n (k1 ++ (i, Nd (sroot s) (c1 ++ c2), j) :: k2)) n i (sroot s) (sheap s')).
  { eapply unite_op_ready with (csvd := csvd2) (hx := hx) (Rr := R); eauto.
    - intros t p u q Dp. rewrite ER. apply (other_deep (sroot s) c1 c2 j n k1 k2 i). auto.
    - rewrite <- (Permutation_length Pm). auto. }
  destruct Z as (Z1 & Z2). split; [intros s0 cache time y [X|X]; [discriminate|eauto]|]. intros s' X. destruct (Z2 s' X) as (Y1 & Y2 & Y3). split; auto. split; auto.
  eapply shifted_perm; [|exact Y3]. apply Permutation_sym. auto.
Qed.
Lemma command_steady c s l r : steady s -> Ps_Model.do_command K hl fuel csvd1 csvd2 c s = (l, r) ->
  inner_moves l -> good l /\ forall s', r = Ok s' -> steady s'.
Proof.
  intros (R & A & N & Rd & Hf) E IM. pose proof (steady_top s R A N Rd) as Et. destruct c as [|ys y|i op uf]; cbn [Ps_Model.do_command] in E.
  - injection E as <- E. split; [apply (good_nil K hl fuel)|]. intros s' ->. eapply form_steady; eauto. apply Rd.
  - assert (Rd' : ready R (mkState K (sheap s) (sroot s) (senv s))) by (destruct s; exact Rd).
    destruct (prop_ready K hl fuel R s (sroot s) ys y l r Rd' E) as (G & X). split; auto. intros s' Er.
    destruct (X s' Er) as (Y1 & Y2 & Y3). apply (steady_near (mkState K (sheap s) (sroot s) (senv s)) s' R A); auto.
  - unfold Ps_Model.move in E. destruct (dindex (oacc (hget (sheap s) (sroot s))) i) as [(e, j)|x] eqn:Ed; [|injection E as <- <-; split; [apply (good_nil K hl fuel)|discriminate]].
    assert (Em : Ps_Model.move K hl fuel csvd1 csvd2 (sroot s) i op uf s = (l, r)).
    { unfold Ps_Model.move. rewrite Ed. exact E. }
    assert (Hm : In (Moved K unit s i) l).
    { unfold andthen in E. destruct ((if uf then unite_split_op csvd2 else split_unite_op csvd1) (sroot s) i op (remove_env [sroot s; e] s)) as (l2, r2) eqn:E2.
      destruct uf; rewrite E2 in E; injection E as <- <-; left; auto. }
    destruct (IM s i Hm) as (e' & j' & Eg & Le).
    assert (Q : e' = e /\ j' = j) by (unfold dindex in Ed; rewrite Eg in Ed; injection Ed; auto). destruct Q as (-> & ->).
    destruct (move_steady s R A i e j op uf l r N Rd Hf Eg Le Em) as (Z1 & Z2). split; auto. intros s' X. apply (Z2 s' X).
Qed.
Lemma exec_steady cs : forall s l r, steady s -> Ps_Model.exec K hl fuel csvd1 csvd2 cs s = (l, r) -> inner_moves l -> good l /\ forall s', r = Ok s' -> steady s'.
Proof.
  induction cs as [|c cs IH]; intros s l r St E IM; unfold Ps_Model.exec in *; cbn [foreach] in E.
  - injection E as <- <-. split; [apply (good_nil K hl fuel)|]. intros s' X. injection X as <-. auto.
  - unfold andthen in E. destruct (Ps_Model.do_command K hl fuel csvd1 csvd2 c s) as (l1, [s1|x]) eqn:E1.
    + destruct (foreach K unit _ cs s1) as (l2, r2) eqn:E2. injection E as <- <-. apply inner_app in IM. destruct IM as (I1 & I2).
      destruct (command_steady c s l1 (Ok s1) St E1 I1) as (G1 & G2). destruct (IH s1 l2 r2 (G2 s1 eq_refl) E2 I2) as (G3 & G4).
      split; auto. apply (good_app K hl fuel); auto.
    + injection E as <- <-. destruct (command_steady c s l1 (Raise x) St E1 IM) as (G1 & _). split; auto. discriminate.
Qed.
(** A program that starts with [_form_env]. *)
Lemma program_good s R A cs l r : network (sheap s) R A -> top R = sroot s -> S (length (ids R)) <= fuel -> seated (sheap s) hl ->
  Ps_Model.exec K hl fuel csvd1 csvd2 (Ps_Model.Form K :: cs) s = (l, r) -> inner_moves l -> good l.
Proof.
  intros N Et Hf Se E IM. unfold Ps_Model.exec in E. cbn [foreach Ps_Model.do_command andthen] in E.
  destruct (Ps_Model.form_env K hl fuel s) as [s1|x] eqn:E1; [|injection E as <- <-; apply (good_nil K hl fuel)].
  destruct (foreach K unit _ cs s1) as (l2, r2) eqn:E2. injection E as <- <-.
  apply (exec_steady cs s1 l2 r2); auto. eapply form_steady; eauto.
Qed.
End Programs.
End PsMove.
