(** The splitting steps with arrays do what the sweeps of Sweep_Model.v do. *)
From Coq Require Import String List Arith Bool ZArith Lia Permutation.
From Verif Require Import Py Alg ListX NdArray_Model Contract_Model Net_Model Net_Spec Trav_Proof Acyc_Proof Env_Spec
  Move_Spec Link_Spec Link_Proof State_Spec State_Proof EnvThm_Proof TEnv_Proof DirectSem_Proof Cache_Model CacheMove_Proof Step_Model Sweep_Model Sweep_Spec Sweep_Proof.
Import ListNotations.
Local Open Scope nat_scope.
Local Open Scope list_scope.

Section Trees.
Variable K : StarRing.
Implicit Types h : heap K.

Lemma hangs_closed h : forall t up x i b j, hangs h up t -> In x (ids t) -> In (i, (b, j)) (oacc (hget h x)) -> In b (ids t) \/ (exists a, up = Some (a, (b, j))).
Proof.
  induction t as [n|n ks IH] using tree_ind'; intros up x i b j H Hx Hp.
  - inversion H as [? ? ? L E| |]; subst. destruct Hx as [<-|[]]. rewrite E in Hp. destruct Hp as [Hp|[]]. injection Hp as -> ->. eauto.
  - rewrite Forall_forall in IH.
    assert (Kid : forall k, In k ks -> hangs h (Some (k_j k, (n, k_i k))) (k_t k)).
    { destruct (hangs_kids K _ _ _ _ H) as (_ & F & _). rewrite Forall_forall in F. auto. }
    destruct Hx as [<-|Hx].
    + assert (Top : forall k, In k ks -> (k_i k, (top (k_t k), k_j k)) = (i, (b, j)) -> In b (ids (Nd n ks))).
      { intros k Hk E. injection E as _ <- _. right. apply in_flat_map. exists k. split; auto. destruct (k_t k); left; auto. }
      inversion H as [|? ? L E D F|? ? ? l1 l2 L E D F]; subst.
      * rewrite E in Hp. apply in_map_iff in Hp. destruct Hp as (k & E' & Hk). left. eauto.
      * rewrite E in Hp. rewrite in_app_iff in Hp. cbn [In] in Hp. rewrite !in_map_iff in Hp. destruct Hp as [(k & E' & Hk)|[E'|(k & E' & Hk)]].
        -- left. apply (Top k); auto. apply in_app_iff; auto.
        -- injection E' as -> ->. eauto.
        -- left. apply (Top k); auto. apply in_app_iff; auto.
    + apply in_flat_map in Hx. destruct Hx as (k & Hk & Hx). destruct (IH k Hk _ x i b j (Kid k Hk) Hx Hp) as [Hb|(a & Ea)].
      * left. right. apply in_flat_map. eauto.
      * injection Ea as _ <- _. left. left. auto.
Qed.
Lemma inner_ids h t : forall up x, hangs h up t -> In x (ids t) -> oleaf (hget h x) = false -> In x (nids t).
Proof.
  induction t as [n|n ks IH] using tree_ind'; intros up x H Hx L.
  - inversion H; subst. destruct Hx as [<-|[]]. congruence.
  - cbn [nids]. destruct Hx as [->|Hx]; [left; auto|]. right. apply in_flat_map in Hx. destruct Hx as (k & Hk & Hx). apply in_flat_map. exists k. split; auto.
    rewrite Forall_forall in IH. destruct (hangs_kids K _ _ _ _ H) as (_ & F & _). rewrite Forall_forall in F. eapply IH; eauto.
Qed.
Lemma root_axis h R A x : network h R A -> In x (ids R) -> oleaf (hget h x) = false -> oaxis (hget h x) = None -> x = top R.
Proof.
  intros (_ & _ & _ & H & Or & _) Hx L E. pose proof (inner_ids h R None x H Hx L) as Hn. destruct R as [m|m ks]; [destruct Hn|].
  cbn [nids] in Hn. destruct Hn as [->|Hn]; auto. exfalso. inversion Or as [|? ? ? _ Fo]; subst. apply in_flat_map in Hn. destruct Hn as (k & Hk & Ht).
  rewrite Forall_forall in Fo. apply (oriented_some K h _ _ (Fo k Hk) x Ht). auto.
Qed.
Lemma root_ids h R A : network h R A -> In (top R) (ids R) /\ oleaf (hget h (top R)) = false /\ oaxis (hget h (top R)) = None.
Proof.
  intros (_ & _ & _ & H & Or & _). destruct R as [m|m ks]; [inversion H|]. split; [left; auto|]. split; [inversion H; auto|inversion Or; auto].
Qed.
Lemma hangs_on h h' : (forall n, oacc (hget h' n) = oacc (hget h n)) -> forall t up, (forall n, In n (ids t) -> oleaf (hget h' n) = oleaf (hget h n)) ->
  hangs h up t -> hangs h' up t.
Proof.
  intros S. induction t as [n|n ks IH] using tree_ind'; intros up Q H; pose proof (S n) as S2; pose proof (Q n (or_introl eq_refl)) as S1.
  - inversion H; subst. constructor; congruence.
  - rewrite Forall_forall in IH.
    assert (Q' : forall k, In k ks -> forall n0, In n0 (ids (k_t k)) -> oleaf (hget h' n0) = oleaf (hget h n0)).
    { intros k Hk n0 Hn. apply Q. right. apply in_flat_map. eauto. }
    inversion H as [|? ? L A D F|? j p k1 k2 L A D F]; subst; constructor.
    1,5: congruence. 1,4: rewrite S2; auto. 1,3: rewrite S2; auto.
    all: rewrite Forall_forall in F |- *; intros k Hk; apply IH; [auto|exact (Q' k Hk)|apply F; auto].
Qed.
End Trees.

Section Sim.
Variable K : StarRing.
Variable T : Type.
Variable opp : T -> T.
Variable half_of : T -> T.
Variable fuel : nat.
Variables X L : Type.
Variable hp : X -> heap K.
Variable rt : X -> id.
Variable form : X -> res X.
Variable prop : T -> id -> X -> list L * res X.
Variable mv : id -> nat -> option T -> bool -> X -> list L * res X.
Variable Inv : X -> Prop.
Variable good : list L -> Prop.
Hypothesis good_nil : good [].
Hypothesis good_app : forall l l', good l -> good l' -> good (l ++ l').
Hypothesis Inv_net : forall x, Inv x -> exists R A, network (hp x) R A /\ top R = rt x.
Hypothesis H_prop : forall tau x l r, Inv x -> prop tau (rt x) x = (l, r) ->
  good l /\ forall x', r = Ok x' -> Inv x' /\ rt x' = rt x /\ length (hp x') = length (hp x) /\
    (forall t, oacc (hget (hp x') t) = oacc (hget (hp x) t) /\ oleaf (hget (hp x') t) = oleaf (hget (hp x) t) /\ oaxis (hget (hp x') t) = oaxis (hget (hp x) t)).
Hypothesis H_move : forall x R A i e j op uf l r, Inv x -> network (hp x) R A -> top R = rt x ->
  dget (oacc (hget (hp x) (rt x))) i = Some (e, j) -> oleaf (hget (hp x) e) = false -> mv (rt x) i op uf x = (l, r) ->
  good l /\ forall x', r = Ok x' -> Inv x' /\ rt x' = e /\ shifted K (hp x) R (rt x) i e (hp x').

Notation srun := (srun T X L).
Notation sprop := (sprop prop).
Notation smove := (smove hp mv).

(** The tree and the links at the start of a step. *)
Variable R0 : tree.
Variable h0 : heap K.
Variable A0 : id -> arr K.
Hypothesis N0 : network h0 R0 A0.

Definition sim (s : heap K * id) (x : X) : Prop := let '(h, r) := s in
  Inv x /\ rt x = r /\ (forall t, oacc (hget (hp x) t) = oacc (hget h0 t)) /\ (forall t, oacc (hget h t) = oacc (hget h0 t)) /\
  (forall t, In t (ids R0) -> t < length h /\ oleaf (hget (hp x) t) = oleaf (hget h0 t) /\ oleaf (hget h t) = oleaf (hget h0 t) /\
     oaxis (hget (hp x) t) = oaxis (hget h t)) /\
  exists R A, network (hp x) R A /\ top R = r /\ Permutation (ids R0) (ids R).
(** [g] records what [f] records, or stops before the end. *)
Definition Rel (f : run K T) (g : srun) : Prop :=
  match f with
  | (l, Ok s) => let '(ev, (log, r)) := g in good log /\
      match r with
      | Ok x => ev = l /\ sim s x
      | Raise _ => exists e rest, l = ev ++ e :: rest
      end
  | (_, Raise _) => True
  end.
Lemma sim_ret s x : sim s x -> Rel (ret s) (sok x).
Proof. intros H. cbn. auto. Qed.
Lemma sim_then f g k kg : Rel f g -> (forall s x, sim s x -> Rel (k s) (kg x)) -> Rel (andthen f k) (sthen g kg).
Proof.
  intros H Hk. destruct f as (l, [s|y]); [|exact I]. destruct g as (ev, (log, r)). destruct H as (G & H). unfold andthen, sthen.
  destruct (k s) as (l', r') eqn:Ek. destruct r' as [s'|y']; [|exact I]. destruct r as [x|y].
  - destruct H as (-> & H). specialize (Hk s x H). rewrite Ek in Hk. destruct (kg x) as (ev', (log', r')). cbn [Rel] in Hk. destruct Hk as (G' & Hk). split; auto.
    destruct r' as [x'|y]; [destruct Hk as (-> & Hk); auto|]. destruct Hk as (e & rest & ->). exists e, rest. rewrite app_assoc. auto.
  - destruct H as (e & rest & ->). split; auto. exists e, (rest ++ l'). rewrite <- app_assoc. auto.
Qed.
Lemma sim_foreach {B} (f : B -> heap K * id -> run K T) (g : B -> X -> srun) l : (forall b s x, In b l -> sim s x -> Rel (f b s) (g b x)) ->
  forall s x, sim s x -> Rel (foreach f l s) (sforeach g l x).
Proof.
  induction l as [|b l IH]; intros H s x Hs; [apply sim_ret; auto|]. cbn [foreach sforeach]. apply sim_then; [apply H; auto; left; auto|].
  intros s' x' Hs'. apply IH; auto. intros; apply H; auto; right; auto.
Qed.

Definition ok_node (t : id) : Prop := In t (ids R0) /\ oleaf (hget h0 t) = false.
Definition ok_edge (t : id) (i : nat) (e : id) (j : nat) : Prop := ok_node t /\ ok_node e /\ points h0 t i e j.
Lemma ok_step t i e j : ok_node t -> points h0 t i e j -> oleaf (hget h0 e) = false -> ok_edge t i e j.
Proof.
  intros (Ht & Lt) P Le. split; [split; auto|]. split; auto. split; auto. pose proof N0 as (_ & _ & _ & H & _).
  destruct (hangs_closed K h0 R0 None t i e j H Ht P) as [|(a & Ea)]; auto. discriminate.
Qed.
Lemma ok_back t i e j : ok_edge t i e j -> ok_edge e j t i.
Proof. intros (H1 & H2 & P). split; auto. split; auto. pose proof N0 as (_ & Sy & _). apply Sy; auto. Qed.
Lemma sim_root s x t : sim s x -> ok_node t -> oaxis (hget (fst s) t) = None -> t = rt x.
Proof.
  destruct s as (h, r). intros (I & Er & Lk & Lh & Q & R & A & N & Et & Pm) (Ht & Lt) Ea. destruct (Q t Ht) as (_ & L1 & _ & E1). cbn [fst] in Ea.
  rewrite Er, <- Et. apply (root_axis K (hp x) R A t N); [eapply Permutation_in; eauto|congruence|congruence].
Qed.
Lemma sim_prop n tau s x : sim s x -> ok_node n -> Rel (split_prop n tau s) (sprop n tau x).
Proof.
  intros S Hn. unfold split_prop. destruct (oaxis (hget (fst s) n)) eqn:Ea; cbn [is_none]; [exact I|].
  pose proof (sim_root s x n S Hn Ea) as ->. destruct s as (h, r). destruct S as (I & Er & Lk & Lh & Q & R & A & N & Et & Pm).
  unfold Step_Model.sprop. destruct (prop tau (rt x) x) as (l, q) eqn:E. destruct (H_prop _ _ _ _ I E) as (G & H). destruct q as [x'|y]; cbn [Rel fst]; split; auto.
  - destruct (H x' eq_refl) as (I' & Er' & El & Q'). split; auto. split; auto. split; auto.
    split. { intros t. rewrite <- Lk. apply Q'. } split; auto.
    split. { intros t Ht. destruct (Q t Ht) as (Y1 & Y2 & Y3 & Y4). destruct (Q' t) as (_ & Z2 & Z3). split; auto. split; [congruence|]. split; auto. congruence. }
    destruct (Inv_net x' I') as (R' & A' & N' & Et'). exists R', A'. split; auto. split; [congruence|].
    assert (R' = R) as ->; auto. pose proof N' as (_ & _ & _ & Hg' & _). pose proof N as (_ & _ & _ & Hg & _).
    apply (hangs_det K (hp x') R' None R); auto; [|congruence]. eapply hangs_same; [|exact Hg]. intros t. destruct (Q' t) as (Z1 & Z2 & _). auto.
  - exists (Node (rt x) tau), []. auto.
Qed.

Lemma root_ne (h : heap K) R A r i e j : network h R A -> top R = r -> dget (oacc (hget h r)) i = Some (e, j) -> oleaf (hget h e) = false -> r <> e.
Proof.
  intros N Et Eg Le. pose proof N as (D & _ & NS & Hg & _). apply (points_get K h _ _ _ _ D) in Eg.
  destruct (point_kid K h R A r i e j N Et Eg Le) as (k1 & cks & k2 & ->).
  pose proof (hangs_nodup K h _ NS Hg) as ND. cbn [ids] in ND. apply NoDup_cons_iff in ND. destruct ND as (ND & _). intros E. apply ND.
  rewrite flat_map_app. apply in_app_iff. right. cbn [flat_map k_t fst snd ids]. left. auto.
Qed.
Lemma sim_shift h r x t i e j x' R : sim (h, r) x -> ok_edge t i e j -> t <> e -> Permutation (ids R0) (ids R) -> (forall u, In u (ids R) -> u < length (hp x)) ->
  Inv x' -> rt x' = e -> shifted K (hp x) R t i e (hp x') -> sim (modify (modify h t (put_axis (Some i))) e (put_axis None), e) x'.
Proof.
  intros (I & Er & Lk & Lh & Q & _) (Ht & He' & P) Hne Pm Lt I' Er' (S1 & S2 & S3 & S4 & S5 & S6 & R' & A' & N' & Et' & Pm').
  split; auto. split; auto. split. { intros u. rewrite S1. auto. } split. { intros u. rewrite !put_axis_acc. auto. }
  split; [|exists R', A'; split; auto; split; auto; eapply Permutation_trans; eauto].
  intros u Hu. destruct (Q u Hu) as (Y1 & Y2 & Y3 & Y4). split. { rewrite !length_modify. auto. }
  assert (Lu : u < length (hp x)) by (apply Lt; eapply Permutation_in; eauto).
  split. { rewrite S2; auto. } split. { rewrite !put_axis_leaf. auto. }
  fold (moved K h t i e). rewrite moved_axis by (apply (Q _ (proj1 Ht)) || apply (Q _ (proj1 He'))).
  destruct (Nat.eq_dec u e) as [->|Ue]. { rewrite S5. rewrite Nat.eqb_refl. auto. }
  destruct (Nat.eq_dec u t) as [->|Ut]. { rewrite S4. rewrite Nat.eqb_refl. rewrite (proj2 (Nat.eqb_neq t e)) by auto. auto. }
  rewrite S3 by auto. rewrite (proj2 (Nat.eqb_neq u e) Ue), (proj2 (Nat.eqb_neq u t) Ut). auto.
Qed.
Lemma sim_move t i e j op s x : sim s x -> ok_edge t i e j -> Rel (move t i op false s) (smove t i op false x).
Proof.
  intros S He. destruct s as (h, r). pose proof S as (I & Er & Lk & Lh & Q & R & A & N & Et & Pm). pose proof He as (Ht & He' & P).
  pose proof N0 as (D0 & _). pose proof (proj1 (points_get K h0 t i e j D0) P) as Eg.
  unfold move, Step_Model.smove. unfold dindex at 1 2. rewrite Lh, Lk, Eg.
  destruct (oaxis (hget h t)) eqn:Ea; cbn [is_none negb]; [exact Logic.I|].
  pose proof (sim_root (h, r) x t S Ht Ea) as Erx. destruct (Q t (proj1 Ht)) as (Lt & Qt). destruct (Q e (proj1 He')) as (Le & Qe1 & Qe2 & Qe3).
  assert (Egx : dget (oacc (hget (hp x) (rt x))) i = Some (e, j)) by (rewrite Lk, <- Erx; auto).
  assert (Lex : oleaf (hget (hp x) e) = false) by (rewrite Qe1; apply He').
  assert (Hne : t <> e) by (rewrite Erx; apply (root_ne (hp x) R A (rt x) i e j); auto; congruence).
  rewrite Erx. destruct (mv (rt x) i op false x) as (l, q) eqn:E.
  destruct (H_move x R A i e j op false l q I N ltac:(congruence) Egx Lex E) as (G & H).
  assert (Z : good l /\ match q with Ok x' => sim (modify (modify h (rt x) (put_axis (Some i))) e (put_axis None), e) x' | Raise _ => True end).
  { split; auto. destruct q as [x'|]; auto. destruct (H x' eq_refl) as (I' & Er' & Sh). rewrite <- Erx in *. apply (sim_shift h r x t i e j x' R); auto. intros u Hu. apply (hangs_lt K (hp x) None R); [apply N|auto]. }
  destruct Z as (Z1 & Z2). cbn [Rel]. destruct q as [x'|y]; split; auto.
  eexists _, []. cbn [app]. reflexivity.
Qed.

(** ** The one-site sweep *)
Lemma tour_ok : forall t up, hangs h0 up t -> (forall x, In x (ids t) -> In x (ids R0)) ->
  forall b a i e j, In (b, (a, i, e, j)) (tour false t) -> ok_edge a i e j.
Proof.
  induction t as [n|n ks IH] using tree_ind'; intros up H Sub b a i e j Hin; [destruct Hin|].
  cbn [tour orb] in Hin. apply in_flat_map in Hin. destruct Hin as (k & Hk & Hin). destruct (inner (k_t k)) eqn:Ei; [|destruct Hin].
  rewrite Forall_forall in IH. destruct (hangs_kids K _ _ _ _ H) as (Ln & F & _). rewrite Forall_forall in F.
  assert (Down : ok_edge n (k_i k) (top (k_t k)) (k_j k)).
  { apply ok_step; [split; auto; apply Sub; left; auto| |].
    - unfold points. inversion H as [|? ? _ E _ _|? ? ? l1 l2 _ E _ _]; subst; rewrite E; [apply in_map_iff; exists k; auto|].
      apply in_app_iff in Hk. apply in_app_iff. destruct Hk as [Hk|Hk]; [left|right; right]; apply in_map_iff; exists k; auto.
    - pose proof (F k Hk) as Hc. destruct (k_t k); [discriminate|]. inversion Hc; auto. }
  destruct Hin as [Hin|Hin]; [injection Hin as _ <- <- <- <-; auto|]. apply in_app_iff in Hin. destruct Hin as [Hin|[Hin|[]]].
  - eapply (IH k Hk); eauto. intros y Hy. apply Sub. right. apply in_flat_map. eauto.
  - injection Hin as _ <- <- <- <-. apply ok_back. auto.
Qed.
Lemma sim_start x : Inv x -> hp x = h0 -> top R0 = rt x -> sim (h0, rt x) x.
Proof.
  intros I Eh Et. split; auto. split; auto. rewrite Eh. split; auto. split; auto. split; [|exists R0, A0; auto].
  intros t Ht. split; auto. pose proof N0 as (_ & _ & _ & H & _). eapply hangs_lt; eauto.
Qed.
Lemma one_sim x x1 tau b : form x = Ok x1 -> Inv x1 -> hp x1 = h0 -> top R0 = rt x1 -> height R0 <= fuel ->
  Rel (split_step opp fuel tau b (h0, rt x1)) (one_site opp fuel hp rt form prop mv tau b x).
Proof.
  intros Ef I Eh Et Hf. unfold split_step, one_site. rewrite Ef, Eh. pose proof N0 as (_ & _ & _ & H & _).
  destruct (root_ids K h0 R0 A0 N0) as (T1 & T2 & T3). rewrite Et in T1, T2, T3. rewrite T3.
  pose proof (decorated_hangs K h0 R0 None fuel false H Hf) as Ed. cbn [option_map] in Ed. rewrite Et in Ed. rewrite Ed.
  pose proof (tour_ok R0 None H ltac:(auto)) as Tk. pose proof (sim_start x1 I Eh Et) as S0. destruct b.
  - apply sim_then; [apply sim_prop; auto; split; auto|]. apply sim_foreach. intros (b, (((t1, i), t2), j)) s y Hin Hs. apply in_rev in Hin. apply Tk in Hin.
    pose proof (ok_back _ _ _ _ Hin) as Hb. destruct b; [|eapply sim_move; eauto]. apply sim_then; [eapply sim_move; eauto|].
    intros s' y' Hs'. apply sim_prop; auto. apply Hin.
  - apply sim_then; [|intros s y Hs; destruct s as (h, r); cbn [snd]].
    + apply sim_foreach; auto. intros (b, (((t1, i), t2), j)) s y Hin Hs. apply Tk in Hin. destruct b; [|eapply sim_move; eauto].
      apply sim_then; [apply sim_prop; auto; apply Hin|]. intros s' y' Hs'. eapply sim_move; eauto.
    + pose proof Hs as (_ & Er & _ & _ & Q & R & A & N & Etr & Pm). rewrite Er. apply sim_prop; auto.
      destruct (root_ids K (hp y) R A N) as (Y1 & Y2 & _). rewrite Etr in *. apply (Permutation_in _ (Permutation_sym Pm)) in Y1. split; auto.
      destruct (Q r Y1) as (_ & <- & _). auto.
Qed.

(** ** The recursive step *)
Lemma children_same (h h' : heap K) r ax : oacc (hget h' r) = oacc (hget h r) -> oleaf (hget h' r) = oleaf (hget h r) ->
  (forall i e j, In (i, (e, j)) (oacc (hget h r)) -> oleaf (hget h' e) = oleaf (hget h e)) -> children h' r ax false = children h r ax false.
Proof.
  intros E1 E2 Q. unfold children. rewrite E2. destruct (is_none ax && oleaf (hget h r)); auto. unfold linkages. rewrite E1.
  apply filter_ext_in. intros ((i, e), j) Hin. apply in_map_iff in Hin. destruct Hin as ((i', (e', j')) & E & Hin). injection E as <- <- <-.
  cbn [fst snd]. rewrite (Q _ _ _ Hin). auto.
Qed.
Lemma sim_children s x r ax : sim s x -> ok_node r -> children (hp x) r ax false = children (fst s) r ax false /\ forall i t j, In (i, t, j) (children (fst s) r ax false) -> ok_edge r i t j.
Proof.
  destruct s as (h, r'). intros (I & Er & Lk & Lh & Q & _) Hr. pose proof N0 as (_ & _ & _ & H & _). cbn [fst].
  assert (Cl : forall i e j, In (i, (e, j)) (oacc (hget h0 r)) -> In e (ids R0)).
  { intros i e j Hp. destruct (hangs_closed K h0 R0 None r i e j H (proj1 Hr) Hp) as [|(a & Ea)]; auto. discriminate. }
  destruct (Q r (proj1 Hr)) as (_ & Q1 & Q2 & _). split.
  - apply children_same; [rewrite Lk, Lh; auto|congruence|]. intros i e j Hp. rewrite Lh in Hp. apply Cl in Hp. destruct (Q e Hp) as (_ & Y1 & Y2 & _). congruence.
  - intros i t j Hin. unfold children in Hin. destruct (is_none ax && oleaf (hget h r)); [destruct Hin|]. apply filter_In in Hin. destruct Hin as (Hin & Hb).
    unfold linkages in Hin. apply in_map_iff in Hin. destruct Hin as ((i', (e', j')) & E & Hin). injection E as <- <- <-. rewrite Lh in Hin.
    apply ok_step; auto. cbn [fst snd orb] in Hb. apply andb_true_iff in Hb. destruct Hb as (_ & Hb). apply negb_true_iff in Hb.
    destruct (Q e' (Cl _ _ _ Hin)) as (_ & _ & <- & _). auto.
Qed.
Lemma branch_sim (rec : T -> id -> option nat -> Sweep_Model.state K -> run K T) (grec : T -> id -> option nat -> X -> srun) r ax tau b : ok_node r -> (forall t i s x, sim s x -> ok_node t -> Rel (rec tau t i s) (grec tau t i x)) ->
  forall s x, sim s x -> Rel (branch opp rec r ax tau b s) (sbranch opp hp mv grec r ax tau b x).
Proof.
  intros Hr Hrec s x Hs. destruct (sim_children s x r ax Hs Hr) as (Ec & Ce). unfold branch, sbranch. destruct s as (h, r'). rewrite Ec. cbn [fst] in *.
  apply sim_foreach; auto. intros ((i, t), j) s y Hin Hy. apply Ce in Hin. apply sim_then; [eapply sim_move; eauto|]. intros s1 y1 Hy1.
  apply sim_then; [apply Hrec; auto; apply Hin|]. intros s2 y2 Hy2. apply (sim_move t j r i); auto. apply ok_back. auto.
Qed.
Lemma recursive_sim snd_order : forall n tau r ax s x, sim s x -> ok_node r ->
  Rel (r_split opp half_of snd_order n tau r ax s) (recursive opp half_of hp prop mv snd_order n tau r ax x).
Proof.
  induction n as [|n IH]; intros tau r ax s x Hs Hr; [exact Logic.I|]. cbn [r_split recursive]. destruct snd_order.
  - apply sim_then; [apply branch_sim; auto|]. intros s1 x1 H1. apply sim_then; [apply sim_prop; auto|]. intros s2 x2 H2. apply branch_sim; auto.
  - apply sim_then; [apply branch_sim; auto|]. intros s1 x1 H1. apply sim_prop; auto.
Qed.
Lemma recursive_step_sim snd_order x x1 tau : form x = Ok x1 -> Inv x1 -> hp x1 = h0 -> top R0 = rt x1 ->
  Rel (r_split_step opp half_of snd_order fuel tau (h0, rt x1)) (recursive_step opp half_of fuel hp rt form prop mv snd_order tau x).
Proof.
  intros Ef I Eh Et. unfold r_split_step, recursive_step. rewrite Ef. cbn [snd]. apply recursive_sim; [apply sim_start; auto|].
  destruct (root_ids K h0 R0 A0 N0) as (T1 & T2 & T3). rewrite Et in *. split; auto.
Qed.

(** ** The two-site sweep *)
Hypothesis H_unite : forall x R A n i j op l r, Inv x -> network (hp x) R A -> top R = rt x ->
  dget (oacc (hget (hp x) n)) i = Some (rt x, j) -> oleaf (hget (hp x) n) = false -> mv n i op true x = (l, r) ->
  good l /\ forall x', r = Ok x' -> Inv x' /\ rt x' = rt x /\ shifted K (hp x) R n i (rt x) (hp x').
Lemma sim_unite t i e j op s x : sim s x -> ok_edge t i e j -> Rel (move t i op true s) (smove t i op true x).
Proof.
  intros S He. destruct s as (h, r). pose proof S as (I & Er & Lk & Lh & Q & R & A & N & Et & Pm). pose proof He as (Ht & He' & P).
  pose proof N0 as (D0 & _). pose proof (proj1 (points_get K h0 t i e j D0) P) as Eg.
  unfold move, Step_Model.smove. unfold dindex at 1 2. rewrite Lh, Lk, Eg.
  destruct (Q t (proj1 Ht)) as (Lt & Qt1 & Qt2 & Qt3). destruct (Q e (proj1 He')) as (Le & Qe1 & Qe2 & Qe3).
  assert (Lx : forall u, In u (ids R) -> u < length (hp x)) by (intros u Hu; apply (hangs_lt K (hp x) None R); [apply N|auto]).
  assert (Lex : oleaf (hget (hp x) e) = false) by (rewrite Qe1; apply He'). assert (Ltx : oleaf (hget (hp x) t) = false) by (rewrite Qt1; apply Ht).
  assert (Etx : dget (oacc (hget (hp x) t)) i = Some (e, j)) by (rewrite Lk; auto).
  destruct (mv t i op true x) as (l, q) eqn:E.
  assert (Z : (oaxis (hget h t) = None \/ oaxis (hget h e) = None) ->
    good l /\ match q with Ok x' => sim (modify (modify h t (put_axis (Some i))) e (put_axis None), e) x' | Raise _ => True end).
  { intros [Ea|Ea].
    - pose proof (sim_root (h, r) x t S Ht Ea) as Erx.
      assert (Hne : t <> e) by (apply (root_ne (hp x) R A t i e j); auto; congruence).
      assert (Z : good l /\ forall x', q = Ok x' -> Inv x' /\ rt x' = e /\ shifted K (hp x) R t i e (hp x')).
      { rewrite Erx. apply (H_move x R A i e j op true l q); auto; rewrite <- ?Erx; auto. congruence. }
      destruct Z as (G & H). split; auto. destruct q as [x'|]; auto.
      destruct (H x' eq_refl) as (I' & Er' & Sh). apply (sim_shift h r x t i e j x' R); auto.
    - pose proof (sim_root (h, r) x e S He' Ea) as Erx.
      assert (Hne : e <> t).
      { apply (root_ne (hp x) R A e j t i); auto; [congruence|]. pose proof N as (Dx & Sx & _). apply (points_get K (hp x) _ _ _ _ Dx).
        apply Sx. apply (points_get K (hp x) _ _ _ _ Dx). auto. }
      assert (Z : good l /\ forall x', q = Ok x' -> Inv x' /\ rt x' = e /\ shifted K (hp x) R t i e (hp x')).
      { rewrite Erx. apply (H_unite x R A t i j op l q); auto; rewrite <- ?Erx; auto. congruence. }
      destruct Z as (G & H). split; auto. destruct q as [x'|]; auto.
      destruct (H x' eq_refl) as (I' & Er' & Sh). apply (sim_shift h r x t i e j x' R); auto. }
  destruct (oaxis (hget h t)) eqn:Ea, (oaxis (hget h e)) eqn:Eb; cbn [is_none negb andb]; [exact Logic.I|..];
    (destruct Z as (Z1 & Z2); [auto|]); cbn [Rel]; (destruct q as [x'|y]; split; auto); try (destruct op; auto; fail); eexists _, []; reflexivity.
Qed.
Notation crun := (crun T X L).
Definition Rel2 (f : run2 K T) (g : crun) : Prop :=
  match f with
  | (l, Ok (c, s)) => let '(ev, (log, r)) := g in good log /\
      match r with
      | Ok (c', x) => ev = l /\ c' = c /\ sim s x
      | Raise _ => exists e rest, l = ev ++ e :: rest
      end
  | (_, Raise _) => True
  end.
Lemma rel2_lift c f g : Rel f g -> Rel2 (lift c f) (clift c g).
Proof. destruct f as (l, [s|y]); [|intros; exact I]. destruct g as (ev, (log, [x|y])); cbn; tauto. Qed.
Lemma rel2_then f g (k : counters * Sweep_Model.state K -> run2 K T) (kg : counters * X -> crun) : Rel2 f g -> (forall (c : counters) (s : Sweep_Model.state K) x, sim s x -> Rel2 (k (c, s)) (kg (c, x))) -> Rel2 (andthen2 f k) (cthen g kg).
Proof.
  intros H Hk. destruct f as (l, [(c, s)|y]); [|exact I]. destruct g as (ev, (log, r)). destruct H as (G & H). unfold andthen2, cthen.
  destruct (k (c, s)) as (l', r') eqn:Ek. destruct r' as [(c', s')|y']; [|exact I]. destruct r as [(c1, x)|y].
  - destruct H as (-> & -> & H). specialize (Hk c s x H). rewrite Ek in Hk. destruct (kg (c, x)) as (ev', (log', r')). cbn [Rel2] in Hk. destruct Hk as (G' & Hk). split; auto.
    destruct r' as [(c2, x')|y]; [destruct Hk as (-> & Hk); auto|]. destruct Hk as (e & rest & ->). exists e, rest. rewrite app_assoc. auto.
  - destruct H as (e & rest & ->). split; auto. exists e, (rest ++ l'). rewrite <- app_assoc. auto.
Qed.
Lemma rel2_foreach {B} (f : B -> counters * Sweep_Model.state K -> run2 K T) (g : B -> counters * X -> crun) l :
  (forall b c (s : Sweep_Model.state K) x, In b l -> sim s x -> Rel2 (f b (c, s)) (g b (c, x))) ->
  forall c (s : Sweep_Model.state K) x, sim s x -> Rel2 (foreach2 f l (c, s)) (cforeach g l (c, x)).
Proof.
  induction l as [|b l IH]; intros H c s x Hs; [cbn; auto|]. cbn [foreach2 cforeach]. apply rel2_then; [apply H; auto; left; auto|].
  intros c' s' x' Hs'. apply IH; auto. intros; apply H; auto; right; auto.
Qed.
Lemma two_sim x x1 tau : form x = Ok x1 -> Inv x1 -> hp x1 = h0 -> top R0 = rt x1 -> height R0 <= fuel ->
  Rel (unite_step opp fuel tau false (h0, rt x1)) (two_site opp fuel hp rt form prop mv tau false x).
Proof.
  intros Ef I Eh Et Hf. unfold unite_step, two_site. rewrite Ef, Eh. pose proof N0 as (_ & _ & _ & H & _).
  destruct (root_ids K h0 R0 A0 N0) as (T1 & T2 & T3). rewrite Et in T1, T2, T3. rewrite T3.
  pose proof (decorated_hangs K h0 R0 None fuel false H Hf) as Ed. pose proof (visitor_hangs K h0 R0 None fuel false H Hf) as Ev.
  cbn [option_map] in Ed, Ev. rewrite Et in Ed, Ev. rewrite Ed, Ev.
  pose proof (tour_ok R0 None H ltac:(auto)) as Tk. pose proof (sim_start x1 I Eh Et) as S0. set (cnt := count_children h0 _).
  assert (Z : Rel2 (foreach2 (unite_forward opp tau (rt x1)) (tour false R0) (cnt, (h0, rt x1))) (cforeach (two_forward opp hp prop mv tau (rt x1)) (tour false R0) (cnt, x1))).
  { apply rel2_foreach; auto. intros (b, (((t1, i), t2), j)) c s y Hin Hs. apply Tk in Hin. unfold unite_forward, two_forward. destruct b.
    - apply rel2_then; [apply rel2_lift; eapply sim_unite; eauto|]. intros c' s' y' Hs'. destruct (negb _ || _); apply rel2_lift.
      + apply sim_prop; auto. apply Hin.
      + apply sim_ret. auto.
    - destruct (0 <? c t2)%Z; apply rel2_lift; [eapply sim_move; eauto|apply sim_ret; auto]. }
  destruct (foreach2 _ _ _) as (l, [(c, s)|y]); [|exact Logic.I]. destruct (cforeach _ _ _) as (ev, (log, r)). destruct Z as (G & Z).
  cbn [Rel]. destruct (forallb _ _) eqn:Ef2; [|exact Logic.I]. split; auto. destruct r as [(c', x')|y]; auto. destruct Z as (-> & -> & Z). rewrite Ef2. auto.
Qed.

(** A state related to the start has the tree of the start. *)
Lemma sim_back x : sim (h0, top R0) x -> Inv x /\ rt x = top R0 /\ exists A, network (hp x) R0 A.
Proof.
  intros (I & Er & Lk & _ & Q & R & A & N & Et & Pm). split; auto. split; auto. exists A.
  assert (R = R0) as ->; auto. pose proof N as (_ & _ & _ & Hg & _). pose proof N0 as (_ & _ & _ & H0 & _).
  apply (hangs_det K (hp x) R None R0); auto. apply (hangs_on K h0); auto. intros n Hn. apply (Q n Hn).
Qed.
End Sim.
