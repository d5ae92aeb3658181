(** Proofs about networks with separate arrays. *)
From Coq Require Import List Arith Bool Lia Permutation.
From Verif Require Import Py Alg ListX NdArray_Model NdArray_Proof Net_Model Net_Spec Trav_Proof Acyc_Proof TEnv_Proof Vec_Spec Vec_Proof NetState_Model NetState_Spec.
Import ListNotations.
Local Open Scope nat_scope.
Local Open Scope list_scope.

Section State.
Variable K : StarRing.
Implicit Types (h : heap K) (N M : net K).

Lemma is_none_iff {A} (o : option A) : is_none o = true <-> o = None.
Proof. destruct o; cbn; split; congruence. Qed.
Lemma filter_perm {A} (f : A -> bool) l l' : Permutation l l' -> Permutation (filter f l) (filter f l').
Proof.
  induction 1 as [|x l l' P IH|x y l|l l' l'' P1 IH1 P2 IH2]; cbn [filter]; auto.
  - destruct (f x); auto.
  - destruct (f x), (f y); auto. apply perm_swap.
  - etransitivity; eauto.
Qed.
Lemma filter_one {A} (f : A -> bool) l r : NoDup l -> In r l -> f r = true -> (forall s, In s l -> f s = true -> s = r) -> filter f l = [r].
Proof.
  intros ND Hr Fr U. pose proof (NoDup_filter f ND) as ND'. assert (I : In r (filter f l)) by (apply filter_In; auto).
  assert (V : forall s, In s (filter f l) -> s = r) by (intros s Hs; apply filter_In in Hs as (? & ?); auto).
  destruct (filter f l) as [|a [|b l']]; [destruct I|rewrite (V a) by (left; auto); reflexivity|].
  exfalso. inversion ND' as [|x y N1 _]; subst. apply N1. left. rewrite (V a), (V b); auto; [right; left; auto|left; auto].
Qed.
Lemma network_one h t m fuel wfn r : hangs h None t -> no_self_slot h -> In m (nids t) -> length (ids t) <= fuel -> only_root h t r -> network K fuel h m wfn = Ok (mkNet r wfn).
Proof.
  intros H NS Hm Hf (Hr & Ar & U). destruct (visitor_whole K h t m fuel H Hm Hf) as (l & E & P). unfold network. rewrite E. cbn [bind].
  rewrite (filter_one _ l r); [reflexivity| | | |].
  - apply (Permutation_NoDup (Permutation_sym P)). apply (hangs_nodup K h t NS H).
  - apply (Permutation_in _ (Permutation_sym P)). exact Hr.
  - rewrite Ar. reflexivity.
  - intros s Hs As. apply is_none_iff in As. apply U; [apply (Permutation_in _ P); exact Hs|exact As].
Qed.
Lemma network_other h t m fuel wfn : hangs h None t -> In m (nids t) -> length (ids t) <= fuel -> (forall r, ~ only_root h t r) -> network K fuel h m wfn = Raise NotImplementedError.
Proof.
  intros H Hm Hf U. destruct (visitor_whole K h t m fuel H Hm Hf) as (l & E & P). unfold network. rewrite E. cbn [bind].
  destruct (filter _ l) as [|r [|s l']] eqn:F; [reflexivity| |reflexivity]. exfalso. apply (U r).
  assert (I : In r (filter (fun t => is_none (oaxis (hget h t))) l)) by (rewrite F; left; auto). apply filter_In in I as (I & A). split; [apply (Permutation_in _ P); exact I|]. split; [apply is_none_iff; exact A|].
  intros s Hs As. assert (J : In s (filter (fun t => is_none (oaxis (hget h t))) l)) by (apply filter_In; split; [apply (Permutation_in _ (Permutation_sym P)); exact Hs|rewrite As; reflexivity]). rewrite F in J. destruct J as [<-|[]]. reflexivity.
Qed.

(** ** Items of a network over a tree *)
Section Over.
Variables (h : heap K) (t : tree) (fuel : nat).
Hypotheses (H : hangs h None t) (NS : no_self_slot h) (RT : only_root h t (top t)) (Hf : length (ids t) <= fuel).
Notation getitem := (getitem K fuel h). Notation setitem := (setitem K fuel h).
Notation vertices := (vertices K fuel h).
Lemma vertices_ok N : n_root N = top t -> vertices N = Ok (ids t).
Proof.
  intros E. unfold NetState_Model.vertices. rewrite E. destruct RT as (_ & -> & _). apply (visitor_hangs K h t None fuel true H). pose proof (size_height t). lia.
Qed.
Lemma mem_iff k l : mem k l = true <-> In k l.
Proof. unfold mem. rewrite existsb_exists. split; [intros (x & I & E); apply Nat.eqb_eq in E; subst; auto|intros I; exists k; split; [auto|apply Nat.eqb_refl]]. Qed.
Lemma mem_no k l : ~ In k l -> mem k l = false.
Proof. intros X. destruct (mem k l) eqn:E; [apply mem_iff in E; destruct (X E)|reflexivity]. Qed.
Lemma getitem_in N k : n_root N = top t -> In k (ids t) -> getitem N k = match dget (n_wfn N) k with Some v => Ok v | None => Raise KeyError end.
Proof. intros E I. unfold NetState_Model.getitem. rewrite vertices_ok by auto. cbn [bind]. rewrite (proj2 (mem_iff k (ids t)) I). reflexivity. Qed.
Lemma setitem_in N k v : n_root N = top t -> In k (ids t) -> setitem N k v = match dget (n_wfn N) k with None | Some VNone => Ok (mkNet (top t) (dput (n_wfn N) k v)) | _ => Raise RuntimeError end.
Proof. intros E I. unfold NetState_Model.setitem. rewrite vertices_ok by auto. cbn [bind]. rewrite (proj2 (mem_iff k (ids t)) I), E. reflexivity. Qed.
Lemma items_out N k v : n_root N = top t -> ~ In k (ids t) -> getitem N k = Raise KeyError /\ setitem N k v = Raise KeyError.
Proof. intros E I. unfold NetState_Model.setitem, NetState_Model.getitem. rewrite vertices_ok by auto. cbn [bind]. rewrite mem_no by auto. auto. Qed.
Lemma top_inner : In (top t) (nids t).
Proof. destruct t as [n|n ks]; [inversion H|]. left. reflexivity. Qed.
Lemma nones l : forall (d : list (nat * value K)) k, dget (fold_left (fun d t => dput d t VNone) l d) k = if mem k l then Some VNone else dget d k.
Proof.
  induction l as [|x l IH]; intros d k; [reflexivity|]. cbn [fold_left]. rewrite IH. cbn [mem existsb]. fold (mem k l). destruct (mem k l); [now rewrite orb_true_r|]. rewrite dget_dput. destruct (k =? x); reflexivity.
Qed.
Lemma as_template_ok N : n_root N = top t -> exists M, as_template K fuel h N = Ok M /\ n_root M = top t /\ forall k, dget (n_wfn M) k = if mem k (ids t) then Some VNone else None.
Proof.
  intros E. unfold as_template. rewrite vertices_ok by auto. cbn [bind]. rewrite E, (network_one h t (top t) fuel _ (top t)); auto using top_inner. eexists. split; [reflexivity|]. split; [reflexivity|]. intros k. cbn [n_wfn]. rewrite nones. reflexivity.
Qed.
Variable A : nat -> arr K.
Hypothesis HA : forall n, In n (ids t) -> oarr (hget h n) = Some (A n) /\ shape (A n) <> [].
Lemma fill_ok v l : NoDup l -> (forall n, In n l -> In n (ids t)) -> forall M st, n_root M = top t -> (forall n, In n l -> dget (n_wfn M) n = Some VNone) -> st + total (asize A) l <= length v ->
  exists M', fill K fuel h M l v st = Ok M' /\ n_root M' = top t /\
    (forall n, In n l -> dget (n_wfn M') n = Some (VArr (mkArr (shape (A n)) (slice v (st + offset (asize A) l n) (asize A n))))) /\ (forall n, ~ In n l -> dget (n_wfn M') n = dget (n_wfn M) n).
Proof.
  induction 1 as [|x l Nx ND IH]; intros HL M st Rm Hn L.
  - exists M. cbn [fill]. split; [reflexivity|]. split; [exact Rm|]. split; [intros n []|auto].
  - cbn [total] in L. cbn [fill]. destruct (HA x ltac:(apply HL; left; auto)) as (-> & Sn). destruct (shape (A x)) as [|s0 ss] eqn:Es; [congruence|]. rewrite <- Es. clear Sn.
    replace (st + prod (shape (A x)) - st) with (asize A x) by (unfold asize; lia). fold (asize A x).
    change (firstn (asize A x) (skipn st v)) with (slice v st (asize A x)).
    unfold reshape, size. cbn [shape data]. rewrite slice_length by lia.
    replace (prod (shape (A x)) =? asize A x) with true by (symmetry; apply Nat.eqb_eq; reflexivity). cbn [bind].
    set (b := mkArr (shape (A x)) (slice v st (asize A x))). rewrite setitem_in by (auto; apply HL; left; auto). rewrite (Hn x) by (left; auto). cbn [bind].
    destruct (IH ltac:(intros n I; apply HL; right; exact I) (mkNet (top t) (dput (n_wfn M) x (VArr b))) (st + asize A x)) as (M' & E & Rm' & G & O).
    + reflexivity.
    + intros n I. cbn [n_wfn]. rewrite dget_dput. destruct (Nat.eqb_spec n x) as [->|]; [destruct (Nx I)|apply Hn; right; exact I].
    + lia.
    + exists M'. split; [exact E|]. split; [exact Rm'|]. split.
      * intros n I. cbn [offset]. destruct (Nat.eqb_spec n x) as [->|Nn].
        -- rewrite O by auto. cbn [n_wfn]. rewrite dget_dput, Nat.eqb_refl, Nat.add_0_r. reflexivity.
        -- destruct I; [congruence|]. rewrite G by auto. now rewrite Nat.add_assoc.
      * intros n I. rewrite O by (intros J; apply I; right; exact J). cbn [n_wfn]. rewrite dget_dput. destruct (Nat.eqb_spec n x) as [->|]; [destruct I; left; auto|reflexivity].
Qed.
Lemma fill_short v l : NoDup l -> (forall n, In n l -> In n (ids t)) -> forall M st, n_root M = top t -> (forall n, In n l -> dget (n_wfn M) n = Some VNone) -> st <= length v -> length v < st + total (asize A) l ->
  fill K fuel h M l v st = Raise ValueError.
Proof.
  induction 1 as [|x l Nx ND IH]; intros HL M st Rm Hn Ls L; [cbn in L; lia|]. cbn [total] in L. cbn [fill]. destruct (HA x ltac:(apply HL; left; auto)) as (-> & Sn). destruct (shape (A x)) as [|s0 ss] eqn:Es; [congruence|]. rewrite <- Es. clear Sn.
  replace (st + prod (shape (A x)) - st) with (asize A x) by (unfold asize; lia). fold (asize A x).
  change (firstn (asize A x) (skipn st v)) with (slice v st (asize A x)). unfold reshape, size. cbn [shape data].
  destruct (Nat.le_gt_cases (st + asize A x) (length v)) as [C|C].
  - rewrite slice_length by lia. replace (prod (shape (A x)) =? asize A x) with true by (symmetry; apply Nat.eqb_eq; reflexivity). cbn [bind].
    rewrite setitem_in by (auto; apply HL; left; auto). rewrite (Hn x) by (left; auto). cbn [bind]. apply IH; try lia; [intros n I; apply HL; right; exact I|reflexivity|].
    intros n I. cbn [n_wfn]. rewrite dget_dput. destruct (Nat.eqb_spec n x) as [->|]; [destruct (Nx I)|apply Hn; right; exact I].
  - pose proof (slice_short v st (asize A x) Ls C) as Q. replace (prod (shape (A x)) =? length (slice v st (asize A x))) with false; [reflexivity|]. symmetry. apply Nat.eqb_neq. unfold asize in *. lia.
Qed.
Lemma tensorize_net_ok N v : n_root N = top t ->
  if total (asize A) (ids t) <=? length v
  then exists M, tensorize_net K fuel h N v = Ok M /\ n_root M = top t /\ forall n, In n (ids t) -> dget (n_wfn M) n = Some (VArr (mkArr (shape (A n)) (slice v (offset (asize A) (ids t) n) (asize A n))))
  else tensorize_net K fuel h N v = Raise ValueError.
Proof.
  intros E. unfold tensorize_net. destruct (as_template_ok N E) as (M & EM & RM & G). rewrite EM. cbn [bind]. rewrite vertices_ok by auto. cbn [bind].
  pose proof (hangs_nodup K h t NS H) as ND. assert (GN : forall n, In n (ids t) -> dget (n_wfn M) n = Some VNone) by (intros n I; rewrite G, (proj2 (mem_iff n (ids t)) I); reflexivity).
  destruct (Nat.leb_spec (total (asize A) (ids t)) (length v)) as [L|L].
  - destruct (fill_ok v (ids t) ND (fun n I => I) M 0 RM GN L) as (M' & E' & R' & G' & _). exists M'. auto.
  - apply (fill_short v (ids t) ND (fun n I => I) M 0 RM GN); lia.
Qed.
Lemma flat_ok N B l : (forall n, In n l -> dget (n_wfn N) n = Some (VArr (B n))) -> flat K N l = Ok (map (fun n => data (B n)) l).
Proof. induction l as [|x l IH]; intros X; [reflexivity|]. cbn [flat map]. rewrite X by (left; auto). rewrite IH by (intros; apply X; right; auto). reflexivity. Qed.
Lemma vectorize_net_ok N B : n_root N = top t -> (forall n, In n (ids t) -> dget (n_wfn N) n = Some (VArr (B n))) -> vectorize_net K fuel h N = Ok (concat (map (fun n => data (B n)) (ids t))).
Proof.
  intros E G. unfold vectorize_net. rewrite vertices_ok by auto. cbn [bind]. rewrite (flat_ok N B) by auto. cbn [bind]. destruct t as [n|n ks]; [inversion H|]. reflexivity.
Qed.
End Over.
End State.
