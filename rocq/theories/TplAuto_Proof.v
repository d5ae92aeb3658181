(** [autocomplete] on one tensor and on a list of tensors; names of Huffman trees. *)
From Coq Require Import String List Arith Bool Lia Ring Permutation.
From Verif Require Import Py Alg ListX NdArray_Model NdArray_Proof Contract_Model Contract_Spec Contract_Proof Net_Model Net_Spec Link_Proof Trav_Proof
  Tools_Model Tri_Model Tri_Spec Tri_Proof Heom_Model Normalize_Model Normalize_Spec Normalize_Proof Template_Model.
Import ListNotations.
Local Open Scope nat_scope.
Local Open Scope list_scope.

Section A.
Variable K : StarRing.
Add Ring Kr : (r_theory K).
Notation arr := (arr K).
Notation heap := (heap K).
Variables (nrm : list K -> K) (sqrtf inv : K -> K) (rank_of : arr -> nat).
Hypothesis unit_norm : forall v, cdot v v = r1 -> inv (nrm v) = r1.
Hypothesis sqrt0 : sqrtf r0 = r0.
Hypothesis sqrt1 : sqrtf r1 = r1.
Hypothesis rank_eye : forall d, rank_of (eye d d) = d.

Lemma auto_step_ok bonds (h : heap) n ax ns np p : n < length h -> oarr (hget h n) = None -> oaxis (hget h n) = Some ax ->
  mapM (fun x => bget bonds (n, fst (fst x), snd (fst x), snd x)) (children h n (Some ax) true) = Ok ns ->
  dindex (oacc (hget h n)) ax = Ok p -> bget bonds (fst p, snd p, n, ax) = Ok np ->
  ax <= length ns -> 0 < np -> np <= prod ns -> Forall (fun m => 0 < m) ns ->
  exists a, auto_array (Some ax) np ns = Ok a /\ exists h', auto_step nrm sqrtf inv rank_of bonds h n = Ok h' /\ length h' = length h /\
    (forall m, m <> n -> hget h' m = hget h m) /\ hget h' n = put_aux (Some (arr_conj a)) (put_arr (Some a) (hget h n)).
Proof.
  intros Hn Ea Ex Ec Ed Eb Hax Hnp Hle Hpos. destruct (auto_array_some K np ns ax Hax Hle) as (a & Eaa & Wa & Sa & Ga).
  exists a. split; auto. unfold auto_step. rewrite Ea, Ex, Ec. cbn [bind]. rewrite Ed. cbn [bind]. rewrite Eb. cbn [bind]. rewrite Eaa. cbn [bind].
  set (h1 := modify h n (put_arr (Some a))). assert (L1 : length h1 = length h) by apply length_modify.
  assert (H1 : hget h1 n = put_arr (Some a) (hget h n)) by (apply hget_modify_eq; auto).
  assert (Nd : ndim a = S (length ns)). { unfold ndim. rewrite Sa, length_ins by auto. reflexivity. }
  assert (Na : nth ax (shape a) 0 = np) by (rewrite Sa; apply nth_ins_eq; auto).
  assert (Da : del ax (shape a) = ns) by (rewrite Sa; apply del_ins; auto).
  assert (Pa : Forall (fun m => 0 < m) (shape a)).
  { rewrite Sa. unfold ins. pose proof Hpos as Hp. rewrite <- (firstn_skipn ax ns) in Hp. apply Forall_app in Hp. destruct Hp as (Hp1 & Hp2). apply Forall_app. split; auto. }
  destruct (along_same K nrm inv a ax Wa ltac:(lia) Pa) as (norms & Es).
  { intros v _ U. apply unit_norm. exact U. }
  { rewrite Na, Da. intros i i' Hi Hi'. unfold inner_prod, along. exact (auto_isometric K np ns ax a Hax Hle Eaa i i' Hi Hi'). }
  unfold normalize. rewrite H1. cbn [oarr put_arr onorm oaxis]. rewrite Ex, andb_false_r, Es. cbn [bind fst snd].
  set (h2 := modify h1 n (put_arr (Some a))). assert (L2 : length h2 = length h) by (unfold h2; rewrite length_modify; auto).
  assert (H2 : hget h2 n = put_arr (Some a) (hget h n)) by (unfold h2; rewrite hget_modify_eq, H1 by lia; reflexivity).
  rewrite H2. cbn [oarr put_arr].
  destruct (partial_trace_ok K a ax (arr_conj a) ax) as (g & Eg & Wg & Sg & Gg); auto; try lia; [apply wf_conj; auto|unfold ndim; cbn [arr_conj shape]; unfold ndim in Nd; lia|cbn [arr_conj shape]; lia|].
  rewrite Eg. cbn [bind]. cbn [arr_conj shape] in Sg, Gg. rewrite Na in Sg, Gg.
  assert (Ge : g = eye np np).
  { apply arr_ext; auto; [apply wf_build|]. intros idx Hi. rewrite Sg in Hi. rewrite Da in Gg. clear Da Na.
    inversion Hi as [|i ? x' ? Hi1 Hx']; subst. inversion Hx' as [|j ? x'' ? Hj1 Hx'']; subst. inversion Hx''; subst.
    rewrite Gg, get_eye by auto. transitivity (@delta K j i); [|unfold delta; rewrite Nat.eqb_sym; reflexivity].
    rewrite <- (auto_isometric K _ ns ax a Hax Hle Eaa j i Hj1 Hi1). apply sumL_ext. intros r. rewrite get_conj. ring. }
  assert (Gs : mkArr (shape g) (map sqrtf (data g)) = eye np np).
  { rewrite Ge. unfold eye, build. cbn [shape data]. f_equal. rewrite map_map. apply map_ext. intros idx. unfold delta. destruct (nth 0 idx 0 =? nth 1 idx 0); auto. }
  rewrite Gs, rank_eye, Na, Nat.eqb_refl. eexists. split; [reflexivity|]. split; [rewrite length_modify; auto|]. split.
  - intros m Hm. rewrite hget_modify_neq by auto. unfold h2. rewrite hget_modify_neq by auto. unfold h1. apply hget_modify_neq. auto.
  - rewrite hget_modify_eq by lia. rewrite H2. reflexivity.
Qed.

(** Links, axes and names are those of [h]. *)
Definition same_tree (h h' : heap) : Prop := length h' = length h /\
  forall m, oleaf (hget h' m) = oleaf (hget h m) /\ oacc (hget h' m) = oacc (hget h m) /\ oaxis (hget h' m) = oaxis (hget h m) /\ oname (hget h' m) = oname (hget h m).

Lemma children_same h h' n ax l : same_tree h h' -> children h' n ax l = children h n ax l.
Proof.
  intros (L & E). unfold children, linkages. destruct (E n) as (-> & -> & _). destruct (is_none ax && oleaf (hget h n)); auto.
  apply filter_ext. intros x. destruct (E (snd (fst x))) as (-> & _). reflexivity.
Qed.

(** What [autocomplete] needs to know about a tensor without array. *)
Definition ready (bonds : list (edge * nat)) (h : heap) (n : id) (ax : nat) (np : nat) (ns : list nat) : Prop :=
  n < length h /\ oaxis (hget h n) = Some ax /\
  mapM (fun x => bget bonds (n, fst (fst x), snd (fst x), snd x)) (children h n (Some ax) true) = Ok ns /\
  (exists p, dindex (oacc (hget h n)) ax = Ok p /\ bget bonds (fst p, snd p, n, ax) = Ok np) /\
  ax <= length ns /\ 0 < np /\ np <= prod ns /\ Forall (fun m => 0 < m) ns.

Lemma ready_same bonds h h' n ax np ns : same_tree h h' -> ready bonds h n ax np ns -> ready bonds h' n ax np ns.
Proof.
  intros S (Hn & Ex & Ec & (p & Ed & Eb) & R). destruct S as (L & E) eqn:ES. clear ES. destruct (E n) as (E1 & E2 & E3 & E4).
  split; [lia|]. split; [congruence|]. split; [rewrite (children_same h h'); auto; split; auto|]. split; [exists p; rewrite E2; auto|exact R].
Qed.

Lemma auto_loop_ok bonds (h0 : heap) : forall l h, NoDup l -> same_tree h0 h ->
  (forall n, In n l -> oarr (hget h n) = None -> exists ax np ns, ready bonds h0 n ax np ns) ->
  exists h', auto_loop nrm sqrtf inv rank_of bonds h l = Ok h' /\ same_tree h0 h' /\
    (forall n, ~ In n l \/ oarr (hget h n) <> None -> hget h' n = hget h n) /\
    (forall n ax np ns, In n l -> oarr (hget h n) = None -> ready bonds h0 n ax np ns -> exists a, auto_array (Some ax) np ns = Ok a /\ oarr (hget h' n) = Some a).
Proof.
  induction l as [|m l IH]; intros h N S Hr.
  - exists h. split; [reflexivity|]. split; auto. split; auto. intros n ax np ns [].
  - inversion N as [|? ? N1 N2]; subst. cbn [auto_loop].
    destruct (oarr (hget h m)) as [am|] eqn:Em.
    + unfold auto_step. rewrite Em. cbn [bind]. destruct (IH h N2 S) as (h' & El & S' & Eo & Ea).
      { intros n Hn. apply Hr. right; auto. }
      exists h'. split; auto. split; auto. split.
      * intros n [Hn|Hn]; apply Eo; [left; intros H; apply Hn; right; auto|right; auto].
      * intros n ax np ns [<-|Hn] En; [congruence|]. apply Ea; auto.
    + destruct (Hr m (or_introl eq_refl) Em) as (ax & np & ns & R0). pose proof (ready_same _ _ _ _ _ _ _ S R0) as (Hm & Ex & Ec & (p & Ed & Eb) & Hax & Hnp & Hle & Hpos).
      destruct (auto_step_ok bonds h m ax ns np p Hm Em Ex Ec Ed Eb Hax Hnp Hle Hpos) as (a & Eaa & h1 & E1 & L1 & O1 & H1).
      rewrite E1. cbn [bind]. assert (S1 : same_tree h0 h1).
      { destruct S as (L & E). split; [lia|]. intros x. destruct (E x) as (E1' & E2' & E3' & E4'). destruct (Nat.eq_dec x m) as [->|Nx].
        - rewrite H1. cbn [put_aux put_arr oleaf oacc oaxis oname]. auto.
        - rewrite O1 by auto. auto. }
      destruct (IH h1 N2 S1) as (h' & El & S' & Eo & Ea).
      { intros n Hn En. apply Hr; [right; auto|]. rewrite O1 in En; auto. intros ->. auto. }
      exists h'. split; auto. split; auto. split.
      * intros n [Hn|Hn].
        -- rewrite Eo by (left; intros H; apply Hn; right; auto). apply O1. intros ->. apply Hn. left; auto.
        -- assert (n <> m) by congruence. rewrite Eo; [apply O1; auto|]. right. rewrite O1; auto.
      * intros n ax' np' ns' [<-|Hn] En Rn.
        -- destruct Rn as (_ & Ex' & Ec' & (p' & Ed' & Eb') & _). destruct R0 as (_ & Ex0 & Ec0 & (p0 & Ed0 & Eb0) & _).
           assert (ax' = ax) by congruence. subst ax'. assert (ns' = ns) by congruence. subst ns'. assert (p' = p0) by congruence. subst p'. assert (np' = np) by congruence. subst np'.
           exists a. split; auto. rewrite Eo by auto. rewrite H1. reflexivity.
        -- apply Ea; auto. rewrite O1; auto. intros ->. auto.
Qed.
End A.
