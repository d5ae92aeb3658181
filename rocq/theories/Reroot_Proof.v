(** The same network with another tensor on top: trees, shapes, leaves, environments. *)
From Coq Require Import String List Arith Bool Lia Permutation Sorting.Sorted.
From Verif Require Import Py Alg ListX NdArray_Model NdArray_Proof Net_Model Net_Spec Trav_Proof Acyc_Proof Link_Spec Link_Proof Env_Spec Env_Proof TEnv_Proof EnvSem_Proof EnvThm_Proof
  Pair_Proof Move_Spec State_Spec State_Proof.
Import ListNotations.
Local Open Scope nat_scope.
Local Open Scope list_scope.

Section Reroot.
Variable K : StarRing.
Add Ring Kring_reroot : (r_theory K).
Implicit Types h : heap K.
Implicit Types A B : id -> arr K.
Local Open Scope star_scope.

Lemma zprod2_mid (f1 : list (nat -> nat -> K)) f f2 p q x y : length f1 <= length x -> length f1 <= length y ->
  zprod2 K (f1 ++ f :: f2) (ins (length f1) p x) (ins (length f1) q y) = f p q * zprod2 K (f1 ++ f2) x y.
Proof.
  revert x y; induction f1 as [|g f1 IH]; intros x y H H'.
  - reflexivity.
  - destruct x as [|v x]; [cbn in H; lia|]. destruct y as [|w y]; [cbn in H'; lia|]. cbn [length app].
    change (ins (S (length f1)) p (v :: x)) with (v :: ins (length f1) p x).
    change (ins (S (length f1)) q (w :: y)) with (w :: ins (length f1) q y).
    cbn [zprod2]. rewrite IH by (cbn in H, H'; lia). ring.
Qed.

Definition ekid A B M (k : kid) : nat -> nat -> K := erec K A B M (Some (k_j k)) (k_t k).

(** The value at a node, with one axis singled out. *)
Lemma erec_split A B M n k1 k2 k : length k1 = k_i k -> k_i k < ndim (A n) -> k_i k < ndim (B n) ->
  erec K A B M None (Nd n (k1 ++ k :: k2)) O O
  = sumn (nth (k_i k) (shape (A n)) O) (fun p => sumn (nth (k_i k) (shape (B n)) O) (fun q =>
      ekid A B M k p q *
      sumL (indices (del (k_i k) (shape (A n)))) (fun x => sumL (indices (del (k_i k) (shape (B n)))) (fun y =>
        get (A n) (ins (k_i k) p x) * get (B n) (ins (k_i k) q y) * zprod2 K (map (ekid A B M) (k1 ++ k2)) x y)))).
Proof.
  intros L Hi Hj. set (i := k_i k) in *. cbn [erec others full].
  rewrite (sum_indices_del K i) by exact Hi. apply sumn_ext. intros p Hp.
  transitivity (sumL (indices (del i (shape (A n)))) (fun x => sumn (nth i (shape (B n)) O) (fun q =>
     sumL (indices (del i (shape (B n)))) (fun y => ekid A B M k p q *
       (get (A n) (ins i p x) * get (B n) (ins i q y) * zprod2 K (map (ekid A B M) (k1 ++ k2)) x y))))).
  - apply sum_indices_ext. intros x Hx.
    assert (Lx : length x = (ndim (A n) - 1)%nat) by (rewrite (in_range_len _ _ Hx), length_del by exact Hi; reflexivity).
    rewrite (sum_indices_del K i) by exact Hj. apply sumn_ext. intros q Hq. apply sum_indices_ext. intros y Hy.
    assert (Ly : length y = (ndim (B n) - 1)%nat) by (rewrite (in_range_len _ _ Hy), length_del by exact Hj; reflexivity).
    rewrite map_app. cbn [map]. change (fun k : kid => erec K A B M (Some (k_j k)) (k_t k)) with (ekid A B M).
    rewrite <- L, <- (map_length (ekid A B M) k1). change (erec K A B M (Some (k_j k)) (k_t k)) with (ekid A B M k).
    rewrite zprod2_mid by (rewrite map_length; lia).
    rewrite <- map_app. ring.
  - unfold sumn at 1. rewrite sumL_swap. unfold sumn. apply sumL_ext. intros q. rewrite <- sumL_scal_l. apply sumL_ext. intros x.
    rewrite <- sumL_scal_l. reflexivity.
Qed.

Lemma erec_pair A B M n k1 k2 i e cks j :
  length k1 = i -> i < ndim (A n) -> i < ndim (B n) ->
  erec K A B M None (Nd n (k1 ++ (i, Nd e cks, j) :: k2)) O O
  = sumn (nth i (shape (A n)) O) (fun p => sumn (nth i (shape (B n)) O) (fun q =>
      sumL (indices (del i (shape (A n)))) (fun x => sumL (indices (del i (shape (B n)))) (fun x' =>
        sumL (indices (del j (shape (A e)))) (fun y => sumL (indices (del j (shape (B e)))) (fun y' =>
        (get (A n) (ins i p x) * get (B n) (ins i q x') * zprod2 K (map (ekid A B M) (k1 ++ k2)) x x') *
        (get (A e) (ins j p y) * get (B e) (ins j q y') * zprod2 K (map (ekid A B M) cks) y y'))))))).
Proof.
  intros L Hi Hj. rewrite (erec_split A B M n k1 k2 (i, Nd e cks, j)) by auto. change (k_i (i, Nd e cks, j)) with i.
  apply sumn_ext. intros p _. apply sumn_ext. intros q _. unfold ekid at 1. change (k_t (i, Nd e cks, j)) with (Nd e cks). change (k_j (i, Nd e cks, j)) with j.
  cbn [erec others full]. change (fun k : kid => erec K A B M (Some (k_j k)) (k_t k)) with (ekid A B M).
  rewrite <- sumL_scal_l. apply sumL_ext. intros x. rewrite <- sumL_scal_l. apply sumL_ext. intros x'.
  rewrite <- sumL_scal_r. apply sumL_ext. intros y. rewrite <- sumL_scal_r. apply sumL_ext. intros y'. ring.
Qed.

Lemma erec_reroot A B M n k1 k2 i e c1 c2 j :
  length k1 = i -> length c1 = j -> i < ndim (A n) -> i < ndim (B n) -> j < ndim (A e) -> j < ndim (B e) ->
  nth i (shape (A n)) O = nth j (shape (A e)) O -> nth i (shape (B n)) O = nth j (shape (B e)) O ->
  erec K A B M None (Nd e (c1 ++ (j, Nd n (k1 ++ k2), i) :: c2)) O O
  = erec K A B M None (Nd n (k1 ++ (i, Nd e (c1 ++ c2), j) :: k2)) O O.
Proof.
  intros L1 L2 Hi Hi' Hj Hj' Hd Hd'. rewrite !erec_pair; auto. rewrite Hd, Hd'. apply sumn_ext. intros p _. apply sumn_ext. intros q _.
  set (SA := indices (del i (shape (A n)))). set (SB := indices (del i (shape (B n)))).
  set (TA := indices (del j (shape (A e)))). set (TB := indices (del j (shape (B e)))).
  transitivity (sumL TA (fun y => sumL SA (fun x => sumL TB (fun y' => sumL SB (fun x' =>
     get (A e) (ins j p y) * get (B e) (ins j q y') * zprod2 K (map (ekid A B M) (c1 ++ c2)) y y' *
     (get (A n) (ins i p x) * get (B n) (ins i q x') * zprod2 K (map (ekid A B M) (k1 ++ k2)) x x')))))).
  { apply sumL_ext. intros y. apply sumL_swap. }
  rewrite sumL_swap. apply sumL_ext. intros x.
  transitivity (sumL TA (fun y => sumL SB (fun x' => sumL TB (fun y' =>
     get (A e) (ins j p y) * get (B e) (ins j q y') * zprod2 K (map (ekid A B M) (c1 ++ c2)) y y' *
     (get (A n) (ins i p x) * get (B n) (ins i q x') * zprod2 K (map (ekid A B M) (k1 ++ k2)) x x'))))).
  { apply sumL_ext. intros y. apply sumL_swap. }
  rewrite sumL_swap. apply sumL_ext. intros x'. apply sumL_ext. intros y. apply sumL_ext. intros y'. ring.
Qed.

Local Close Scope star_scope.

(** ** Leaves *)
Definition lpairs A ax d (t : tree) := combine (lids t) (ldims A ax d t).
Definition kpairs A (ks : list kid) (ms : list nat) := combine (kid_lids ks) (gdims K A ks ms).
Notation fitk A := (Forall2 (fun k m => fits A (Some (k_j k)) m (k_t k))).
Lemma lpairs_node A ax d n ks : lpairs A ax d (Nd n ks) = kpairs A ks (others ax (shape (A n))).
Proof. unfold lpairs, kpairs. rewrite ldims_node. reflexivity. Qed.
Lemma kpairs_cons A k ks m ms : fits A (Some (k_j k)) m (k_t k) -> kpairs A (k :: ks) (m :: ms) = lpairs A (Some (k_j k)) m (k_t k) ++ kpairs A ks ms.
Proof. intros F. unfold kpairs, lpairs, kid_lids. cbn [flat_map gdims]. apply combine_app'. symmetry. apply ldims_length; auto. Qed.
Lemma kpairs_app A k1 k2 m1 m2 : fitk A k1 m1 -> kpairs A (k1 ++ k2) (m1 ++ m2) = kpairs A k1 m1 ++ kpairs A k2 m2.
Proof. induction 1 as [|k m k1 m1 Hk F IH]; [reflexivity|]. cbn [app]. rewrite !kpairs_cons, IH by auto. now rewrite app_assoc. Qed.

Lemma fitk_split A k1 k2 ms : fitk A (k1 ++ k2) ms -> exists m1 m2, ms = m1 ++ m2 /\ fitk A k1 m1 /\ fitk A k2 m2.
Proof. intros F. apply Forall2_app_inv_l in F. destruct F as (m1 & m2 & F1 & F2 & ->). eauto. Qed.
Lemma fitk_len A ks ms : fitk A ks ms -> length ks = length ms. Proof. induction 1; cbn; congruence. Qed.

Lemma ins_app {X} (m1 m2 : list X) d : ins (length m1) d (m1 ++ m2) = m1 ++ d :: m2.
Proof. induction m1 as [|x m1 IH]; [reflexivity|]. cbn [length app]. rewrite ins_S, IH. reflexivity. Qed.

(** ** One step *)
Lemma reroot_step h n k1 k2 i e cks j : dicts_ok h -> hangs h None (Nd n (k1 ++ (i, Nd e cks, j) :: k2)) ->
  exists c1 c2, cks = c1 ++ c2 /\ hangs h None (Nd e (c1 ++ (j, Nd n (k1 ++ k2), i) :: c2)) /\
  forall A, fits A None 0 (Nd n (k1 ++ (i, Nd e cks, j) :: k2)) ->
    length k1 = i /\ length c1 = j /\ i < ndim (A n) /\ j < ndim (A e) /\ nth i (shape (A n)) 0 = nth j (shape (A e)) 0 /\
    fits A None 0 (Nd e (c1 ++ (j, Nd n (k1 ++ k2), i) :: c2)) /\
    Permutation (lpairs A None 0 (Nd n (k1 ++ (i, Nd e cks, j) :: k2))) (lpairs A None 0 (Nd e (c1 ++ (j, Nd n (k1 ++ k2), i) :: c2))).
Proof.
  intros D H. destruct (hangs_reroot1 K h n k1 k2 i j e cks H) as (c1 & c2 & -> & H'). exists c1, c2. split; auto. split; auto.
  intros A F. inversion F as [|? ? ? ? Wn Pn _ In' Fn]; subst. cbn [others] in In', Fn.
  destruct (Forall2_mid _ _ _ _ _ Fn) as (m1 & d & m2 & Em & Lm & Fe & Fn').
  rewrite map_app in In'. cbn [map] in In'. change (k_i (i, Nd e (c1 ++ c2), j)) with i in In'.
  assert (Li : length k1 = i) by (apply seq_mid in In'; rewrite map_length in In'; auto).
  assert (Hi : i < ndim (A n)).
  { rewrite <- (seq_length (ndim (A n)) 0), <- In', app_length, map_length. cbn. lia. }
  assert (Ei : nth i (shape (A n)) 0 = d).
  { rewrite Em. rewrite app_nth2 by lia. rewrite Lm, Li, Nat.sub_diag. reflexivity. }
  assert (Edel : del i (shape (A n)) = m1 ++ m2) by (rewrite Em; rewrite <- Li, <- Lm; apply del_at).
  change (k_t (i, Nd e (c1 ++ c2), j)) with (Nd e (c1 ++ c2)) in Fe. change (k_j (i, Nd e (c1 ++ c2), j)) with j in Fe.
  pose proof Fe as Fe0. inversion Fe as [|? ? ? ? We Pe Xe Ie Fe']; subst. destruct Xe as (Hj & Ej). cbn [others] in Ie, Fe'.
  pose proof H' as H0'. inversion H0' as [|? ? L' AA' De Fk'|]; subst.
  assert (Se : Sorted lt (map k_i c1 ++ j :: map k_i c2)).
  { pose proof (D e) as X. rewrite AA', map_map in X. cbn [fst] in X. rewrite map_app in X. exact X. }
  rewrite map_app in Ie. destruct (kids_pos _ _ _ _ Se Ie Hj) as (Ke & Lj). rewrite map_length in Lj.
  destruct (fitk_split A c1 c2 _ Fe') as (q1 & q2 & Eq & G1 & G2). destruct (fitk_split A k1 k2 _ Fn') as (o1 & o2 & Eo & G3 & G4).
  assert (o1 = m1 /\ o2 = m2) as (-> & ->).
  { pose proof (fitk_len _ _ _ G3). assert (L0 : length o1 = length m1) by congruence. clear -Eo L0. revert o1 L0 Eo. induction m1 as [|x m1 IH]; intros [|y o1] L0 Eo; cbn in *; try lia; auto.
    injection Eo as <- Eo. destruct (IH o1 ltac:(lia) Eo) as (-> & ->). auto. }
  assert (Lq : length q1 = j) by (rewrite <- (fitk_len _ _ _ G1); auto).
  assert (Ee : shape (A e) = q1 ++ nth j (shape (A e)) 0 :: q2).
  { rewrite <- (ins_del j 0 (shape (A e))) at 1 by exact Hj. rewrite Eq. rewrite <- Lq at 1. apply ins_app. }
  split; auto. split; auto. split; auto. split; auto. split; auto.
  assert (Fnn : fits A (Some (length k1)) (nth j (shape (A e)) 0) (Nd n (k1 ++ k2))).
  { apply fits_node; auto.
    - cbn [others]. rewrite map_app, <- In'. rewrite <- (map_length k_i k1). symmetry. apply del_at.
    - cbn [others]. rewrite Edel. auto. }
  split.
  - apply fits_node; auto.
    + cbn [others]. rewrite map_app. exact Ke.
    + cbn [others]. rewrite <- (ins_del j 0 (shape (A e))) by exact Hj. rewrite <- Lj. apply Forall2_ins_mid; [rewrite Lj; auto|].
      change (fits A (Some (length k1)) (nth (length c1) (shape (A e)) 0) (Nd n (k1 ++ k2))). rewrite Lj. exact Fnn.
  - rewrite !lpairs_node. cbn [others]. rewrite Em, Ee. rewrite !kpairs_app by auto. rewrite !kpairs_cons by auto.
    change (k_t (length k1, Nd e (c1 ++ c2), j)) with (Nd e (c1 ++ c2)). change (k_t (j, Nd n (k1 ++ k2), length k1)) with (Nd n (k1 ++ k2)).
    rewrite !lpairs_node. cbn [others]. 
    change (k_j (length k1, Nd e (c1 ++ c2), j)) with j. change (k_j (j, Nd n (k1 ++ k2), length k1)) with (length k1).
    rewrite Eq, Edel, !kpairs_app by auto.
    set (a := kpairs A k1 m1). set (b := kpairs A k2 m2). set (x := kpairs A c1 q1). set (y := kpairs A c2 q2).
    transitivity ((x ++ y) ++ a ++ b).
    + rewrite (app_assoc a (x ++ y) b), (Permutation_app_comm a (x ++ y)), <- (app_assoc (x ++ y) a b). reflexivity.
    + rewrite <- !app_assoc. apply Permutation_app_head. rewrite (Permutation_app_comm y (a ++ b)), <- app_assoc. reflexivity.
Qed.

(** ** Any tensor *)
Record same_net h (R R' : tree) : Prop := {
  sn_hangs : hangs h None R';
  sn_perm : Permutation (ids R) (ids R');
  sn_fits : forall A, fits A None 0 R -> fits A None 0 R';
  sn_leaves : forall A, fits A None 0 R -> Permutation (lpairs A None 0 R) (lpairs A None 0 R');
  sn_erec : forall A B M, fits A None 0 R -> fits B None 0 R -> erec K A B M None R' 0 0 = erec K A B M None R 0 0 }.
Lemma same_net_refl h R : hangs h None R -> same_net h R R.
Proof. intros H. constructor; auto. Qed.
Lemma same_net_trans h R1 R2 R3 : same_net h R1 R2 -> same_net h R2 R3 -> same_net h R1 R3.
Proof.
  intros [A1 A2 A3 A4 A5] [B1 B2 B3 B4 B5]. constructor; auto.
  - exact (perm_trans A2 B2).
  - intros A F. exact (perm_trans (A4 A F) (B4 A (A3 A F))).
  - intros A B M FA FB. rewrite B5 by auto. auto.
Qed.
Lemma reroot_net h m : dicts_ok h -> forall d t, at_depth m d t -> hangs h None t ->
  exists ks, same_net h t (Nd m ks).
Proof.
  intros D. induction d as [|d IH]; intros t Hd H.
  - inversion Hd; subst. exists ks. apply same_net_refl. auto.
  - inversion Hd as [|n ks [[i s] j] d' Hk Hd']; subst. unfold k_t in Hd'; cbn [fst snd] in Hd'.
    apply in_split in Hk. destruct Hk as (k1 & k2 & ->).
    destruct s as [c|c cks]; [inversion Hd'|].
    destruct (reroot_step h n k1 k2 i c cks j D H) as (c1 & c2 & -> & H' & G).
    assert (Hd2 : at_depth m d (Nd c (c1 ++ (j, Nd n (k1 ++ k2), i) :: c2))).
    { inversion Hd' as [ks E1|n' ks k d'' Hk Hd'']; subst.
      - constructor.
      - apply ad_below with k; auto. apply in_app_iff in Hk. apply in_app_iff.
        destruct Hk; [left|right; right]; auto. }
    destruct (IH _ Hd2 H') as (ks & Sn). exists ks. eapply same_net_trans; [|exact Sn]. constructor; auto.
    + apply perm_reroot.
    + intros A F. apply (G A F).
    + intros A F. apply (G A F).
    + intros A B M FA FB. destruct (G A FA) as (L1 & L2 & L3 & L4 & L5 & _). destruct (G B FB) as (_ & _ & M3 & M4 & M5 & _). apply erec_reroot; auto.
Qed.
Lemma reroot_at h R t : dicts_ok h -> hangs h None R -> In t (nids R) -> exists ks, same_net h R (Nd t ks).
Proof. intros D H Ht. destruct (in_at_depth t R Ht) as (d & Hd). eapply reroot_net; eauto. Qed.

Lemma lpairs_forall A ax d t (P : id -> nat -> Prop) : fits A ax d t ->
  Forall2 P (lids t) (ldims A ax d t) <-> Forall (fun p => P (fst p) (snd p)) (lpairs A ax d t).
Proof.
  intros F. unfold lpairs. pose proof (ldims_length K A t ax d F) as L. revert L. generalize (lids t) (ldims A ax d t). clear.
  induction l as [|x l IH]; intros [|y m] L; cbn in L; try discriminate; cbn [combine].
  - split; constructor.
  - split; intros H; inversion H; subst; constructor; cbn; auto; [apply IH|apply IH]; auto.
Qed.
Lemma same_net_leaves h R R' A (P : id -> nat -> Prop) : same_net h R R' -> fits A None 0 R ->
  Forall2 P (lids R) (ldims A None 0 R) -> Forall2 P (lids R') (ldims A None 0 R').
Proof.
  intros Sn F H. apply lpairs_forall in H; auto. apply lpairs_forall; [apply Sn; auto|].
  eapply Permutation_Forall; [apply (sn_leaves h R R' Sn A F)|exact H].
Qed.
End Reroot.
