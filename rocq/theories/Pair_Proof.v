(** The state is unchanged when two neighbours are replaced by a pair with the same
    contraction, and does not depend on the choice of the root. *)
From Coq Require Import List Arith Bool Lia Permutation.
From Verif Require Import Py Alg ListX NdArray_Model NdArray_Proof Contract_Model Contract_Spec Contract_Proof
  Net_Model Net_Spec Trav_Proof Env_Proof Move_Spec Split_Proof Relink_Proof Move_Proof MoveRoot_Proof.
Import ListNotations.
Local Open Scope nat_scope.
Local Open Scope list_scope.

Section Pair.
Variable K : StarRing.
Add Ring Kr : (r_theory K).
Implicit Types A : id -> arr K.
Implicit Type a : arr K.

Lemma in_range_split x1 x2 sx sy : in_range (x1 ++ x2) (sx ++ sy) -> length x1 = length sx -> in_range x1 sx /\ in_range x2 sy.
Proof.
  intros H L. apply in_range_app_inv in H. destruct H as (a & b & E & H1 & H2).
  assert (La : length a = length x1) by (rewrite (in_range_len _ _ H1); auto).
  assert (X : x1 = a /\ x2 = b).
  { clear - E La. revert a La E. induction x1 as [|v x1 IH]; intros [|w a] La E; cbn in *; try lia; auto.
    injection E as -> E. apply IH in E; [|lia]. destruct E as (-> & ->). auto. }
  destruct X as (-> & ->). auto.
Qed.

(** The two arrays contracted over the bond. *)
Definition pair_val (a : arr K) (i : nat) (b : arr K) (j : nat) (x y : list nat) : K :=
  sumn (nth i (shape a) 0) (fun d => rmul (get a (ins i d x)) (get b (ins j d y))).

Lemma zprod_mid (f1 : list (nat -> K)) f f2 d x : length f1 <= length x ->
  zprod (f1 ++ f :: f2) (ins (length f1) d x) = rmul (f d) (zprod (f1 ++ f2) x).
Proof.
  revert x; induction f1 as [|g f1 IH]; intros x H.
  - reflexivity.
  - destruct x as [|v x]; [cbn in H; lia|]. cbn [length app]. change (ins (S (length f1)) d (v :: x)) with (v :: ins (length f1) d x).
    cbn [zprod]. rewrite IH by (cbn in H; lia). ring.
Qed.

Definition kidf A s (k : kid) : nat -> K := amp A s (Some (k_j k)) (k_t k).

Lemma amp_pair A s n k1 k2 i e c1 c2 j :
  length k1 = i -> i < ndim (A n) -> j < ndim (A e) ->
  nth i (shape (A n)) 0 = nth j (shape (A e)) 0 ->
  amp A s None (Nd n (k1 ++ (i, Nd e (c1 ++ c2), j) :: k2)) 0
  = sumL (indices (del i (shape (A n)))) (fun x => sumL (indices (del j (shape (A e)))) (fun y =>
      rmul (rmul (zprod (map (kidf A s) (k1 ++ k2)) x) (zprod (map (kidf A s) (c1 ++ c2)) y))
           (pair_val (A n) i (A e) j x y))).
Proof.
  intros L Hi Hj Hd. cbn [amp]. cbn [others full]. rewrite (sum_indices_del K i) by exact Hi.
  unfold sumn at 1. rewrite sumL_swap. apply sumL_ext_in. intros x Hx. apply in_indices in Hx.
  assert (Lx : length x = ndim (A n) - 1).
  { rewrite (in_range_len _ _ Hx), length_del by exact Hi. reflexivity. }
  transitivity (sumn (nth i (shape (A n)) 0) (fun d => sumL (indices (del j (shape (A e)))) (fun y =>
      rmul (rmul (zprod (map (kidf A s) (k1 ++ k2)) x) (zprod (map (kidf A s) (c1 ++ c2)) y))
           (rmul (get (A n) (ins i d x)) (get (A e) (ins j d y)))))).
  - apply sumL_ext. intros d. rewrite map_app. cbn [map].
    change (fun k : kid => amp A s (Some (k_j k)) (k_t k)) with (kidf A s).
    assert (Z : forall f f2, zprod (map (kidf A s) k1 ++ f :: f2) (ins i d x) = rmul (f d) (zprod (map (kidf A s) k1 ++ f2) x)).
    { intros f f2. rewrite <- (map_length (kidf A s) k1) in L. rewrite <- L. apply zprod_mid. lia. }
    rewrite Z. unfold kidf at 1.
    change (k_t (i, Nd e (c1 ++ c2), j)) with (Nd e (c1 ++ c2)). change (k_j (i, Nd e (c1 ++ c2), j)) with j.
    cbn [amp others full]. rewrite <- map_app.
    change (fun k : kid => amp A s (Some (k_j k)) (k_t k)) with (kidf A s).
    set (P := zprod (map (kidf A s) (k1 ++ k2)) x).
    match goal with |- rmul ?u (rmul (sumL ?l ?f) P) = _ => replace (rmul u (rmul (sumL l f) P)) with (rmul (rmul u P) (sumL l f)) by ring end.
    rewrite <- sumL_scal_l. apply sumL_ext. intros y. ring.
  - unfold sumn at 1. rewrite sumL_swap. apply sumL_ext. intros y. unfold pair_val. rewrite <- sumn_scal_l. reflexivity.
Qed.

Lemma pair_val_sym a i b j x y : nth i (shape a) 0 = nth j (shape b) 0 -> pair_val a i b j x y = pair_val b j a i y x.
Proof. intros E. unfold pair_val. rewrite E. apply sumn_ext. intros d _. ring. Qed.

Lemma amp_reroot A s n k1 k2 i e c1 c2 j :
  length k1 = i -> length c1 = j -> i < ndim (A n) -> j < ndim (A e) ->
  nth i (shape (A n)) 0 = nth j (shape (A e)) 0 ->
  amp A s None (Nd e (c1 ++ (j, Nd n (k1 ++ k2), i) :: c2)) 0
  = amp A s None (Nd n (k1 ++ (i, Nd e (c1 ++ c2), j) :: k2)) 0.
Proof.
  intros L1 L2 Hi Hj Hd. rewrite !amp_pair; auto. rewrite sumL_swap. apply sumL_ext. intros x. apply sumL_ext. intros y.
  rewrite (pair_val_sym (A e)) by auto. ring.
Qed.

Lemma amp_agree A A' s : forall t ax p, (forall n, In n (nids t) -> A' n = A n) -> amp A' s ax t p = amp A s ax t p.
Proof.
  induction t as [n|n ks IH] using tree_ind'; intros ax p H; auto.
  cbn [amp]. rewrite (H n) by (left; auto). apply sumL_ext. intros x. f_equal. apply zprod_ext.
  cbn [nids] in H. assert (H' : forall n0, In n0 (flat_map (fun k => nids (k_t k)) ks) -> A' n0 = A n0) by (intros; apply H; right; auto).
  clear H. induction IH as [|k ks Hk _ IHk]; constructor.
  - intros v. apply Hk. intros; apply H'. cbn [flat_map]. apply in_app_iff; auto.
  - apply IHk. intros; apply H'. cbn [flat_map]. apply in_app_iff; auto.
Qed.

Lemma amp_replace A A' s n k1 k2 i e c1 c2 j r :
  length k1 = i -> i < ndim (A n) -> j < ndim (A e) -> nth i (shape (A n)) 0 = nth j (shape (A e)) 0 ->
  (forall m, In m (flat_map (fun k => nids (k_t k)) (k1 ++ k2 ++ c1 ++ c2)) -> A' m = A m) ->
  same_pair (A n) i (A e) j (A' n) (A' e) r ->
  amp A' s None (Nd n (k1 ++ (i, Nd e (c1 ++ c2), j) :: k2)) 0
  = amp A s None (Nd n (k1 ++ (i, Nd e (c1 ++ c2), j) :: k2)) 0.
Proof.
  intros L Hi Hj Hd Ag (W1 & S1 & W2 & S2 & _ & Sp).
  assert (Li : i <= length (del i (shape (A n)))) by (rewrite length_del by exact Hi; unfold ndim in Hi; lia).
  assert (Lj : j <= length (del j (shape (A e)))) by (rewrite length_del by exact Hj; unfold ndim in Hj; lia).
  assert (N1 : i < ndim (A' n)) by (unfold ndim; rewrite S1, length_ins; lia).
  assert (N2 : j < ndim (A' e)) by (unfold ndim; rewrite S2, length_ins; lia).
  assert (R1 : nth i (shape (A' n)) 0 = r) by (rewrite S1; apply nth_ins_eq; auto).
  assert (R2 : nth j (shape (A' e)) 0 = r) by (rewrite S2; apply nth_ins_eq; auto).
  rewrite !amp_pair; auto; [|congruence].
  rewrite S1, S2, !del_ins by auto.
  apply sum_indices_ext. intros x Hx. apply sum_indices_ext. intros y Hy.
  assert (Ek : forall ks, (forall k m, In k ks -> In m (nids (k_t k)) -> A' m = A m) -> forall x, zprod (map (kidf A' s) ks) x = zprod (map (kidf A s) ks) x).
  { intros ks Hks z. apply zprod_ext. induction ks as [|k ks IH]; constructor.
    - intros v. apply amp_agree. intros m Hm. apply (Hks k m); [left; auto|auto].
    - apply IH. intros k' m Hk Hm. apply (Hks k' m); [right; auto|auto]. }
  assert (Ak : forall k m, In k (k1 ++ k2 ++ c1 ++ c2) -> In m (nids (k_t k)) -> A' m = A m).
  { intros k m Hk Hm. apply Ag. apply in_flat_map. eauto. }
  rewrite (Ek (k1 ++ k2)), (Ek (c1 ++ c2)).
  - f_equal. unfold pair_val. rewrite R1. apply Sp; auto.
  - intros k m Hk. apply Ak. rewrite !in_app_iff in *. tauto.
  - intros k m Hk. apply Ak. rewrite !in_app_iff in *. tauto.
Qed.

(** ** The arrays after a move *)
Lemma su_pair (an : arr K) i ae j m u s v r x y z :
  wf an -> Forall (fun d => 0 < d) (shape an) -> i < ndim an -> j < ndim ae -> nth i (shape an) 0 = nth j (shape ae) 0 -> 0 < r ->
  matricized an [i] m -> triple m u s v r -> exact m u s v r ->
  left_part an [i] 0 r u s x -> right_part an [i] i r v y -> contracts ae j x 1 z ->
  same_pair an i ae j y z r.
Proof.
  intros Wn Pn Hi Hj Hd Hr Mm Tr Ex Lp Rp (Wz & Sz & Gz).
  assert (Fl : Forall (fun k => k < ndim an) [i]) by (constructor; auto).
  destruct (parts_ok K an [i] 0 i r u s v m x y Fl Mm Tr Ex Lp Rp) as (Wx & Sx & Wy & Sy & G).
  rewrite rest_single in Sy, G by auto.
  assert (Gd : forall l : list nat, length l = ndim an -> gather l (del i (seq 0 (ndim an))) = del i l).
  { intros l El. unfold gather. rewrite <- El. apply map_nth_del. }
  rewrite Gd in Sy by reflexivity.
  change (gather (shape an) [i]) with [nth i (shape an) 0] in Sx. change (ins 0 r [nth i (shape an) 0]) with [r; nth i (shape an) 0] in Sx.
  assert (Ez : shape z = ins j r (del j (shape ae))).
  { rewrite Sz, Sx. change (del 1 [r; nth i (shape an) 0]) with [r]. unfold ins, del. cbn [app].
    rewrite firstn_app, firstn_firstn, Nat.min_id, skipn_app, firstn_length.
    unfold ndim in Hj. rewrite Nat.min_l by lia. rewrite Nat.sub_diag. cbn [firstn skipn]. rewrite app_nil_r.
    f_equal. f_equal. rewrite (skipn_all2 (n := j)) by (rewrite firstn_length; lia). reflexivity. }
  split; auto. split; auto. split; auto. split; auto. split; auto.
  intros xs ys Hx Hy.
  assert (Ly : length ys = ndim ae - 1) by (rewrite (in_range_len _ _ Hy), length_del by auto; reflexivity).
  assert (Zv : forall b, b < r -> get z (ins j b ys) = sumn (nth j (shape ae) 0) (fun d => rmul (get ae (ins j d ys)) (get x [b; d]))).
  { intros b Hb. unfold ins. rewrite <- (firstn_skipn j ys) in Hy. unfold del in Hy.
    assert (Lf : length (firstn j ys) = length (firstn j (shape ae))) by (rewrite !firstn_length; unfold ndim in *; lia).
    apply in_range_split in Hy; [|exact Lf]. destruct Hy as (Hy1 & Hy2).
    change (firstn j ys ++ b :: skipn j ys) with (firstn j ys ++ [b] ++ skipn j ys). rewrite Gz; auto.
    rewrite Sx. change (del 1 [r; nth i (shape an) 0]) with [r]. repeat constructor. auto. }
  transitivity (sumn r (fun b => sumn (nth i (shape an) 0) (fun d => rmul (get ae (ins j d ys)) (rmul (get x [b; d]) (get y (ins i b xs)))))).
  - apply sumn_ext. intros b Hb. rewrite Zv by auto. rewrite Hd. rewrite <- sumn_scal_l. apply sumn_ext. intros d _. ring.
  - rewrite sumn_swap. apply sumn_ext. intros d Hdd. rewrite sumn_scal_l.
    assert (Hin : in_range (ins i d xs) (shape an)).
    { assert (X : in_range (ins i d xs) (ins i (nth i (shape an) 0) (del i (shape an)))).
      { apply in_range_ins; auto. }
      rewrite ins_del in X by exact Hi. exact X. }
    rewrite <- (G (ins i d xs)) by auto.
    rewrite Gd by (apply (in_range_len _ _ Hin)).
    assert (Lx : length xs = ndim an - 1) by (rewrite (in_range_len _ _ Hx), length_del by auto; reflexivity).
    rewrite del_ins by lia. change (gather (ins i d xs) [i]) with [nth i (ins i d xs) 0]. rewrite nth_ins_eq by lia.
    change (fun b => rmul (get x (ins 0 b [d])) (get y (ins i b xs))) with (fun b => rmul (get x [b; d]) (get y (ins i b xs))).
    ring.
Qed.

Lemma us_pair (an : arr K) i ae j c m u s v r x y :
  i < ndim an -> j < ndim ae -> 0 < r -> nth i (shape an) 0 = nth j (shape ae) 0 ->
  contracts an i ae j c ->
  matricized c (seq i (ndim ae - 1)) m -> triple m u s v r -> exact m u s v r ->
  left_part c (seq i (ndim ae - 1)) j r u s x -> right_part c (seq i (ndim ae - 1)) i r v y ->
  same_pair an i ae j y x r.
Proof.
  intros Hi Hj Hr Hd (Wc & Sc & Gc) Mm Tr Ex Lp Rp.
  assert (Nc : ndim c = ndim an - 1 + (ndim ae - 1)).
  { unfold ndim. rewrite Sc, !app_length, firstn_length, skipn_length, length_del by exact Hj. unfold ndim in *. lia. }
  assert (Fl : Forall (fun k => k < ndim c) (seq i (ndim ae - 1))).
  { apply Forall_forall. intros k Hk. apply in_seq in Hk. lia. }
  destruct (parts_ok K c _ j i r u s v m x y Fl Mm Tr Ex Lp Rp) as (Wx & Sx & Wy & Sy & G).
  rewrite rest_block in Sy, G by lia.
  assert (Gl : forall l1 l2 l3 : list nat, length l1 = i -> length l2 = ndim ae - 1 -> length l3 = ndim an - 1 - i ->
     gather (l1 ++ l2 ++ l3) (seq i (ndim ae - 1)) = l2 /\
     gather (l1 ++ l2 ++ l3) (seq 0 i ++ seq (i + (ndim ae - 1)) (ndim c - (i + (ndim ae - 1)))) = l1 ++ l3).
  { intros l1 l2 l3 E1 E2 E3. split; [apply map_nth_seq_app; auto|]. rewrite gather_app. f_equal.
    - apply (map_nth_seq_app 0 [] l1 (l2 ++ l3)); auto.
    - unfold gather. rewrite app_assoc. apply map_nth_seq_last; [rewrite app_length; lia|lia]. }
  assert (L1 : length (firstn i (shape an)) = i) by (rewrite firstn_length; unfold ndim in *; lia).
  assert (L2 : length (del j (shape ae)) = ndim ae - 1) by (rewrite length_del by exact Hj; reflexivity).
  assert (L3 : length (skipn (S i) (shape an)) = ndim an - 1 - i) by (rewrite skipn_length; unfold ndim in *; lia).
  destruct (Gl _ _ _ L1 L2 L3) as (Q1 & Q2). rewrite Sc in Sx, Sy. rewrite Q1 in Sx. rewrite Q2 in Sy.
  split; auto. split; [exact Sy|]. split; auto. split; auto. split; auto.
  intros xs ys Hx Hy.
  assert (Lx : length xs = ndim an - 1) by (rewrite (in_range_len _ _ Hx), length_del by exact Hi; reflexivity).
  assert (Ly : length ys = ndim ae - 1) by (rewrite (in_range_len _ _ Hy); auto).
  rewrite <- (firstn_skipn i xs) in Hx. unfold del in Hx.
  apply in_range_split in Hx; [|rewrite !firstn_length; unfold ndim in *; lia]. destruct Hx as (Hx1 & Hx2).
  assert (Hin : in_range (firstn i xs ++ ys ++ skipn i xs) (shape c)).
  { rewrite Sc. apply in_range_app; auto. apply in_range_app; auto. }
  specialize (G _ Hin). rewrite Gc in G by auto.
  destruct (Gl (firstn i xs) ys (skipn i xs)) as (G1 & G2); [rewrite firstn_length; lia|auto|rewrite skipn_length; lia|].
  rewrite G1, G2, firstn_skipn in G.
  transitivity (sumn r (fun b => rmul (get x (ins j b ys)) (get y (ins i b xs)))).
  - apply sumn_ext. intros b _. ring.
  - rewrite G. apply sumn_ext. intros d _. reflexivity.
Qed.
End Pair.
