(** Norms of contractions with isometric arrays. *)
From Coq Require Import String List Arith Bool Lia Permutation.
From Verif Require Import Py Alg ListX NdArray_Model NdArray_Proof Contract_Model Contract_Spec Contract_Proof
  Net_Model Net_Spec Env_Spec Move_Spec Split_Proof MoveRoot_Proof Norm_Spec.
Import ListNotations.
Local Open Scope nat_scope.
Local Open Scope list_scope.

Section NormAlg.
Variable K : StarRing.
Add Ring Kr : (r_theory K).
Local Open Scope star_scope.
Notation sq c := (rmul (rconj c) c).

Lemma sq_sum {P Q} (lp : list P) (lq : list Q) r (X : nat -> P -> K) (Y : nat -> Q -> K) :
  (forall b b', (b < r)%nat -> (b' < r)%nat -> sumL lq (fun q => rconj (Y b q) * Y b' q) = delta b b') ->
  sumL lp (fun p => sumL lq (fun q => sq (sumn r (fun b => X b p * Y b q)))) = sumn r (fun b => sumL lp (fun p => sq (X b p))).
Proof.
  intros H. transitivity (sumL lp (fun p => sumn r (fun b => sq (X b p)))); [|apply sumL_swap]. apply sumL_ext. intros p.
  transitivity (sumL lq (fun q => sumn r (fun b => sumn r (fun b' => (rconj (X b p) * X b' p) * (rconj (Y b q) * Y b' q))))).
  { apply sumL_ext. intros q. rewrite rconj_sumn. rewrite <- sumn_scal_r. apply sumL_ext. intros b. rewrite <- sumn_scal_l.
    apply sumL_ext. intros b'. rewrite rconj_mul. ring. }
  unfold sumn. rewrite sumL_swap. fold (sumn (K := K) r). apply (sumn_ext K). intros b Hb.
  rewrite sumL_swap. change (sumn r (fun b' => sumL lq (fun q => (rconj (X b p) * X b' p) * (rconj (Y b q) * Y b' q))) = sq (X b p)).
  transitivity (sumn r (fun b' => delta b' b * (rconj (X b p) * X b' p))).
  - apply sumn_ext. intros b' Hb'. rewrite sumL_scal_l, H by auto. rewrite (delta_sym K b b'). ring.
  - apply (sumn_delta K r b (fun b' => rconj (X b p) * X b' p)). auto.
Qed.

Lemma map_get_data (a : arr K) : wf a -> data a = map (get a) (indices (shape a)).
Proof. intros W. rewrite <- (build_get K a W) at 1. reflexivity. Qed.
Lemma sqnorm_get (a : arr K) : wf a -> sqnorm (data a) = sumL (indices (shape a)) (fun i => sq (get a i)).
Proof. intros W. unfold sqnorm. rewrite (map_get_data a W). apply sumL_map. Qed.

(** ** Blocks *)
Lemma block_sum sx sl sz (f : list nat -> K) : sumL (indices (sx ++ sl ++ sz)) f =
  sumL (indices sl) (fun y => sumL (indices (sx ++ sz)) (fun q => f (firstn (length sx) q ++ y ++ skipn (length sx) q))).
Proof.
  rewrite sum_indices_app. transitivity (sumL (indices sx) (fun x => sumL (indices sl) (fun y => sumL (indices sz) (fun z => f (x ++ y ++ z))))).
  { apply sumL_ext. intros x. apply (sum_indices_app K sl sz (fun q => f (x ++ q))). }
  rewrite sumL_swap. apply sumL_ext. intros y. rewrite sum_indices_app. apply (sum_indices_ext K). intros x Hx. apply sumL_ext. intros z.
  pose proof (in_range_len _ _ Hx) as L. now rewrite firstn_app_exact, skipn_app_exact.
Qed.

(** An array that is the contraction of two, the axes of the second one being a block. *)
Definition glued (c : arr K) (sx sl sz : list nat) (r : nat) (F G : nat -> list nat -> K) : Prop :=
  shape c = sx ++ sl ++ sz /\ forall x y z, in_range x sx -> in_range y sl -> in_range z sz ->
    get c (x ++ y ++ z) = sumn r (fun m => F m (x ++ z) * G m y).
Lemma glued_sq c sx sl sz r F G : wf c -> glued c sx sl sz r F G ->
  sqnorm (data c) = sumL (indices sl) (fun y => sumL (indices (sx ++ sz)) (fun q => sq (sumn r (fun m => F m q * G m y)))).
Proof.
  intros W (S & E). rewrite sqnorm_get, S, block_sum by auto. apply sum_indices_ext. intros y Hy. apply sum_indices_ext. intros q Hq.
  destruct (in_range_app_inv q sx sz Hq) as (x & z & -> & Hx & Hz). pose proof (in_range_len _ _ Hx) as L.
  rewrite firstn_app_exact, skipn_app_exact by auto. rewrite E by auto. reflexivity.
Qed.
Lemma glued_first c sx sl sz r F G : wf c -> glued c sx sl sz r F G ->
  (forall b b', (b < r)%nat -> (b' < r)%nat -> sumL (indices (sx ++ sz)) (fun q => rconj (F b q) * F b' q) = delta b b') ->
  sqnorm (data c) = sumn r (fun b => sumL (indices sl) (fun y => sq (G b y))).
Proof.
  intros W Gl H. rewrite (glued_sq c sx sl sz r F G) by auto. rewrite <- (sq_sum (indices sl) (indices (sx ++ sz)) r G F H).
  apply sumL_ext. intros y. apply sumL_ext. intros q. f_equal; [f_equal|]; apply sumL_ext; intros m; ring.
Qed.
Lemma glued_second c sx sl sz r F G : wf c -> glued c sx sl sz r F G ->
  (forall b b', (b < r)%nat -> (b' < r)%nat -> sumL (indices sl) (fun q => rconj (G b q) * G b' q) = delta b b') ->
  sqnorm (data c) = sumn r (fun b => sumL (indices (sx ++ sz)) (fun q => sq (F b q))).
Proof.
  intros W Gl H. rewrite (glued_sq c sx sl sz r F G) by auto. rewrite sumL_swap. apply (sq_sum (indices (sx ++ sz)) (indices sl) r F G H).
Qed.
Lemma sqnorm_ins (a : arr K) i r sh : wf a -> shape a = ins i r sh -> (i <= length sh)%nat ->
  sqnorm (data a) = sumn r (fun b => sumL (indices sh) (fun q => sq (get a (ins i b q)))).
Proof. intros W S L. rewrite sqnorm_get, S, sum_indices_ins by auto. reflexivity. Qed.

(** ** Contractions *)
Lemma contracts_glued (a : arr K) i b j c : (i < ndim a)%nat -> contracts a i b j c ->
  glued c (firstn i (shape a)) (del j (shape b)) (skipn (S i) (shape a)) (nth i (shape a) O) (fun m q => get a (ins i m q)) (fun m q => get b (ins j m q)).
Proof.
  intros Hi (_ & S & E). split; auto. intros x y z Hx Hy Hz. rewrite E by auto. apply sumL_ext. intros m. f_equal. f_equal.
  pose proof (in_range_len _ _ Hx) as L. unfold ndim in Hi. rewrite firstn_length, Nat.min_l in L by lia. unfold ins.
  now rewrite firstn_app_exact, skipn_app_exact.
Qed.
Lemma contracts_norm_l (a : arr K) i b j c : wf a -> (i < ndim a)%nat -> (j < ndim b)%nat -> nth i (shape a) O = nth j (shape b) O -> contracts a i b j c ->
  isometric b j -> sqnorm (data c) = sqnorm (data a).
Proof.
  intros Wa Hi Hj Ed C I. pose proof C as (Wc & _). rewrite (glued_second c _ _ _ _ _ _ Wc (contracts_glued a i b j c Hi C)).
  - rewrite (sqnorm_get a Wa), (sum_indices_del K i (shape a)) by auto. rewrite del_split. reflexivity.
  - intros p q Hp Hq. apply I; congruence.
Qed.
Lemma contracts_norm_r (a : arr K) i b j c : wf b -> (i < ndim a)%nat -> (j < ndim b)%nat -> nth i (shape a) O = nth j (shape b) O -> contracts a i b j c ->
  isometric a i -> sqnorm (data c) = sqnorm (data b).
Proof.
  intros Wb Hi Hj Ed C I. pose proof C as (Wc & _). rewrite (glued_first c _ _ _ _ _ _ Wc (contracts_glued a i b j c Hi C)).
  - rewrite (sqnorm_get b Wb), (sum_indices_del K j (shape b)) by auto. rewrite Ed. reflexivity.
  - intros p q Hp Hq. rewrite <- del_split. apply I; auto.
Qed.

(** ** The two parts *)
Lemma right_isometric (a : arr K) l i2 r v y : Forall (fun d => (0 < d)%nat) (shape a) -> (i2 <= length (rest (ndim a) l))%nat ->
  right_part a l i2 r v y -> orthonormal_rows v r (NdArray_Model.prod (gather (shape a) (rest (ndim a) l))) -> isometric y i2.
Proof.
  intros P Hi (Wy & Sy & Ey) O b b' Hb Hb'. set (l' := rest (ndim a) l) in *. set (sh := gather (shape a) l') in *.
  assert (Ls : length sh = length l') by apply gather_length.
  assert (F : Forall (fun k => (k < ndim a)%nat) l') by (apply Forall_forall; intros k Hk; apply in_rest in Hk; tauto).
  rewrite Sy in Hb, Hb' |- *. rewrite nth_ins_eq in Hb, Hb' by lia. rewrite del_ins by lia.
  rewrite <- (O b b' Hb Hb'), sumn_ravel_gen. apply sum_indices_ext. intros q Hq.
  destruct (gather_surj_part K a l' q (rest_nodup _ _) F P Hq) as (idx & Hx & E). rewrite <- E, !Ey by auto. reflexivity.
Qed.
Lemma block_gather (n i k : nat) l1 l2 l3 : length l1 = i -> length l2 = k -> (length l1 + length l2 + length l3)%nat = n ->
  gather (l1 ++ l2 ++ l3) (seq i k) = l2 /\ gather (l1 ++ l2 ++ l3) (rest n (seq i k)) = l1 ++ l3.
Proof.
  intros E1 E2 E3. split; [apply map_nth_seq_app; auto|]. rewrite rest_block by lia. rewrite gather_app. f_equal.
  - apply (map_nth_seq_app 0%nat [] l1 (l2 ++ l3)); auto.
  - unfold gather. rewrite app_assoc. apply map_nth_seq_last; [rewrite app_length; lia|lia].
Qed.
Lemma parts_norm (a : arr K) i k i1 i2 r x y : wf a -> (i + k <= ndim a)%nat -> (i1 <= k)%nat -> (i2 <= ndim a - k)%nat ->
  parts a (seq i k) i1 i2 r x y -> isometric y i2 -> sqnorm (data x) = sqnorm (data a).
Proof.
  intros Wa Hk H1 H2 (Wx & Sx & Wy & Sy & E) I. unfold ndim in *.
  set (sx := firstn i (shape a)) in *. set (sl := firstn k (skipn i (shape a))) in *. set (sz := skipn k (skipn i (shape a))) in *.
  assert (Sa : shape a = sx ++ sl ++ sz) by (unfold sx, sl, sz; now rewrite !firstn_skipn).
  assert (Lx : length sx = i) by (unfold sx; rewrite firstn_length; lia).
  assert (Ll : length sl = k) by (unfold sl; rewrite firstn_length, skipn_length; lia).
  assert (Lz : length (shape a) = (i + k + length sz)%nat) by (rewrite Sa, !app_length; lia).
  destruct (block_gather (length (shape a)) i k sx sl sz Lx Ll ltac:(lia)) as (G1 & G2). rewrite <- Sa in G1, G2. rewrite G1 in Sx. unfold ndim in Sy. rewrite G2 in Sy.
  assert (Lq : length (sx ++ sz) = (length (shape a) - k)%nat) by (rewrite app_length; lia).
  rewrite (sqnorm_ins x i1 r sl) by (auto; lia). symmetry. apply (glued_first a sx sl sz r (fun m q => get y (ins i2 m q)) (fun m q => get x (ins i1 m q))); auto.
  - split; auto. intros p q z Hp Hq Hz.
    assert (Hr : in_range (p ++ q ++ z) (shape a)) by (rewrite Sa; apply in_range_app; auto; apply in_range_app; auto).
    rewrite <- (E _ Hr). apply in_range_len in Hp, Hq, Hz. unfold ndim.
    destruct (block_gather (length (shape a)) i k p q z) as (Q1 & Q2); try lia. rewrite Q1, Q2. apply sumL_ext. intros m. ring.
  - intros b b' Hb Hb'. assert (Nr : nth i2 (shape y) O = r) by (rewrite Sy; apply nth_ins_eq; lia).
    assert (Dr : del i2 (shape y) = sx ++ sz) by (rewrite Sy; apply del_ins; lia). rewrite <- Dr. apply I; congruence.
Qed.
End NormAlg.
