From Coq Require Import List Arith Bool ZArith Lia Ring.
From Verif Require Import Py Alg Ord ListX NdArray_Model NdArray_Proof Svd_Model Svd_Spec.
Import ListNotations.

Section P.
Variable K : OrdRing.
Add Ring Kring : (r_theory K).
Variable C : StarRing.
Add Ring Cring : (r_theory C).
Variable inj : K -> C.

Lemma combine_snoc {A B} (l : list A) (l' : list B) a b :
  length l = length l' -> combine (l ++ [a]) (l' ++ [b]) = combine l l' ++ [(a, b)].
Proof.
  revert l'; induction l as [|x l IH]; intros [|y l'] H; cbn in *; try lia; auto.
  f_equal. apply IH. lia.
Qed.

Lemma enumerate_snoc (s : list K) x : enumerate (s ++ [x]) = enumerate s ++ [(length s, x)].
Proof.
  unfold enumerate. rewrite app_length, Nat.add_comm. cbn [length plus]. rewrite seq_S.
  apply combine_snoc. rewrite seq_length. reflexivity.
Qed.

Lemma sum_list_app (l1 l2 : list K) : sum_list (l1 ++ l2) = radd (sum_list l1) (sum_list l2).
Proof. induction l1 as [|x l1 IH]; cbn; [ring|]. rewrite IH. ring. Qed.

(** Scan result, for a prefix [s] scanned after the suffix of total [t]. *)
Lemma scan_tail_spec (s : list K) : forall t err,
  match scan_tail (rev (enumerate s)) t err with
  | Some r => 1 <= r <= length s /\ gtb (radd t (sum_list (skipn (r - 1) s))) err = true /\
      (r < length s -> ole (radd t (sum_list (skipn r s))) err)
  | None => forall r, r < length s -> ole (radd t (sum_list (skipn r s))) err
  end.
Proof.
  induction s as [|x s IH] using rev_ind; intros t err.
  - cbn. intros; lia.
  - rewrite enumerate_snoc, rev_app_distr. cbn [rev app scan_tail].
    destruct (gtb (radd t x) err) eqn:E.
    + rewrite app_length. cbn [length]. split; [lia|]. split; [|lia].
      replace (length s + 1 - 1) with (length s) by lia.
      rewrite skipn_app, skipn_all, Nat.sub_diag. cbn.
      replace (radd t (radd x r0)) with (radd t x) by ring. auto.
    + specialize (IH (radd t x) err).
      assert (Hs : forall r, r <= length s ->
         radd t (sum_list (skipn r (s ++ [x]))) = radd (radd t x) (sum_list (skipn r s))).
      { intros r Hr. rewrite skipn_app, sum_list_app.
        replace (r - length s) with 0 by lia. cbn. ring. }
      destruct (scan_tail (rev (enumerate s)) (radd t x) err) as [r|].
      * destruct IH as (H1 & H2 & H3). rewrite app_length. cbn [length].
        split; [lia|]. split.
        -- rewrite Hs by lia. auto.
        -- intros _. destruct (Nat.eq_dec r (length s)) as [->|].
           ++ rewrite Hs by lia. rewrite skipn_all. cbn.
              replace (radd (radd t x) r0) with (radd t x) by ring. exact E.
           ++ rewrite Hs by lia. apply H3. lia.
      * intros r Hr. rewrite app_length in Hr. cbn in Hr.
        destruct (Nat.eq_dec r (length s)) as [->|].
        -- rewrite Hs by lia. rewrite skipn_all. cbn.
           replace (radd (radd t x) r0) with (radd t x) by ring. exact E.
        -- rewrite Hs by lia. apply IH. lia.
Qed.

Lemma skipn_in {A} n (l : list A) x : In x (skipn n l) -> In x l.
Proof. intros H. rewrite <- (firstn_skipn n l). apply in_app_iff; auto. Qed.

Lemma skipn_add {A} a b (l : list A) : skipn a (skipn b l) = skipn (b + a) l.
Proof. revert l; induction b as [|b IH]; intros [|x l]; cbn; auto. now destruct a. Qed.

Lemma discarded_mono (s : list K) r r' :
  (forall x, In x s -> ole r0 x) -> r <= r' -> ole (discarded s r') (discarded s r).
Proof.
  intros Hp H. unfold discarded.
  replace (skipn r' s) with (skipn (r' - r) (skipn r s)) by
    (rewrite skipn_add; f_equal; lia).
  rewrite <- (firstn_skipn (r' - r) (skipn r s)) at 2. rewrite sum_list_app.
  set (A := firstn (r' - r) (skipn r s)). set (B := skipn (r' - r) (skipn r s)).
  apply ole_trans with (y := radd r0 (sum_list B)).
  - replace (radd r0 (sum_list B)) with (sum_list B) by ring. apply ole_refl.
  - apply ole_add. apply sum_nonneg. intros x Hx. apply Hp.
    apply (skipn_in r). unfold A in Hx. rewrite <- (firstn_skipn (r' - r)).
    apply in_app_iff; auto.
Qed.

Definition total (s : list K) : K := sum_list s.

(** The rank selected from [err]. *)
Lemma scan_exceeds (s : list K) err :
  (forall x, In x s -> ole r0 x) -> ole r0 err -> olt err (sum_list s) ->
  exists r, scan_tail (rev (enumerate s)) r0 err = Some r /\
    r <= length s /\ smallest_rank s err r.
Proof.
  intros Hp He Ht. pose proof (scan_tail_spec s r0 err) as H.
  assert (Hz : forall l : list K, radd r0 (sum_list l) = sum_list l) by (intros; ring).
  destruct (scan_tail (rev (enumerate s)) r0 err) as [r|].
  - exists r. destruct H as (H1 & H2 & H3). split; [reflexivity|]. split; [lia|].
    rewrite Hz in *. split; [lia|]. split.
    + destruct (Nat.eq_dec r (length s)) as [->|].
      * unfold discarded. rewrite skipn_all. cbn. exact He.
      * apply H3. lia.
    + intros r' Hr1 Hr2. apply olt_ole_trans with (y := discarded s (r - 1)).
      * exact H2.
      * apply discarded_mono; auto. lia.
  - exfalso. destruct s as [|x s].
    + cbn in Ht. exact (olt_not_ole K _ _ Ht He).
    + specialize (H 0). rewrite Hz in H. cbn [skipn] in H.
      exact (olt_not_ole K _ _ Ht (H ltac:(cbn; lia))).
Qed.

Lemma scan_within (s : list K) err :
  (forall x, In x s -> ole r0 x) -> ole (sum_list s) err ->
  scan_tail (rev (enumerate s)) r0 err = None.
Proof.
  intros Hp Ht. pose proof (scan_tail_spec s r0 err) as H.
  destruct (scan_tail (rev (enumerate s)) r0 err) as [r|]; [|reflexivity].
  exfalso. destruct H as (H1 & H2 & _).
  assert (Hz : forall l : list K, radd r0 (sum_list l) = sum_list l) by (intros; ring).
  rewrite Hz in H2.
  pose proof (discarded_mono s 0 (r - 1) Hp ltac:(lia)) as M. unfold discarded in M at 2.
  cbn [skipn] in M.
  exact (olt_not_ole K _ _ H2 (ole_trans K _ _ _ M Ht)).
Qed.

(** Kept columns multiply to the leading part. *)
Lemma in_range2' i j n m : i < n -> j < m -> in_range [i; j] [n; m].
Proof. apply in_range2. Qed.

Lemma leading_of_take m n (u vh : arr C) s r :
  shape u = [m; length s] -> shape vh = [length s; n] -> wf u -> wf vh -> r <= length s ->
  leading_part inj m n r u s vh (take_cols r u) (diag (map inj (firstn r s))) (take_rows r vh).
Proof.
  intros Su Sv Wu Wv Hr. unfold take_cols, take_rows. rewrite Su, Sv. cbn [nth].
  rewrite Nat.min_l by auto.
  assert (L : length (map inj (firstn r s)) = r) by (rewrite map_length, firstn_length; lia).
  split; [apply wf_build|]. split; [reflexivity|]. split; [apply wf_build|].
  split; [unfold diag; rewrite L; reflexivity|]. split; [apply wf_build|]. split; [reflexivity|].
  intros i j Hi Hj. apply sumn_ext. intros p Hp.
  rewrite (sumn_single C r p); auto.
  - rewrite !get_build by (apply in_range2; auto).
    unfold diag. rewrite L. rewrite get_build by (apply in_range2; auto). cbn [nth].
    rewrite Nat.eqb_refl. f_equal. f_equal.
    rewrite (nth_indep _ _ (inj r0)) by lia. rewrite map_nth. f_equal.
    rewrite map_length in L.
    rewrite <- (firstn_skipn r s) at 2. rewrite app_nth1 by lia. reflexivity.
  - intros q Hq Hne. unfold diag. rewrite L. rewrite (get_build C [r; r]) by (apply in_range2; auto).
    cbn [nth]. rewrite (proj2 (Nat.eqb_neq p q)) by auto. ring.
Qed.

Lemma leading_full m n (u vh : arr C) s :
  shape u = [m; length s] -> shape vh = [length s; n] -> wf u -> wf vh ->
  leading_part inj m n (length s) u s vh u (diag (map inj s)) vh.
Proof.
  intros Su Sv Wu Wv.
  pose proof (map_length inj s) as L.
  split; [auto|]. split; [auto|]. split; [apply wf_build|].
  split; [unfold diag; rewrite L; reflexivity|].
  split; [auto|]. split; [auto|].
  intros i j Hi Hj. apply sumn_ext. intros p Hp.
  rewrite (sumn_single C _ p); auto.
  - unfold diag. rewrite L, get_build by (apply in_range2; auto). cbn [nth].
    rewrite Nat.eqb_refl. f_equal. f_equal.
    rewrite (nth_indep _ _ (inj r0)) by lia. apply map_nth.
  - intros q Hq Hne. unfold diag. rewrite L, get_build by (apply in_range2; auto).
    cbn [nth]. rewrite (proj2 (Nat.eqb_neq p q)) by auto. ring.
Qed.

(** The number of values kept by [compressed_svd], as a function of its arguments. *)
Definition kept (s : list K) (rank : option Z) (err : option K) : option nat :=
  match requested_rank s rank err with
  | None => Some (length s)
  | Some r => if (r <=? 0)%Z then None else Some (min (Z.to_nat r) (length s))
  end.

Lemma compressed_svd_kept m n (u vh : arr C) s rank err :
  shape u = [m; length s] -> shape vh = [length s; n] -> wf u -> wf vh ->
  match kept s rank err with
  | None => compressed_svd inj (u, s, vh) rank err = Raise RuntimeError
  | Some r => exists w d v, compressed_svd inj (u, s, vh) rank err = Ok (w, d, v) /\
               r <= length s /\ leading_part inj m n r u s vh w d v
  end.
Proof.
  intros Su Sv Wu Wv. unfold kept, compressed_svd.
  destruct (requested_rank s rank err) as [r|].
  - destruct (Z.leb_spec r 0); [reflexivity|].
    destruct (Z.leb_spec r (Z.of_nat (length s))).
    + rewrite Nat.min_l by lia. do 3 eexists. split; [reflexivity|]. split; [lia|].
      apply leading_of_take; auto. lia.
    + rewrite Nat.min_r by lia. do 3 eexists. split; [reflexivity|]. split; [lia|].
      apply leading_full; auto.
  - do 3 eexists. split; [reflexivity|]. split; [lia|]. apply leading_full; auto.
Qed.

Lemma kept_err_exceeds s rank err :
  (forall x, In x s -> ole r0 x) -> ole r0 err -> olt err (sum_list s) ->
  exists r, kept s rank (Some err) = Some r /\ r <= length s /\ smallest_rank s err r.
Proof.
  intros Hp He Ht. destruct (scan_exceeds s err Hp He Ht) as (r & E & Hr & Hs).
  exists r. unfold kept, requested_rank. rewrite E.
  destruct (Z.leb_spec (Z.of_nat r) 0).
  - destruct Hs as (H1 & _). lia.
  - rewrite Nat2Z.id, Nat.min_l by lia. auto.
Qed.

Lemma kept_err_within s err :
  (forall x, In x s -> ole r0 x) -> s <> [] -> ole (sum_list s) err ->
  kept s None (Some err) = Some 1 /\ smallest_rank s err 1.
Proof.
  intros Hp Hne Ht. unfold kept, requested_rank. rewrite (scan_within s err Hp Ht).
  destruct s as [|x s]; [congruence|].
  split; [cbn; destruct (length s); reflexivity|].
  split; [lia|]. split; [|intros; lia].
  apply ole_trans with (y := sum_list (x :: s)); auto.
  apply (discarded_mono (x :: s) 0 1); auto.
Qed.

Lemma kept_err_within_rank s err r :
  (forall x, In x s -> ole r0 x) -> ole (sum_list s) err ->
  kept s (Some r) (Some err) = kept s (Some r) None.
Proof.
  intros Hp Ht. unfold kept, requested_rank. rewrite (scan_within s err Hp Ht). reflexivity.
Qed.

Lemma truncation_loss a m n (u vh : arr C) s r w d v :
  factorises inj a m n u s vh -> r <= length s -> leading_part inj m n r u s vh w d v ->
  forall i j, i < m -> j < n ->
    get a [i; j] =
    radd (sumn r (fun p => sumn r (fun q =>
           rmul (rmul (get w [i; p]) (get d [p; q])) (get v [q; j]))))
         (sumn (length s - r) (fun k =>
           rmul (rmul (get u [i; r + k]) (inj (nth (r + k) s r0))) (get vh [r + k; j]))).
Proof.
  intros (Wu & Su & Wv & Sv & G) Hr (_ & _ & _ & _ & _ & _ & L) i j Hi Hj.
  rewrite G, L by auto.
  replace (length s) with (r + (length s - r)) at 1 by lia.
  generalize (length s - r) as k. intros k. clear.
  unfold sumn. rewrite seq_app, sumL_app. f_equal. cbn [plus].
  rewrite <- (Nat.add_0_r r) at 1. rewrite <- map_add_seq, sumL_map. reflexivity.
Qed.

Lemma compress_svd_ok a m n (u vh : arr C) s k :
  factorises inj a m n u s vh ->
  let '(U, T, V, e) := compress_svd u s vh k in
  T = firstn (min (length s) k) s /\ e = discarded s (min (length s) k) /\
  leading_part inj m n (min (length s) k) u s vh U (diag (map inj T)) V.
Proof.
  intros (Wu & Su & Wv & Sv & G). unfold compress_svd. split; [reflexivity|].
  split; [reflexivity|]. apply leading_of_take; auto. lia.
Qed.


(** Statements about the whole function. *)
Lemma svd_err_ok a m n (u vh : arr C) s rank err :
  factorises inj a m n u s vh -> (forall x, In x s -> ole r0 x) -> ole r0 err ->
  olt err (sum_list s) ->
  exists r w d v, compressed_svd inj (u, s, vh) rank (Some err) = Ok (w, d, v) /\
    r <= length s /\ smallest_rank s err r /\ leading_part inj m n r u s vh w d v.
Proof.
  intros (Wu & Su & Wv & Sv & _) Hp He Ht.
  destruct (kept_err_exceeds s rank err Hp He Ht) as (r & E & Hr & Hs).
  pose proof (compressed_svd_kept m n u vh s rank (Some err) Su Sv Wu Wv) as H.
  rewrite E in H. destruct H as (w & d & v & H1 & H2 & H3).
  exists r, w, d, v. auto.
Qed.

Lemma svd_err_within a m n (u vh : arr C) s err :
  factorises inj a m n u s vh -> (forall x, In x s -> ole r0 x) -> s <> [] ->
  ole (sum_list s) err ->
  smallest_rank s err 1 /\
  exists w d v, compressed_svd inj (u, s, vh) None (Some err) = Ok (w, d, v) /\
    leading_part inj m n 1 u s vh w d v.
Proof.
  intros (Wu & Su & Wv & Sv & _) Hp Hn Ht.
  destruct (kept_err_within s err Hp Hn Ht) as (E & Hs).
  pose proof (compressed_svd_kept m n u vh s None (Some err) Su Sv Wu Wv) as H.
  rewrite E in H. destruct H as (w & d & v & H1 & H2 & H3).
  split; auto. exists w, d, v. auto.
Qed.

Lemma svd_rank_ok a m n (u vh : arr C) s r :
  factorises inj a m n u s vh -> (0 < r)%Z ->
  exists w d v, compressed_svd inj (u, s, vh) (Some r) None = Ok (w, d, v) /\
    leading_part inj m n (min (Z.to_nat r) (length s)) u s vh w d v.
Proof.
  intros (Wu & Su & Wv & Sv & _) Hr.
  pose proof (compressed_svd_kept m n u vh s (Some r) None Su Sv Wu Wv) as H.
  unfold kept, requested_rank in H. destruct (Z.leb_spec r 0); [lia|].
  destruct H as (w & d & v & H1 & H2 & H3). exists w, d, v. auto.
Qed.

Lemma svd_rank_err_within a m n (u vh : arr C) s r err :
  factorises inj a m n u s vh -> (forall x, In x s -> ole r0 x) -> ole (sum_list s) err ->
  (0 < r)%Z ->
  exists w d v, compressed_svd inj (u, s, vh) (Some r) (Some err) = Ok (w, d, v) /\
    leading_part inj m n (min (Z.to_nat r) (length s)) u s vh w d v.
Proof.
  intros (Wu & Su & Wv & Sv & _) Hp Ht Hr.
  pose proof (compressed_svd_kept m n u vh s (Some r) (Some err) Su Sv Wu Wv) as H.
  rewrite kept_err_within_rank in H by auto.
  unfold kept, requested_rank in H. destruct (Z.leb_spec r 0); [lia|].
  destruct H as (w & d & v & H1 & H2 & H3). exists w, d, v. auto.
Qed.

Lemma svd_bad_rank (usv : arr C * list K * arr C) r :
  (r <= 0)%Z -> compressed_svd inj usv (Some r) None = Raise RuntimeError.
Proof.
  intros H. destruct usv as [[u s] vh]. unfold compressed_svd, requested_rank.
  now rewrite (proj2 (Z.leb_le r 0) H).
Qed.

Lemma svd_exact a m n (u vh : arr C) s :
  factorises inj a m n u s vh ->
  exists w d v, compressed_svd inj (u, s, vh) None None = Ok (w, d, v) /\
    forall i j, i < m -> j < n ->
      get a [i; j] = sumn (length s) (fun p => sumn (length s) (fun q =>
         rmul (rmul (get w [i; p]) (get d [p; q])) (get v [q; j]))).
Proof.
  intros (Wu & Su & Wv & Sv & G).
  pose proof (compressed_svd_kept m n u vh s None None Su Sv Wu Wv) as H.
  unfold kept, requested_rank in H. destruct H as (w & d & v & H1 & H2 & H3).
  exists w, d, v. split; auto. intros i j Hi Hj. rewrite G by auto.
  destruct H3 as (_ & _ & _ & _ & _ & _ & L). now rewrite L.
Qed.

(** Whatever the arguments, a result is the leading part for some [r], and misses
    exactly the remaining triplets. *)
Lemma svd_loss a m n (u vh : arr C) s rank err w d v :
  factorises inj a m n u s vh ->
  compressed_svd inj (u, s, vh) rank err = Ok (w, d, v) ->
  exists r, r <= length s /\ shape w = [m; r] /\ shape d = [r; r] /\ shape v = [r; n] /\
  forall i j, i < m -> j < n ->
    get a [i; j] =
    radd (sumn r (fun p => sumn r (fun q =>
           rmul (rmul (get w [i; p]) (get d [p; q])) (get v [q; j]))))
         (sumn (length s - r) (fun k =>
           rmul (rmul (get u [i; r + k]) (inj (nth (r + k) s r0))) (get vh [r + k; j]))).
Proof.
  intros F E. pose proof F as (Wu & Su & Wv & Sv & G).
  pose proof (compressed_svd_kept m n u vh s rank err Su Sv Wu Wv) as H.
  destruct (kept s rank err) as [r|]; [|congruence].
  destruct H as (w' & d' & v' & H1 & H2 & H3).
  rewrite E in H1. injection H1 as <- <- <-. exists r. split; auto.
  pose proof H3 as (_ & Sw & _ & Sd & _ & Sv' & _). repeat split; auto.
  eapply truncation_loss; eauto.
Qed.

Lemma compress_svd_loss a m n (u vh : arr C) s k :
  factorises inj a m n u s vh ->
  let r := min (length s) k in
  let '(U, T, V, e) := compress_svd u s vh k in
  T = firstn r s /\ e = discarded s r /\ shape U = [m; r] /\ shape V = [r; n] /\
  forall i j, i < m -> j < n ->
    get a [i; j] =
    radd (sumn r (fun p => rmul (rmul (get U [i; p]) (inj (nth p T r0))) (get V [p; j])))
         (sumn (length s - r) (fun q =>
           rmul (rmul (get u [i; r + q]) (inj (nth (r + q) s r0))) (get vh [r + q; j]))).
Proof.
  intros F. cbn zeta. pose proof (compress_svd_ok a m n u vh s k F) as H.
  destruct (compress_svd u s vh k) as [[[U T] V] e]. destruct H as (H1 & H2 & H3).
  split; auto. split; auto. pose proof H3 as (_ & SU & _ & _ & _ & SV & _).
  split; auto. split; auto. intros i j Hi Hj.
  rewrite (truncation_loss a m n u vh s _ U (diag (map inj T)) V F (Nat.le_min_l _ _) H3 i j Hi Hj).
  f_equal. apply sumn_ext. intros p Hp.
  assert (L : length (map inj T) = min (length s) k)
    by (rewrite map_length, H1, firstn_length; lia).
  rewrite (sumn_single C _ p); auto.
  - unfold diag. rewrite L, get_build by (apply in_range2; auto). cbn [nth].
    rewrite Nat.eqb_refl. f_equal. f_equal.
    rewrite (nth_indep _ _ (inj r0)) by lia. apply map_nth.
  - intros q Hq Hne. unfold diag. rewrite L, (get_build C [_; _]) by (apply in_range2; auto).
    cbn [nth]. rewrite (proj2 (Nat.eqb_neq p q)) by auto. ring.
Qed.
End P.
Arguments kept {K} _ _ _.
