(** One-axis matrix products in closed form. *)
From Coq Require Import List Arith Bool Lia Permutation Ring.
From Verif Require Import Py Alg ListX NdArray_Model NdArray_Proof
  Contract_Model Contract_Spec Contract_Proof.
Import ListNotations.
Local Open Scope nat_scope.

Lemma in_range_upd i m n idx sh :
  m < n -> in_range idx sh -> in_range (upd i m idx) (upd i n sh).
Proof. apply Forall2_upd. Qed.

Lemma in_range_upd_same i m idx sh :
  in_range idx sh -> m < nth i sh 0 -> in_range (upd i m idx) sh.
Proof.
  intros H Hm. rewrite <- (upd_same i 0 sh). apply in_range_upd; auto.
Qed.

(** dropping the update of the shape *)
Lemma in_range_upd_back i m q idx sh :
  in_range idx (upd i q sh) -> m < nth i sh 0 -> in_range (upd i m idx) sh.
Proof.
  intros H Hm. rewrite <- (upd_same i 0 sh), <- (upd_upd i _ q sh).
  apply in_range_upd; auto.
Qed.

Section M.
Variable K : StarRing.
Add Ring Kring : (r_theory K).
Implicit Types a : arr K.

(** result[idx] = sum_m a[idx with i := m] * M[m, idx_i] *)
Definition mode0 a i (M : arr K) : arr K :=
  build (upd i (nth 1 (shape M) 0) (shape a))
    (fun idx => sumn (nth i (shape a) 0) (fun m => rmul (get a (upd i m idx)) (get M [m; nth i idx 0]))).

(** result[idx] = sum_m a[idx with i := m] * M[idx_i, m] *)
Definition mode1 a i (M : arr K) : arr K :=
  build (upd i (nth 0 (shape M) 0) (shape a))
    (fun idx => sumn (nth i (shape a) 0) (fun m => rmul (get a (upd i m idx)) (get M [nth i idx 0; m]))).

Lemma upd_split i q (sh : list nat) :
  i < length sh -> upd i q sh = firstn i sh ++ [q] ++ skipn (S i) sh.
Proof.
  intros H. unfold upd. apply Nat.ltb_lt in H. rewrite H. reflexivity.
Qed.

Lemma mode_contracts a i M j q (val : nat -> nat -> K) :
  i < ndim a -> j < ndim M -> del j (shape M) = [q] ->
  (forall m k, get M (ins j m [k]) = val m k) ->
  contracts a i M j
    (build (upd i q (shape a))
       (fun idx => sumn (nth i (shape a) 0) (fun m => rmul (get a (upd i m idx)) (val m (nth i idx 0))))).
Proof.
  intros Hi Hj Hd Hv. unfold ndim in *. split; [apply wf_build|]. split.
  - cbn [shape build]. rewrite Hd. apply upd_split; auto.
  - intros x y z Hx Hy Hz. rewrite Hd in Hy.
    apply in_range1_inv in Hy as Hy'. destruct Hy' as (k & -> & Hk).
    pose proof (in_range_len _ _ Hx) as Lx. rewrite firstn_length in Lx.
    assert (Li : i = length x) by lia.
    cbn [app]. rewrite get_build.
    + apply sumn_ext. intros m Hm.
      assert (X1 : nth i (x ++ k :: z) 0 = k).
      { rewrite Li, app_nth2, Nat.sub_diag by lia. reflexivity. }
      assert (X2 : upd i m (x ++ k :: z) = x ++ m :: z).
      { rewrite Li. apply upd_app. }
      rewrite X1, X2, Hv. reflexivity.
    + rewrite upd_split by auto. apply in_range_app; auto. constructor; auto.
Qed.

Lemma pp_mode0 a i M p q :
  i < ndim a -> shape M = [p; q] -> nth i (shape a) 0 = p ->
  partial_product a i (Some M) 0 = Ok (mode0 a i M).
Proof.
  intros Hi HM Hp. cbn [partial_product].
  destruct (partial_product_arr_ok K a i M 0) as (c & R & C); auto.
  - unfold ndim. rewrite HM. cbn. lia.
  - rewrite HM. cbn. auto.
  - rewrite R. f_equal. eapply contracts_unique; [exact C|].
    unfold mode0. rewrite HM. cbn [nth].
    apply (mode_contracts a i M 0 q (fun m k => get M [m; k])); auto.
    + unfold ndim. rewrite HM. cbn. lia.
    + rewrite HM. reflexivity.
Qed.

Lemma pp_mode1 a i M p q :
  i < ndim a -> shape M = [q; p] -> nth i (shape a) 0 = p ->
  partial_product a i (Some M) 1 = Ok (mode1 a i M).
Proof.
  intros Hi HM Hp. cbn [partial_product].
  destruct (partial_product_arr_ok K a i M 1) as (c & R & C); auto.
  - unfold ndim. rewrite HM. cbn. lia.
  - rewrite HM. cbn. auto.
  - rewrite R. f_equal. eapply contracts_unique; [exact C|].
    unfold mode1. rewrite HM. cbn [nth].
    apply (mode_contracts a i M 1 q (fun m k => get M [k; m])); auto.
    + unfold ndim. rewrite HM. cbn. lia.
    + rewrite HM. reflexivity.
Qed.

Lemma ndim_mode0 a i M : ndim (mode0 a i M) = ndim a.
Proof. unfold ndim, mode0. cbn. apply length_upd. Qed.

Lemma get_mode0 a i M idx :
  in_range idx (upd i (nth 1 (shape M) 0) (shape a)) ->
  get (mode0 a i M) idx
  = sumn (nth i (shape a) 0) (fun m => rmul (get a (upd i m idx)) (get M [m; nth i idx 0])).
Proof. intros. unfold mode0. rewrite get_build; auto. Qed.

Lemma mode0_comm a i k M N :
  i <> k -> i < ndim a -> k < ndim a ->
  mode0 (mode0 a i M) k N = mode0 (mode0 a k N) i M.
Proof.
  intros H Hi Hk. unfold ndim in *.
  unfold mode0 at 1 3. cbn [shape mode0 build].
  rewrite (upd_comm k i) by auto. apply build_ext. intros idx Hx.
  rewrite (nth_upd_neq i k), (nth_upd_neq k i) by auto.
  pose proof (in_range_len _ _ Hx) as Lx. rewrite !length_upd in Lx.
  transitivity (sumn (nth k (shape a) 0) (fun m' => sumn (nth i (shape a) 0) (fun m =>
     rmul (rmul (get a (upd i m (upd k m' idx))) (get M [m; nth i idx 0])) (get N [m'; nth k idx 0])))).
  - apply sumn_ext. intros m' Hm'. rewrite get_mode0.
    + rewrite (nth_upd_neq k i) by auto. unfold sumn. rewrite <- sumL_scal_r. reflexivity.
    + rewrite upd_comm in Hx by auto. apply in_range_upd_back with (q := nth 1 (shape N) 0); auto.
      rewrite nth_upd_neq; auto.
  - rewrite sumn_swap. apply sumn_ext. intros m Hm. rewrite get_mode0.
    + rewrite (nth_upd_neq i k) by auto.
      rewrite <- sumn_scal_r. apply sumn_ext. intros m' Hm'.
      rewrite upd_comm by auto. ring.
    + apply in_range_upd_back with (q := nth 1 (shape M) 0); auto. rewrite nth_upd_neq; auto.
Qed.

Lemma mode0_comp a i M N P p q r :
  i < ndim a -> shape M = [p; q] -> shape N = [q; r] -> nth i (shape a) 0 = p ->
  wf P -> shape P = [p; r] ->
  (forall x y, x < p -> y < r -> get P [x; y] = sumn q (fun k => rmul (get M [x; k]) (get N [k; y]))) ->
  mode0 (mode0 a i M) i N = mode0 a i P.
Proof.
  intros Hi HM HN Hp WP SP HP. unfold ndim in *.
  unfold mode0 at 1 3. cbn [shape mode0 build]. rewrite HM, HN, SP. cbn [nth].
  rewrite upd_upd. apply build_ext. intros idx Hx.
  pose proof (in_range_len _ _ Hx) as Lx. rewrite length_upd in Lx.
  rewrite nth_upd_eq by auto.
  assert (Hr : nth i idx 0 < r).
  { pose proof (in_range_nth i _ _ Hx) as Q. rewrite length_upd in Q.
    rewrite nth_upd_eq in Q by auto. auto. }
  transitivity (sumn q (fun k => sumn p (fun m =>
     rmul (rmul (get a (upd i m idx)) (get M [m; k])) (get N [k; nth i idx 0])))).
  - apply sumn_ext. intros k Hk. rewrite get_mode0.
    + rewrite nth_upd_eq by lia. rewrite Hp, <- sumn_scal_r. apply sumn_ext. intros m Hm.
      rewrite upd_upd. reflexivity.
    + rewrite HM. cbn [nth]. rewrite <- (upd_upd i q r). apply in_range_upd; auto.
  - rewrite sumn_swap, Hp. apply sumn_ext. intros m Hm. rewrite HP by auto.
    rewrite <- sumn_scal_l. apply sumn_ext. intros; ring.
Qed.

Lemma mode0_id a i n :
  wf a -> i < ndim a -> nth i (shape a) 0 = n -> mode0 a i (eye n n) = a.
Proof.
  intros Wa Hi Hn. symmetry. unfold mode0. apply eq_build; auto.
  - cbn. rewrite <- Hn. rewrite upd_same. reflexivity.
  - cbn [shape eye build nth]. intros idx Hx.
    pose proof (in_range_len _ _ Hx) as Lx. rewrite length_upd in Lx.
    assert (Hr : nth i idx 0 < n).
    { pose proof (in_range_nth i _ _ Hx) as Q. rewrite length_upd in Q.
      rewrite nth_upd_eq in Q by auto. auto. }
    rewrite (sumn_single K _ (nth i idx 0)); [|lia|].
    + rewrite upd_same, get_eye by auto. unfold delta. rewrite Nat.eqb_refl. ring.
    + intros m Hm Hne. rewrite get_eye by lia. unfold delta.
      apply Nat.eqb_neq in Hne. rewrite Hne. ring.
Qed.

End M.
Arguments mode0 {K} _ _ _. Arguments mode1 {K} _ _ _.

Section Q.
Variable K : StarRing.

Lemma reshape_variant_agrees (a : arr K) i (b : arr K) j :
  wf a -> wf b -> i < ndim a -> j < ndim b ->
  nth i (shape a) 0 = nth j (shape b) 0 -> prod (shape a) <> 0 ->
  partial_product_reshape a i b j = partial_product a i (Some b) j.
Proof.
  intros Wa Wb Hi Hj E Hz.
  destruct (partial_product_reshape_ok K a i b j) as (c & R & C); auto.
  destruct (partial_product_arr_ok K a i b j) as (c' & R' & C'); auto.
  cbn [partial_product]. rewrite R, R'. f_equal. eapply contracts_unique; eauto.
Qed.

Lemma pp_comm (a : arr K) i k (M N : arr K) p q r s :
  i <> k -> i < ndim a -> k < ndim a ->
  shape M = [p; q] -> shape N = [r; s] ->
  nth i (shape a) 0 = p -> nth k (shape a) 0 = r ->
  exists c,
    bind (partial_product a i (Some M) 0) (fun b => partial_product b k (Some N) 0) = Ok c /\
    bind (partial_product a k (Some N) 0) (fun b => partial_product b i (Some M) 0) = Ok c.
Proof.
  intros H Hi Hk HM HN Ep Er.
  exists (mode0 (mode0 a i M) k N).
  rewrite (pp_mode0 K a i M p q), (pp_mode0 K a k N r s) by auto. cbn [bind]. split.
  - apply pp_mode0 with (p := r) (q := s); auto.
    + rewrite ndim_mode0; auto.
    + cbn. rewrite nth_upd_neq; auto.
  - rewrite mode0_comm by auto.
    apply pp_mode0 with (p := p) (q := q); auto.
    + rewrite ndim_mode0; auto.
    + cbn. rewrite nth_upd_neq; auto.
Qed.

Lemma pp_comp (a : arr K) i (M N P : arr K) p q r :
  i < ndim a -> shape M = [p; q] -> shape N = [q; r] -> nth i (shape a) 0 = p ->
  mat_mul_of M N P ->
  bind (partial_product a i (Some M) 0) (fun b => partial_product b i (Some N) 0)
  = partial_product a i (Some P) 0.
Proof.
  intros Hi HM HN Ep (x & y & z & S1 & S2 & W & S3 & G).
  rewrite HM in S1. rewrite HN in S2. inversion S1; inversion S2. subst x y z.
  rewrite (pp_mode0 K a i M p q) by auto. cbn [bind].
  rewrite (pp_mode0 K _ i N q r).
  - rewrite (pp_mode0 K a i P p r) by auto. f_equal.
    eapply mode0_comp; eauto.
  - rewrite ndim_mode0; auto.
  - auto.
  - cbn. rewrite HM. rewrite nth_upd_eq; auto.
Qed.

Lemma pp_id (a : arr K) i n :
  wf a -> i < ndim a -> nth i (shape a) 0 = n ->
  partial_product a i (Some (eye n n)) 0 = Ok a.
Proof.
  intros Wa Hi En. rewrite (pp_mode0 K a i _ n n) by auto.
  rewrite mode0_id; auto.
Qed.
End Q.
