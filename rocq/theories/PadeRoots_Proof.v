(** Proofs: the eigenvalues of the tridiagonal matrices are the roots of the continuants. *)
From Coq Require Import List Arith Lia Reals Lra Bool Sorting.Sorted.
From Verif Require Import CorrX_Spec CorrX_Proof Pade_Spec Pade_Proof.
Import ListNotations.
Local Open Scope R_scope.

Lemma Rsum_zero n f : (forall i, (i < n)%nat -> f i = 0) -> Rsum n f = 0.
Proof. induction n as [|n IH]; intros H; [reflexivity|]. cbn [Rsum]. rewrite IH by (intros; apply H; lia). rewrite H by lia. ring. Qed.
Lemma Rsum_delta n p c : Rsum n (fun k => if (k =? p)%nat then c else 0) = if (p <? n)%nat then c else 0.
Proof.
  induction n as [|n IH]; [reflexivity|]. cbn [Rsum]. rewrite IH. destruct (Nat.eqb_spec n p) as [->|N].
  - rewrite Nat.ltb_irrefl. destruct (Nat.ltb_spec p (S p)); [ring|lia].
  - destruct (Nat.ltb_spec p n), (Nat.ltb_spec p (S n)); try lia; ring.
Qed.

(** ** The recurrence of the components of an eigenvector *)
Fixpoint comp2 (a w : R) (i : nat) : R * R := match i with O => (1, 0) | S i => let (p, q) := comp2 a w i in (w * (a + 2 * INR i) * p - q, p) end.
Definition vcomp (a w : R) (i : nat) : R := fst (comp2 a w i).
Lemma vcomp_snd a w i : snd (comp2 a w (S i)) = vcomp a w i.
Proof. unfold vcomp. cbn [comp2]. destruct (comp2 a w i). reflexivity. Qed.
Lemma vcomp_1 a w : vcomp a w 1 = w * a. Proof. unfold vcomp. cbn. ring. Qed.
Lemma vcomp_SS a w i : vcomp a w (S (S i)) = w * (a + 2 * INR (S i)) * vcomp a w (S i) - vcomp a w i.
Proof. unfold vcomp at 1. cbn [comp2]. rewrite <- (vcomp_snd a w i). unfold vcomp. change (let (p, q) := comp2 a w i in (w * (a + 2 * INR i) * p - q, p)) with (comp2 a w (S i)). destruct (comp2 a w (S i)). reflexivity. Qed.
Lemma vcomp_opp a w i : vcomp a (- w) i = (-1) ^ i * vcomp a w i.
Proof.
  enough (H : vcomp a (- w) i = (-1) ^ i * vcomp a w i /\ vcomp a (- w) (S i) = (-1) ^ S i * vcomp a w (S i)) by apply H.
  induction i as [|i (H1 & H2)]; [rewrite !vcomp_1; unfold vcomp; cbn; split; ring|]. split; [exact H2|]. rewrite !vcomp_SS, H1, H2. cbn [pow]. ring.
Qed.
Lemma vcomp_cont a w i : w <> 0 -> vcomp a w i = w ^ i * cont a (- / w ^ 2) i.
Proof.
  intros W. enough (H : vcomp a w i = w ^ i * cont a (- / w ^ 2) i /\ vcomp a w (S i) = w ^ S i * cont a (- / w ^ 2) (S i)) by apply H.
  induction i as [|i (H1 & H2)]; [rewrite vcomp_1, cont_1, cont_0; unfold vcomp; cbn; split; ring|]. split; [exact H2|]. rewrite vcomp_SS, H1, H2, cont_SS. cbn [pow]. field. exact W.
Qed.
Lemma vcomp_deg a M : deg M (odds a M) (fun w => vcomp a w M).
Proof.
  enough (H : deg M (odds a M) (fun w => vcomp a w M) /\ deg (S M) (odds a (S M)) (fun w => vcomp a w (S M))) by apply H.
  induction M as [|M (H1 & H2)].
  - split; [apply (deg_ext _ _ (fun _ => 1)); [reflexivity|]; unfold odds; cbn [Rprod]; apply deg_const|].
    apply (deg_ext _ _ (fun x => x * a)); [intros x; rewrite vcomp_1; reflexivity|]. rewrite odds_S. unfold odds. cbn [Rprod INR]. replace (1 * (a + 2 * 0)) with a by ring. apply (deg_x 0 a (fun _ => a)). apply deg_const.
  - split; [exact H2|]. apply (deg_ext _ _ (fun w => (a + 2 * INR (S M)) * (w * vcomp a w (S M)) + (-1) * vcomp a w M)); [intros x; rewrite vcomp_SS; ring|].
    rewrite odds_S. replace (odds a (S M) * (a + 2 * INR (S M))) with ((a + 2 * INR (S M)) * odds a (S M) + 0) by ring. apply deg_add; [apply deg_scal, deg_x; exact H2|].
    apply deg_up with (c := 0). apply deg_up with (c := -1 * odds a M). apply deg_scal. exact H1.
Qed.

Section Eigen.
Variable a : R.
Hypothesis Ha : 0 < a.
Let b (i : nat) : R := a + 2 * INR i.
Lemma b_pos i : 0 < b i. Proof. unfold b. pose proof (pos_INR i). lra. Qed.
Lemma b_S i : b (S i) = b i + 2. Proof. unfold b. rewrite S_INR. ring. Qed.
Let sb (i : nat) : R := 1 / sqrt (b i * (b i + 2)).
Lemma sb_split i : sb i = / (sqrt (b i) * sqrt (b (S i))).
Proof. unfold sb. rewrite b_S. pose proof (b_pos i). rewrite sqrt_mult by lra. unfold Rdiv. ring. Qed.
Lemma row M i v : (i < M)%nat -> Rsum M (fun k => beside a i k * v k) = (if (S i <? M)%nat then sb i * v (S i) else 0) + match i with O => 0 | S p => sb p * v p end.
Proof.
  intros Hi. rewrite (Rsum_ext M _ (fun k => (if (k =? S i)%nat then sb i * v (S i) else 0) + match i with O => 0 | S p => if (k =? p)%nat then sb p * v p else 0 end)).
  - rewrite Rsum_add, Rsum_delta. f_equal. destruct i as [|p]; [apply Rsum_zero; reflexivity|]. rewrite Rsum_delta. destruct (Nat.ltb_spec p M); [reflexivity|lia].
  - intros k Hk. unfold beside. fold (b i). fold (b k). fold (sb i). fold (sb k). destruct (Nat.eqb_spec k (S i)) as [->|N].
    + destruct i as [|p]; [ring|]. destruct (Nat.eqb_spec (S (S p)) p); [lia|ring].
    + destruct i as [|p]; [cbn; ring|]. destruct (Nat.eqb_spec (S p) (S k)), (Nat.eqb_spec k p); try lia; [subst; ring|ring].
Qed.
Definition scaled (M : nat) (v : nat -> R) (i : nat) : R := if (i <? M)%nat then v i / sqrt (b i) else 0.
Lemma scaled_rec M w v i : (forall i, (i < M)%nat -> Rsum M (fun k => beside a i k * v k) = w * v i) -> (i < M)%nat ->
  scaled M v (S i) = w * b i * scaled M v i - match i with O => 0 | S p => scaled M v p end.
Proof.
  intros E Hi. pose proof (E i Hi) as R. rewrite row in R by exact Hi. pose proof (sqrt_lt_R0 _ (b_pos i)) as S1. pose proof (sqrt_lt_R0 _ (b_pos (S i))) as S2. pose proof (sqrt_sqrt (b i) (Rlt_le _ _ (b_pos i))) as SS.
  assert (T1 : (if (S i <? M)%nat then sb i * v (S i) else 0) = scaled M v (S i) / sqrt (b i)).
  { unfold scaled. destruct (S i <? M)%nat; [rewrite sb_split|]; field; lra. }
  assert (T2 : w * v i = w * b i * scaled M v i / sqrt (b i)). { unfold scaled. destruct (Nat.ltb_spec i M); [|lia]. rewrite <- SS at 1. field. lra. }
  assert (T3 : match i with O => 0 | S p => sb p * v p end = match i with O => 0 | S p => scaled M v p end / sqrt (b i)).
  { destruct i as [|p]; [field; lra|]. unfold scaled. destruct (Nat.ltb_spec p M); [|lia]. rewrite sb_split. pose proof (sqrt_lt_R0 _ (b_pos p)). field. lra. }
  rewrite T1, T2, T3 in R. set (X := scaled M v (S i)) in *. set (Y := match i with O => 0 | S p => scaled M v p end) in *. set (W := w * b i * scaled M v i) in *.
  assert (F : X + Y = W). { apply Rmult_eq_reg_r with (/ sqrt (b i)); [unfold Rdiv in R; rewrite <- R; ring|]. apply Rinv_neq_0_compat. lra. } lra.
Qed.
Lemma scaled_vcomp M w v : (forall i, (i < M)%nat -> Rsum M (fun k => beside a i k * v k) = w * v i) ->
  forall i, (i <= M)%nat -> scaled M v i = scaled M v 0 * vcomp a w i.
Proof.
  intros E i Hi. destruct i as [|i]; [unfold vcomp; cbn; ring|].
  enough (H : scaled M v i = scaled M v 0 * vcomp a w i /\ scaled M v (S i) = scaled M v 0 * vcomp a w (S i)) by apply H.
  induction i as [|i IH].
  - split; [unfold vcomp; cbn; ring|]. rewrite (scaled_rec M w v 0 E) by lia. rewrite vcomp_1. unfold b. cbn [INR]. ring.
  - destruct IH as (H1 & H2); [lia|]. split; [exact H2|]. rewrite (scaled_rec M w v (S i) E) by lia. rewrite vcomp_SS, H1, H2. unfold b. ring.
Qed.
Lemma unscale M v i : (i < M)%nat -> v i = scaled M v i * sqrt (b i).
Proof. intros Hi. unfold scaled. destruct (Nat.ltb_spec i M); [|lia]. pose proof (sqrt_lt_R0 _ (b_pos i)). field. lra. Qed.

Lemma spectrum_roots M l : spectrum M (beside a) l -> (forall j, (j < M)%nat -> vcomp a (nth j l 0) M = 0) /\ NoDup l.
Proof.
  intros (L & v & ON & EV).
  assert (V0 : forall j, (j < M)%nat -> scaled M (v j) 0 <> 0).
  { intros j Hj Z. pose proof (ON j j Hj Hj) as N. rewrite Nat.eqb_refl in N. rewrite (Rsum_zero M) in N; [lra|]. intros i Hi. rewrite (unscale M (v j) i Hi). assert (E : forall i, (i < M)%nat -> Rsum M (fun k => beside a i k * v j k) = nth j l 0 * v j i) by (intros; apply EV; auto). rewrite (scaled_vcomp M (nth j l 0) (v j) E i) by lia. rewrite Z. ring. }
  split.
  - intros j Hj. assert (E : forall i, (i < M)%nat -> Rsum M (fun k => beside a i k * v j k) = nth j l 0 * v j i) by (intros; apply EV; auto).
    pose proof (scaled_vcomp M (nth j l 0) (v j) E M (le_n M)) as S. unfold scaled in S at 1. rewrite Nat.ltb_irrefl in S. symmetry in S. apply Rmult_integral in S. destruct S as [S|S]; [|exact S]. destruct (V0 j Hj S).
  - apply (NoDup_nth l 0). intros j k Hj Hk Ejk. rewrite L in *. destruct (Nat.eq_dec j k) as [|N]; [assumption|exfalso].
    assert (P : forall i, (i < M)%nat -> v j i * scaled M (v k) 0 = v k i * scaled M (v j) 0).
    { intros i Hi. rewrite (unscale M (v j) i Hi), (unscale M (v k) i Hi). rewrite (scaled_vcomp M (nth j l 0) (v j) (fun i Hi => EV j i Hj Hi) i) by lia. rewrite (scaled_vcomp M (nth k l 0) (v k) (fun i Hi => EV k i Hk Hi) i) by lia. rewrite Ejk. ring. }
    pose proof (ON j k Hj Hk) as O. destruct (Nat.eqb_spec j k); [lia|]. pose proof (ON k k Hk Hk) as O'. rewrite Nat.eqb_refl in O'.
    assert (X : Rsum M (fun i => v j i * v k i) * scaled M (v k) 0 = Rsum M (fun i => v k i * v k i) * scaled M (v j) 0) by (rewrite <- !Rsum_scal; apply Rsum_ext; intros i Hi; transitivity (v k i * (v j i * scaled M (v k) 0)); [ring|]; rewrite (P i Hi); ring).
    rewrite O, O' in X. pose proof (V0 j Hj). lra.
Qed.
End Eigen.

(** ** Order and symmetry of the eigenvalues *)
Lemma sorted_unique (l : list R) : forall l', StronglySorted Rgt l -> StronglySorted Rgt l' -> (forall x, In x l <-> In x l') -> l = l'.
Proof.
  induction l as [|x l IH]; intros [|y l'] S1 S2 E; [reflexivity|destruct (proj2 (E y) (or_introl eq_refl))|destruct (proj1 (E x) (or_introl eq_refl))|].
  apply StronglySorted_inv in S1 as (S1 & F1). apply StronglySorted_inv in S2 as (S2 & F2). rewrite Forall_forall in F1, F2.
  assert (x = y) as ->.
  { destruct (proj1 (E x) (or_introl eq_refl)) as [->|I1]; [reflexivity|]. destruct (proj2 (E y) (or_introl eq_refl)) as [->|I2]; [reflexivity|]. pose proof (F1 _ I2). pose proof (F2 _ I1). lra. }
  f_equal. apply IH; auto. intros z. split; intros Hz.
  - destruct (proj1 (E z) (or_intror Hz)) as [<-|]; [|assumption]. pose proof (F1 _ Hz). lra.
  - destruct (proj2 (E z) (or_intror Hz)) as [<-|]; [|assumption]. pose proof (F2 _ Hz). lra.
Qed.
Lemma sorted_nth (l : list R) : (forall i j, (i < j < length l)%nat -> nth i l 0 > nth j l 0) -> StronglySorted Rgt l.
Proof.
  induction l as [|x l IH]; intros H; constructor.
  - apply IH. intros i j Hij. apply (H (S i) (S j)). cbn [length]. lia.
  - apply Forall_forall. intros y Hy. apply (In_nth _ _ 0) in Hy as (j & Hj & <-). apply (H 0%nat (S j)). cbn [length]. lia.
Qed.
Lemma rev_neg_nth (l : list R) j : (j < length l)%nat -> nth j (map Ropp (rev l)) 0 = - nth (length l - 1 - j) l 0.
Proof. intros Hj. replace 0 with (- 0) at 1 by ring. rewrite map_nth, rev_nth by exact Hj. do 2 f_equal. lia. Qed.

Section Order.
Variables (a : R) (M : nat) (l : list R).
Hypotheses (Ha : 0 < a) (SP : spectrum M (beside a) l) (FA : falling l).
Lemma l_len : length l = M. Proof. apply SP. Qed.
Lemma strict i j : (i < j < M)%nat -> nth j l 0 < nth i l 0.
Proof.
  intros Hij. pose proof (FA i j) as F. rewrite l_len in F. specialize (F Hij). destruct F as [F|F]; [exact F|]. exfalso. pose proof (proj1 (NoDup_nth l 0) (proj2 (spectrum_roots a Ha M l SP))) as ND. specialize (ND j i). rewrite l_len in ND. assert (j = i) by (apply ND; [lia|lia|exact F]). lia.
Qed.
Lemma opp_in x : In x l -> In (- x) l.
Proof.
  intros Hx. destruct (in_dec Req_EM_T (- x) l) as [|N]; [assumption|exfalso]. destruct (spectrum_roots a Ha M l SP) as (Z & ND).
  assert (ZZ : forall r, In r l -> vcomp a r M = 0) by (intros r Hr; apply (In_nth _ _ 0) in Hr as (j & Hj & <-); apply Z; rewrite <- l_len; exact Hj).
  apply (deg_few (- x :: l) M (odds a M) (fun w => vcomp a w M)); [pose proof (odds_pos a M Ha); lra|cbn [length]; rewrite l_len; reflexivity|constructor; auto| |apply vcomp_deg].
  intros r [<-|Hr]; [rewrite vcomp_opp, (ZZ x Hx); ring|apply ZZ; exact Hr].
Qed.
Lemma paired j : (j < M)%nat -> nth (M - 1 - j) l 0 = - nth j l 0.
Proof.
  assert (E : l = map Ropp (rev l)).
  { apply sorted_unique.
    - apply sorted_nth. rewrite l_len. intros i k Hik. apply strict. exact Hik.
    - apply sorted_nth. rewrite map_length, rev_length, l_len. intros i k Hik. rewrite !rev_neg_nth by (rewrite l_len; lia). rewrite l_len. pose proof (strict (M - 1 - k) (M - 1 - i)) as S. assert (nth (M - 1 - i) l 0 < nth (M - 1 - k) l 0) by (apply S; lia). lra.
    - intros x. rewrite in_map_iff. setoid_rewrite <- in_rev. split.
      + intros Hx. exists (- x). split; [ring|apply opp_in; exact Hx].
      + intros (y & <- & Hy). apply opp_in. exact Hy. }
  intros Hj. rewrite E at 2. rewrite rev_neg_nth, l_len by (rewrite l_len; exact Hj). ring.
Qed.
Lemma first_positive j : (S (2 * j) < M)%nat -> 0 < nth j l 0.
Proof. intros Hj. pose proof (paired j ltac:(lia)) as P. pose proof (strict j (M - 1 - j)) as S. rewrite P in S. assert (- nth j l 0 < nth j l 0) by (apply S; lia). lra. Qed.
Lemma cont_zero j : (S (2 * j) < M)%nat -> cont a (- / nth j l 0 ^ 2) M = 0.
Proof.
  intros Hj. pose proof (first_positive j Hj) as P. pose proof (proj1 (spectrum_roots a Ha M l SP) j ltac:(lia)) as Z. rewrite vcomp_cont in Z by lra. apply Rmult_integral in Z. destruct Z as [Z|Z]; [|exact Z]. exfalso. apply (pow_nonzero (nth j l 0) M); [lra|exact Z].
Qed.
End Order.

(** ** Continuants as products *)
Lemma cont_deg a k : deg k 1 (fun t => cont a t (2 * k)) /\ deg k (INR (S k) * (a + 2 * INR k)) (fun t => cont a t (S (2 * k))).
Proof.
  induction k as [|k (H1 & H2)].
  - split; [apply (deg_ext _ _ (fun _ => 1)); [reflexivity|apply deg_const]|]. cbn [INR Nat.mul]. replace (1 * (a + 2 * 0)) with a by ring. apply (deg_ext _ _ (fun _ => a)); [intros; rewrite cont_1; reflexivity|apply deg_const].
  - assert (H3 : deg (S k) 1 (fun t => cont a t (2 * S k))).
    { replace (2 * S k)%nat with (S (S (2 * k))) by lia. apply (deg_ext _ _ (fun t => (a + 2 * INR (S (2 * k))) * cont a t (S (2 * k)) + t * cont a t (2 * k))); [intros t; symmetry; apply cont_SS|].
      replace 1 with (0 + 1) by ring. apply deg_add; [|apply deg_x; exact H1]. eapply deg_up, deg_scal, H2. }
    split; [exact H3|]. replace (2 * S k)%nat with (S (S (2 * k))) in * by lia.
    apply (deg_ext _ _ (fun t => (a + 2 * INR (S (S (2 * k)))) * cont a t (S (S (2 * k))) + t * cont a t (S (2 * k)))); [intros t; symmetry; apply cont_SS|].
    replace (INR (S (S k)) * (a + 2 * INR (S k))) with ((a + 2 * INR (S (S (2 * k)))) * 1 + INR (S k) * (a + 2 * INR k)) by (rewrite !S_INR, mult_INR; cbn [INR]; ring).
    apply deg_add; [apply deg_scal; exact H3|apply deg_x; exact H2].
Qed.
Lemma fold_Rprod n (f : nat -> R) x : fold_right (fun r p => (x - r) * p) 1 (map f (seq 0 n)) = Rprod n (fun j => x - f j).
Proof.
  induction n as [|n IH]; [reflexivity|]. rewrite seq_S, map_app, fold_right_app. cbn [map fold_right Rprod plus]. rewrite <- IH. rewrite Rmult_1_r. set (y := x - f n). clearbody y. clear IH. induction (map f (seq 0 n)) as [|z zs IHz]; cbn [fold_right]; [ring|]. rewrite IHz. ring.
Qed.
Lemma squares_differ (x y : R) : 0 < x -> 0 < y -> x <> y -> - / x ^ 2 <> - / y ^ 2.
Proof.
  intros Hx Hy N E. apply N. assert (E' : x ^ 2 = y ^ 2) by (rewrite <- (Rinv_inv (x ^ 2)), <- (Rinv_inv (y ^ 2)); f_equal; lra). nra.
Qed.
Lemma product_of a M l N c : 0 < a -> spectrum M (beside a) l -> falling l -> (2 * N <= M)%nat -> deg N c (fun t => cont a t M) ->
  forall t, cont a t M = c * Rprod N (fun j => t + / nth j l 0 ^ 2).
Proof.
  intros Ha SP FA HN D t. pose proof (first_positive a M l Ha SP FA) as FP. rewrite (deg_roots (map (fun j => - / nth j l 0 ^ 2) (seq 0 N)) N c (fun t => cont a t M)).
  - rewrite fold_Rprod. f_equal. apply Rprod_ext. intros j Hj. ring.
  - rewrite map_length, seq_length. reflexivity.
  - apply (NoDup_nth _ 0). rewrite map_length, seq_length. intros i j Hi Hj E. set (f := fun j => - / nth j l 0 ^ 2) in E. rewrite (nth_indep _ 0 (f 0%nat)) in E by (rewrite map_length, seq_length; exact Hi). rewrite (nth_indep _ 0 (f 0%nat)) in E by (rewrite map_length, seq_length; exact Hj).
    rewrite !map_nth, !seq_nth in E by assumption. cbn [plus] in E. destruct (Nat.eq_dec i j) as [|Nij]; [assumption|exfalso]. revert E. unfold f. apply squares_differ; [apply FP; lia|apply FP; lia|].
    intros E. destruct (Nat.lt_total i j) as [Lt|[Eq|Lt]]; [pose proof (strict a M l Ha SP FA i j ltac:(lia))|lia|pose proof (strict a M l Ha SP FA j i ltac:(lia))]; lra.
  - intros r Hr. apply in_map_iff in Hr as (j & <- & Hj). apply in_seq in Hj. apply (cont_zero a M l Ha SP FA). lia.
  - exact D.
Qed.
Lemma cont_even a N l t : 0 < a -> spectrum (2 * N) (beside a) l -> falling l -> cont a t (2 * N) = Rprod N (fun j => t + / nth j l 0 ^ 2).
Proof. intros Ha SP FA. rewrite (product_of a (2 * N) l N 1 Ha SP FA) by (try lia; apply cont_deg). ring. Qed.
Lemma cont_odd a N l t : 0 < a -> spectrum (S (2 * N)) (beside a) l -> falling l -> cont a t (S (2 * N)) = INR (S N) * (a + 2 * INR N) * Rprod N (fun j => t + / nth j l 0 ^ 2).
Proof. intros Ha SP FA. apply (product_of a (S (2 * N)) l N _ Ha SP FA); [lia|]. apply cont_deg. Qed.
