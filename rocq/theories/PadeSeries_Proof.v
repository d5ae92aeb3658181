(** Proofs: the power series behind the continued fraction of coth and tanh. *)
From Coq Require Import List Arith Lia Reals Lra Bool.
From Verif Require Import CorrX_Spec CorrX_Proof Pade_Spec Pade_Proof.
Import ListNotations.
Local Open Scope R_scope.

Definition ck (a : R) (m k : nat) : R := / (2 ^ k * INR (fact k) * odds a (m + k)).
Lemma ck_pos a m k : 0 < a -> 0 < ck a m k.
Proof. intros Ha. unfold ck. apply Rinv_0_lt_compat. repeat apply Rmult_lt_0_compat; [apply pow_lt; lra|apply INR_fact_lt_0|apply odds_pos; exact Ha]. Qed.
Lemma ck_0 a m : 0 < a -> ck a m 0 = (a + 2 * INR m) * ck a (S m) 0.
Proof.
  intros Ha. unfold ck. rewrite !Nat.add_0_r, odds_S. pose proof (odds_pos a m Ha). pose proof (pos_INR m). cbn [pow fact INR]. field. split; lra.
Qed.
Lemma ck_S a m k : 0 < a -> ck a m (S k) = (a + 2 * INR m) * ck a (S m) (S k) + ck a (S (S m)) k.
Proof.
  intros Ha. unfold ck. replace (S m + S k)%nat with (S (m + S k)) by lia. replace (S (S m) + k)%nat with (S (m + S k)) by lia. rewrite odds_S. rewrite plus_INR. pose proof (odds_pos a (m + S k) Ha) as O. pose proof (pos_INR m). pose proof (pos_INR k).
  rewrite fact_simpl, mult_INR. rewrite !S_INR. pose proof (INR_fact_lt_0 k). pose proof (pow_lt 2 k ltac:(lra)). cbn [pow]. field. repeat split; lra.
Qed.
Definition sg (a : R) (m : nat) (t : R) (n : nat) : R := sum_f_R0 (fun k => ck a m k * t ^ k) n.
Lemma sg_rec a m t n : 0 < a -> sg a m t (S n) = (a + 2 * INR m) * sg a (S m) t (S n) + t * sg a (S (S m)) t n.
Proof.
  intros Ha. unfold sg. induction n as [|n IH].
  - cbn [sum_f_R0]. rewrite ck_0, ck_S by auto. cbn [pow]. ring.
  - rewrite tech5, IH. rewrite (tech5 (fun k => ck a (S m) k * t ^ k) (S n)), (tech5 (fun k => ck a (S (S m)) k * t ^ k) n). rewrite (ck_S a m (S n)) by auto. cbn [pow]. ring.
Qed.
Lemma odds_ge1 a M : 1 <= a -> 1 <= odds a M.
Proof.
  intros Ha. induction M as [|M IH]; [unfold odds; cbn [Rprod]; lra|]. rewrite odds_S. pose proof (pos_INR M). assert (1 * 1 <= odds a M * (a + 2 * INR M)) by (apply Rmult_le_compat; lra). lra.
Qed.
Lemma sg_bounded a m t n : 1 <= a -> 0 <= t -> sg a m t n <= exp t.
Proof.
  intros Ha Ht. apply Rle_trans with (sum_f_R0 (fun i => / INR (fact i) * t ^ i) n).
  - apply sum_Rle. intros k _. apply Rmult_le_compat_r; [apply pow_le; lra|]. unfold ck. pose proof (INR_fact_lt_0 k). apply Rinv_le_contravar; [assumption|].
    pose proof (odds_ge1 a (m + k) Ha). pose proof (pow_R1_Rle 2 k ltac:(lra)) as P2. assert (1 * INR (fact k) <= 2 ^ k * INR (fact k)) by (apply Rmult_le_compat_r; lra). assert (INR (fact k) * 1 <= 2 ^ k * INR (fact k) * odds a (m + k)) by (apply Rmult_le_compat; lra). lra.
  - apply sum_incr; [|intros k; apply Rmult_le_pos; [left; apply Rinv_0_lt_compat; apply INR_fact_lt_0|apply pow_le; lra]]. unfold exp. destruct (exist_exp t) as (l & Hl). cbn [proj1_sig]. exact Hl.
Qed.
Lemma sg_limit a m t : 1 <= a -> 0 <= t -> { l | Un_cv (sg a m t) l }.
Proof.
  intros Ha Ht. apply growing_cv.
  - intros n. unfold sg. cbn [sum_f_R0]. pose proof (ck_pos a m (S n) ltac:(lra)). assert (0 <= ck a m (S n) * t ^ S n) by (apply Rmult_le_pos; [lra|apply pow_le; lra]). lra.
  - exists (exp t). intros x (n & ->). apply sg_bounded; auto.
Qed.
Lemma cv_shift u l : Un_cv u l -> Un_cv (fun n => u (S n)) l.
Proof. intros H eps He. destruct (H eps He) as (N & HN). exists N. intros n Hn. apply HN. lia. Qed.
Lemma cv_const c : Un_cv (fun _ => c) c.
Proof. intros eps He. exists 0%nat. intros n _. unfold R_dist. rewrite Rminus_diag_eq, Rabs_R0 by reflexivity. exact He. Qed.
Lemma cv_ext u v l : (forall n, u n = v n) -> Un_cv u l -> Un_cv v l.
Proof. intros E H eps He. destruct (H eps He) as (N & HN). exists N. intros n Hn. rewrite <- E. apply HN. exact Hn. Qed.

Definition gl (a t : R) (Ha : 1 <= a) (Ht : 0 <= t) (m : nat) : R := proj1_sig (sg_limit a m t Ha Ht).
Lemma gl_cv a t Ha Ht m : Un_cv (sg a m t) (gl a t Ha Ht m).
Proof. unfold gl. destruct (sg_limit a m t Ha Ht) as (l & H). exact H. Qed.
Lemma gl_rec a t Ha Ht m : gl a t Ha Ht m = (a + 2 * INR m) * gl a t Ha Ht (S m) + t * gl a t Ha Ht (S (S m)).
Proof.
  apply UL_sequence with (fun n => sg a m t (S n)); [apply cv_shift, gl_cv|].
  apply cv_ext with (fun n => (a + 2 * INR m) * sg a (S m) t (S n) + t * sg a (S (S m)) t n); [intros n; symmetry; apply sg_rec; lra|].
  apply CV_plus; apply CV_mult; try apply cv_const; [apply (cv_shift (sg a (S m) t))|]; apply gl_cv.
Qed.
Lemma gl_pos a t Ha Ht m : 0 < gl a t Ha Ht m.
Proof.
  pose proof (ck_pos a m 0 ltac:(lra)) as C. apply Rlt_le_trans with (sg a m t 0); [unfold sg; cbn [sum_f_R0 pow]; lra|].
  apply (sum_incr (fun k => ck a m k * t ^ k) 0); [apply gl_cv|]. intros k. pose proof (ck_pos a m k ltac:(lra)). apply Rmult_le_pos; [lra|apply pow_le; lra].
Qed.

(** ** cosh and sinh *)
Lemma ck_cosh k : ck 1 0 k = / INR (fact (2 * k)).
Proof.
  unfold ck. f_equal. rewrite Nat.add_0_l. induction k as [|k IH]; [unfold odds; cbn; ring|].
  replace (2 * S k)%nat with (S (S (2 * k))) by lia. rewrite !fact_simpl, !mult_INR, <- IH, odds_S. rewrite !S_INR, mult_INR. cbn [pow INR]. ring.
Qed.
Lemma ck_sinh k : ck 3 0 k = / INR (fact (2 * k + 1)).
Proof.
  unfold ck. f_equal. rewrite Nat.add_0_l. induction k as [|k IH]; [unfold odds; cbn; ring|].
  replace (2 * S k + 1)%nat with (S (S (2 * k + 1))) by lia. rewrite !fact_simpl, !mult_INR, <- IH, odds_S. rewrite !S_INR, plus_INR, mult_INR. cbn [pow INR]. ring.
Qed.
Lemma odds_13 M : odds 1 (S M) = odds 3 M.
Proof. induction M as [|M IH]; [unfold odds; cbn; ring|]. rewrite odds_S, IH, odds_S, S_INR. ring. Qed.
Lemma ck_13 m k : ck 1 (S m) k = ck 3 m k.
Proof. unfold ck. cbn [plus]. rewrite odds_13. reflexivity. Qed.
Definition es (z : R) (n : nat) : R := sum_f_R0 (fun i => / INR (fact i) * z ^ i) n.
Lemma es_cv z : Un_cv (es z) (exp z).
Proof. unfold exp. destruct (exist_exp z) as (l & H). exact H. Qed.
Lemma es_odd z : Un_cv (fun n => es z (2 * n + 1)) (exp z).
Proof. intros eps He. destruct (es_cv z eps He) as (N & HN). exists N. intros n Hn. apply HN. lia. Qed.
Lemma pow_opp_even z k : (- z) ^ (2 * k) = z ^ (2 * k).
Proof. rewrite !pow_mult. f_equal. ring. Qed.
Lemma es_even z n : es z (2 * n + 1) + es (- z) (2 * n + 1) = 2 * sg 1 0 (z ^ 2) n.
Proof.
  unfold es, sg. induction n as [|n IH].
  - cbn [Nat.mul Nat.add sum_f_R0]. rewrite ck_cosh. cbn. field.
  - replace (2 * S n + 1)%nat with (S (S (2 * n + 1))) by lia. rewrite !tech5.
    match goal with |- ?a + ?b + ?c + (?d + ?e + ?f) = _ => transitivity ((a + d) + (b + c + e + f)); [ring|] end. rewrite IH. rewrite ck_cosh. replace (S (2 * n + 1)) with (2 * S n)%nat by lia. rewrite pow_opp_even. rewrite <- pow_mult.
    change ((- z) ^ S (2 * S n)) with (- z * (- z) ^ (2 * S n)). rewrite pow_opp_even. change (z ^ S (2 * S n)) with (z * z ^ (2 * S n)). ring.
Qed.
Lemma es_sub z n : es z (2 * n + 1) - es (- z) (2 * n + 1) = 2 * (z * sg 3 0 (z ^ 2) n).
Proof.
  unfold es, sg. induction n as [|n IH].
  - cbn [Nat.mul Nat.add sum_f_R0]. rewrite ck_sinh. cbn. field.
  - replace (2 * S n + 1)%nat with (S (S (2 * n + 1))) by lia. rewrite !tech5.
    match goal with |- ?a + ?b + ?c - (?d + ?e + ?f) = _ => transitivity ((a - d) + (b + c - e - f)); [ring|] end. rewrite IH. rewrite ck_sinh. replace (S (2 * n + 1)) with (2 * S n)%nat by lia. rewrite pow_opp_even. rewrite <- pow_mult.
    change ((- z) ^ S (2 * S n)) with (- z * (- z) ^ (2 * S n)). rewrite pow_opp_even. change (z ^ S (2 * S n)) with (z * z ^ (2 * S n)). replace (2 * S n + 1)%nat with (S (2 * S n)) by lia. ring.
Qed.
Lemma gl_cosh z H1 Ht : gl 1 (z ^ 2) H1 Ht 0 = (exp z + exp (- z)) / 2.
Proof.
  apply UL_sequence with (sg 1 0 (z ^ 2)); [apply gl_cv|]. apply cv_ext with (fun n => (es z (2 * n + 1) + es (- z) (2 * n + 1)) * / 2); [intros n; rewrite es_even; field|].
  unfold Rdiv. apply CV_mult; [|apply cv_const]. apply CV_plus; apply es_odd.
Qed.
Lemma gl_sinh z H3 Ht : z * gl 3 (z ^ 2) H3 Ht 0 = (exp z - exp (- z)) / 2.
Proof.
  apply UL_sequence with (fun n => z * sg 3 0 (z ^ 2) n); [apply CV_mult; [apply cv_const|apply gl_cv]|]. apply cv_ext with (fun n => (es z (2 * n + 1) - es (- z) (2 * n + 1)) * / 2); [intros n; rewrite es_sub; field|].
  unfold Rdiv. apply CV_mult; [|apply cv_const]. apply CV_minus; apply es_odd.
Qed.
Lemma gl_13 t H1 H3 Ht m : gl 1 t H1 Ht (S m) = gl 3 t H3 Ht m.
Proof.
  apply UL_sequence with (sg 1 (S m) t); [apply gl_cv|]. apply cv_ext with (sg 3 m t); [|apply gl_cv]. intros n. unfold sg. apply sum_eq. intros k _. rewrite ck_13. reflexivity.
Qed.

(** ** The two functions *)
Lemma bose_series x Ht (H3 : 1 <= 3) : x <> 0 -> let g := gl 3 ((x / 2) ^ 2) H3 Ht in bose x = 1 / x + 1 / 2 + x / 4 * (g 1%nat / g 0%nat).
Proof.
  intros Hx g. assert (H1 : 1 <= 1) by lra. pose proof (gl_rec 1 ((x / 2) ^ 2) H1 Ht 0) as G. rewrite gl_cosh, (gl_13 _ H1 H3), (gl_13 _ H1 H3) in G. fold g in G. cbn [INR] in G.
  pose proof (gl_sinh (x / 2) H3 Ht) as Sh. fold g in Sh. pose proof (gl_pos 3 ((x / 2) ^ 2) H3 Ht 0) as P. fold g in P.
  unfold bose. set (e := exp (x / 2)) in *. set (e' := exp (- (x / 2))) in *.
  assert (EE : e * e' = 1) by (unfold e, e'; rewrite <- exp_plus; replace (x / 2 + - (x / 2)) with 0 by field; apply exp_0).
  assert (Ex : exp (- x) = e' * e') by (unfold e'; rewrite <- exp_plus; f_equal; field). rewrite Ex.
  assert (Pe : 0 < e) by apply exp_pos. assert (Pe' : 0 < e') by apply exp_pos. clearbody e e' g. clear Ex.
  assert (Ed : e - e' <> 0) by (intros Z; assert (x / 2 * g 0%nat = 0) by lra; apply Rmult_integral in H; destruct H; lra).
  assert (L : 1 / (1 - e' * e') = e / (e - e')).
  { assert (1 - e' * e' = e' * (e - e')) as -> by (rewrite Rmult_minus_distr_l, (Rmult_comm e' e), EE; reflexivity). replace (e / (e - e')) with (e * e' / (e' * (e - e'))) by (field; split; lra). rewrite EE. reflexivity. }
  rewrite L. assert (Eg : e - e' = x * g 0%nat) by lra. assert (Eh : e = e' + x * g 0%nat) by lra. rewrite Eg.
  assert (G1 : (x / 2) ^ 2 * g 1%nat = (e + e') / 2 - g 0%nat) by lra. 
  assert (X2 : x / 4 * (g 1%nat / g 0%nat) = (x / 2) ^ 2 * g 1%nat / (x * g 0%nat)) by (field; split; lra). rewrite X2, G1, Eh. field. split; lra.
Qed.
Lemma fermi_series x Ht (H1 : 1 <= 1) : let g := gl 1 ((x / 2) ^ 2) H1 Ht in fermi x = 1 / 2 - x / 4 * (g 1%nat / g 0%nat).
Proof.
  intros g. assert (H3 : 1 <= 3) by lra. unfold g. rewrite (gl_13 _ H1 H3). pose proof (gl_sinh (x / 2) H3 Ht) as Sh. pose proof (gl_cosh (x / 2) H1 Ht) as Ch. pose proof (gl_pos 1 ((x / 2) ^ 2) H1 Ht 0) as P.
  set (g0 := gl 1 ((x / 2) ^ 2) H1 Ht 0) in *. set (g1 := gl 3 ((x / 2) ^ 2) H3 Ht 0) in *. unfold fermi. set (e := exp (x / 2)) in *. set (e' := exp (- (x / 2))) in *.
  assert (EE : e * e' = 1) by (unfold e, e'; rewrite <- exp_plus; replace (x / 2 + - (x / 2)) with 0 by field; apply exp_0).
  assert (Ex : exp x = e * e) by (unfold e; rewrite <- exp_plus; f_equal; field). rewrite Ex. assert (Pe : 0 < e) by apply exp_pos. assert (Pe' : 0 < e') by apply exp_pos. clearbody e e' g0 g1. clear Ex.
  assert (L : 1 / (e * e + 1) = e' / (e + e')).
  { assert (e * e + 1 = e * (e + e')) as -> by (rewrite Rmult_plus_distr_l, EE; reflexivity). replace (e' / (e + e')) with (e * e' / (e * (e + e'))) by (field; split; lra). rewrite EE. reflexivity. }
  rewrite L. rewrite Ch. assert (X : x / 4 * (g1 / ((e + e') / 2)) = x / 2 * g1 / (e + e')) by (field; lra). rewrite X, Sh. field. lra.
Qed.
Lemma sq_nonneg x : 0 <= (x / 2) ^ 2. Proof. rewrite <- Rsqr_pow2. apply Rle_0_sqr. Qed.
Lemma cut_split a M x : cut a M x = Rabs x / 4 * ((x ^ 2 / 4) ^ M / (odds a M * odds a (S M))).
Proof. unfold cut, Rdiv. ring. Qed.
Lemma bose_error M x : x <> 0 -> Rabs (bose x - (1 / x + 1 / 2 + x / 4 * frac 3 M (x ^ 2 / 4))) <= cut 3 M x.
Proof.
  intros Hx. assert (H3 : 1 <= 3) by lra. rewrite (bose_series x (sq_nonneg x) H3 Hx). set (g := gl 3 ((x / 2) ^ 2) H3 (sq_nonneg x)).
  replace (1 / x + 1 / 2 + x / 4 * (g 1%nat / g 0%nat) - (1 / x + 1 / 2 + x / 4 * frac 3 M (x ^ 2 / 4))) with (x / 4 * (g 1%nat / g 0%nat - frac 3 M (x ^ 2 / 4))) by ring.
  rewrite Rabs_mult. rewrite cut_split. replace (Rabs (x / 4)) with (Rabs x / 4) by (unfold Rdiv; rewrite Rabs_mult, (Rabs_right (/ 4)) by lra; reflexivity). apply Rmult_le_compat_l; [pose proof (Rabs_pos x); lra|].
  replace (x ^ 2 / 4) with ((x / 2) ^ 2) by field. apply frac_error; [lra|apply sq_nonneg|intros m; left; apply gl_pos|apply gl_pos|intros m; apply gl_rec].
Qed.
Lemma fermi_error M x : Rabs (fermi x - (1 / 2 - x / 4 * frac 1 M (x ^ 2 / 4))) <= cut 1 M x.
Proof.
  assert (H1 : 1 <= 1) by lra. rewrite (fermi_series x (sq_nonneg x) H1). set (g := gl 1 ((x / 2) ^ 2) H1 (sq_nonneg x)).
  replace (1 / 2 - x / 4 * (g 1%nat / g 0%nat) - (1 / 2 - x / 4 * frac 1 M (x ^ 2 / 4))) with (- (x / 4 * (g 1%nat / g 0%nat - frac 1 M (x ^ 2 / 4)))) by ring.
  rewrite Rabs_Ropp, Rabs_mult. rewrite cut_split. replace (Rabs (x / 4)) with (Rabs x / 4) by (unfold Rdiv; rewrite Rabs_mult, (Rabs_right (/ 4)) by lra; reflexivity). apply Rmult_le_compat_l; [pose proof (Rabs_pos x); lra|].
  replace (x ^ 2 / 4) with ((x / 2) ^ 2) by field. apply frac_error; [lra|apply sq_nonneg|intros m; left; apply gl_pos|apply gl_pos|intros m; apply gl_rec].
Qed.

(** The cut-off part vanishes as the fraction gets longer *)
Lemma odds_fact a M : 1 <= a -> INR (fact M) <= odds a M.
Proof.
  intros Ha. induction M as [|M IH]; [unfold odds; cbn; lra|]. rewrite odds_S, fact_simpl, mult_INR, S_INR. pose proof (pos_INR M). pose proof (INR_fact_lt_0 M). rewrite Rmult_comm. apply Rmult_le_compat; lra.
Qed.
Lemma cut_limit a x : 1 <= a -> Un_cv (fun M => cut a M x) 0.
Proof.
  intros Ha eps He. pose proof (cv_speed_pow_fact (x ^ 2 / 4)) as C. assert (X0 : 0 <= x ^ 2 / 4) by (rewrite <- Rsqr_pow2; pose proof (Rle_0_sqr x); lra). pose proof (Rabs_pos x) as XP.
  destruct (C (eps / (Rabs x / 4 + 1))) as (N & HN); [apply Rdiv_lt_0_compat; lra|]. exists N. intros M HM. specialize (HN M HM). unfold R_dist in *. rewrite Rminus_0_r in *.
  pose proof (INR_fact_lt_0 M) as FP. pose proof (odds_fact a M Ha) as OF. pose proof (odds_ge1 a (S M) Ha) as O1. pose proof (pow_le _ M X0) as PP.
  assert (Q0 : 0 <= (x ^ 2 / 4) ^ M / INR (fact M)) by (apply Rmult_le_pos; [exact PP|left; apply Rinv_0_lt_compat; exact FP]). rewrite Rabs_right in HN by lra.
  assert (B : cut a M x <= Rabs x / 4 * ((x ^ 2 / 4) ^ M / INR (fact M))).
  { rewrite cut_split. apply Rmult_le_compat_l; [lra|]. apply Rmult_le_compat_l; [exact PP|]. apply Rinv_le_contravar; [exact FP|]. assert (INR (fact M) * 1 <= odds a M * odds a (S M)) by (apply Rmult_le_compat; lra). lra. }
  assert (B0 : 0 <= cut a M x) by (unfold cut; apply Rmult_le_pos; [apply Rmult_le_pos; [lra|exact PP]|left; apply Rinv_0_lt_compat; apply Rmult_lt_0_compat; apply odds_pos; lra]).
  rewrite Rabs_right by lra. apply Rle_lt_trans with (1 := B). apply Rle_lt_trans with ((Rabs x / 4 + 1) * ((x ^ 2 / 4) ^ M / INR (fact M))); [apply Rmult_le_compat_r; lra|].
  apply Rmult_lt_reg_r with (/ (Rabs x / 4 + 1)); [apply Rinv_0_lt_compat; lra|]. replace ((Rabs x / 4 + 1) * ((x ^ 2 / 4) ^ M / INR (fact M)) * / (Rabs x / 4 + 1)) with ((x ^ 2 / 4) ^ M / INR (fact M)) by (field; lra). exact HN.
Qed.
