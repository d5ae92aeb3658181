(** Proofs: the partial fractions of coth, tanh and of the Bose and Fermi functions. *)
From Coq Require Import List Arith Lia Reals Lra.
From Verif Require Import CorrX_Spec CorrX_Proof Pade_Spec.
Import ListNotations.
Local Open Scope R_scope.

(** ** Finite sums *)
Lemma Rsum_split n m f : Rsum (n + m) f = Rsum n f + Rsum m (fun i => f (n + i)%nat).
Proof. induction m as [|m IH]; [rewrite Nat.add_0_r; cbn [Rsum]; ring|]. rewrite Nat.add_succ_r. cbn [Rsum]. rewrite IH. ring. Qed.
Lemma Rsum_first n f : Rsum (S n) f = f 0%nat + Rsum n (fun i => f (S i)).
Proof. change (S n) with (1 + n)%nat. rewrite Rsum_split. cbn [Rsum Nat.add]. ring. Qed.
Lemma Rsum_rev n f : Rsum n (fun i => f (n - 1 - i)%nat) = Rsum n f.
Proof.
  induction n as [|n IH]; [reflexivity|]. rewrite Rsum_first. cbn [Rsum]. rewrite <- IH. replace (S n - 1 - 0)%nat with n by lia. rewrite Rplus_comm. f_equal. apply Rsum_ext. intros i Hi. f_equal. lia.
Qed.
Lemma Rsum_le n f g : (forall i, (i < n)%nat -> f i <= g i) -> Rsum n f <= Rsum n g.
Proof. induction n as [|n IH]; intros H; [cbn; lra|]. cbn [Rsum]. apply Rplus_le_compat; [apply IH; intros; apply H; lia|apply H; lia]. Qed.
Lemma Rsum_nonneg n f : (forall i, (i < n)%nat -> 0 <= f i) -> 0 <= Rsum n f.
Proof. induction n as [|n IH]; intros H; [cbn; lra|]. cbn [Rsum]. apply Rplus_le_le_0_compat; [apply IH; intros; apply H; lia|apply H; lia]. Qed.
Lemma mirror h f : (forall k, (1 <= k <= h)%nat -> f (2 * S h - k)%nat = f k) -> Rsum (2 * S h) f = f 0%nat + f (S h) + 2 * Rsum h (fun k => f (S k)).
Proof.
  intros H. replace (2 * S h)%nat with (S h + S h)%nat at 1 by lia. rewrite Rsum_split, !Rsum_first, Nat.add_0_r.
  assert (E : Rsum h (fun i => f (S h + S i)%nat) = Rsum h (fun k => f (S k))).
  { rewrite <- (Rsum_rev h (fun k => f (S k))). apply Rsum_ext. intros i Hi. rewrite <- (H (S (h - 1 - i))) by lia. f_equal. lia. }
  rewrite E. ring.
Qed.
(** [1 / k^2] beyond [M] *)
Lemma squares_tail M m : (1 <= M)%nat -> Rsum m (fun i => 1 / INR (M + S i) ^ 2) <= 1 / INR M - 1 / INR (M + m).
Proof.
  intros HM. assert (P : 0 < INR M) by (apply lt_0_INR; lia). induction m as [|m IH]; [rewrite Nat.add_0_r; cbn [Rsum]; lra|]. cbn [Rsum].
  apply Rle_trans with (1 / INR M - 1 / INR (M + m) + 1 / INR (M + S m) ^ 2); [lra|]. rewrite Nat.add_succ_r, S_INR. assert (Q : 0 < INR (M + m)) by (apply lt_0_INR; lia). set (q := INR (M + m)) in *.
  assert (1 / (q + 1) ^ 2 <= 1 / q - 1 / (q + 1)); [|lra]. replace (1 / q - 1 / (q + 1)) with (1 / (q * (q + 1))) by (field; lra). apply Rmult_le_compat_l; [lra|]. apply Rinv_le_contravar; nra.
Qed.

(** ** The function [Re coth (a + i b)] *)
Lemma cosh2 a : cosh a ^ 2 = sinh a ^ 2 + 1.
Proof. unfold cosh, sinh. rewrite exp_Ropp. pose proof (exp_pos a). field. lra. Qed.
Lemma sinh_dbl a : sinh (2 * a) = 2 * sinh a * cosh a.
Proof. unfold cosh, sinh. replace (2 * a) with (a + a) by ring. rewrite Ropp_plus_distr, !exp_plus. field. Qed.
Lemma cosh_dbl a : cosh (2 * a) = 2 * sinh a ^ 2 + 1.
Proof. unfold cosh, sinh. replace (2 * a) with (a + a) by ring. rewrite Ropp_plus_distr, !exp_plus, exp_Ropp. pose proof (exp_pos a). field. lra. Qed.
Lemma sinh_pos a : 0 < a -> 0 < sinh a.
Proof. intros H. rewrite <- sinh_0. apply sinh_lt. exact H. Qed.
Lemma cosh_pos a : 0 < cosh a.
Proof. unfold cosh. pose proof (exp_pos a). pose proof (exp_pos (- a)). lra. Qed.
Definition psi (a b : R) : R := sinh a * cosh a / (sinh a ^ 2 + sin b ^ 2).
Lemma psi_half a b : 0 < a -> psi (2 * a) (2 * b) = / 2 * (psi a b + psi a (b + PI / 2)).
Proof.
  intros H. unfold psi. replace (sin (b + PI / 2)) with (cos b) by (rewrite Rplus_comm, <- cos_sin; reflexivity). rewrite sinh_dbl, cosh_dbl, sin_2a. pose proof (sinh_pos a H) as P. pose proof (cosh2 a) as C. pose proof (sin2_cos2 b) as T. unfold Rsqr in T.
  set (s := sinh a) in *. set (c := cosh a) in *. set (u := sin b) in *. set (v := cos b) in *. assert (0 < s ^ 2) by (apply pow_lt; exact P). assert (D1 : 0 < s ^ 2 + u ^ 2) by nra. assert (D2 : 0 < s ^ 2 + v ^ 2) by nra.
  assert (D : (2 * s * c) ^ 2 + (2 * u * v) ^ 2 = 4 * ((s ^ 2 + u ^ 2) * (s ^ 2 + v ^ 2))) by (replace ((2 * s * c) ^ 2) with (4 * s ^ 2 * c ^ 2) by ring; rewrite C; replace (s ^ 2 + 1) with (s ^ 2 + (u * u + v * v)) by (rewrite T; reflexivity); ring).
  rewrite D. replace (2 * s ^ 2 + 1) with ((s ^ 2 + u ^ 2) + (s ^ 2 + v ^ 2)) by (rewrite <- T; ring). field. split; lra.
Qed.
Lemma psi_sum n x b : 0 < x -> Rsum (2 ^ n) (fun k => psi (x / 2 ^ n) ((b + PI * INR k) / 2 ^ n)) = 2 ^ n * psi x b.
Proof.
  intros Hx. induction n as [|n IH].
  - cbn [Nat.pow Rsum INR pow]. unfold Rdiv. rewrite Rinv_1, Rmult_0_r, Rplus_0_r, !Rmult_1_r. ring.
  - assert (P2 : 0 < 2 ^ n) by (apply pow_lt; lra). rewrite <- tech_pow_Rmult, Rmult_assoc, <- IH. replace (2 ^ S n)%nat with (2 ^ n + 2 ^ n)%nat by (cbn [Nat.pow]; lia). rewrite Rsum_split, <- Rsum_add. rewrite (Rmult_comm 2 (Rsum _ _)), <- Rsum_scal. apply Rsum_ext. intros k Hk.
    replace (x / 2 ^ n) with (2 * (x / (2 * 2 ^ n))) by (field; lra). replace ((b + PI * INR k) / 2 ^ n) with (2 * ((b + PI * INR k) / (2 * 2 ^ n))) by (field; lra). rewrite psi_half by (apply Rdiv_lt_0_compat; lra).
    replace ((b + PI * INR (2 ^ n + k)) / (2 * 2 ^ n)) with ((b + PI * INR k) / (2 * 2 ^ n) + PI / 2) by (rewrite plus_INR, pow_INR; change (INR 2) with 2; field; lra). field.
Qed.
Definition coth (x : R) : R := cosh x / sinh x.
Lemma psi_0 a : 0 < a -> psi a 0 = coth a.
Proof. intros H. unfold psi, coth. rewrite sin_0. pose proof (sinh_pos a H). field. lra. Qed.
Lemma psi_mid a : 0 < a -> psi a (PI / 2) = tanh a.
Proof. intros H. unfold psi, tanh. rewrite sin_PI2. pose proof (cosh2 a) as C. pose proof (cosh_pos a). replace (sinh a ^ 2 + 1 ^ 2) with (cosh a ^ 2) by lra. field. lra. Qed.

(** the terms belonging to [u = 1 / 2^(n+1)] *)
Definition step (n : nat) : R := / (2 * 2 ^ n).
Definition tau (x u : R) (k : nat) : R := 2 * u * psi (x * u) (PI * INR k * u).
Lemma coth_sum n x : 0 < x -> coth x = step n * (coth (x * step n) + tanh (x * step n)) + Rsum (2 ^ n - 1) (fun k => tau x (step n) (S k)).
Proof.
  intros Hx. assert (P2 : 0 < 2 ^ n) by (apply pow_lt; lra). assert (PS : 0 < step n) by (apply Rinv_0_lt_compat; lra). pose proof (psi_sum (S n) x 0 Hx) as E. rewrite psi_0 in E by exact Hx.
  assert (Hh : exists h, (2 ^ n)%nat = S h) by (assert (2 ^ n <> 0)%nat by (apply Nat.pow_nonzero; lia); exists (2 ^ n - 1)%nat; lia). destruct Hh as (h & Hh). assert (HI : 2 ^ n = INR h + 1) by (rewrite <- S_INR, <- Hh, pow_INR; reflexivity).
  replace (2 ^ S n)%nat with (2 * S h)%nat in E by (cbn [Nat.pow]; lia). assert (Q : forall b, (0 + b) / 2 ^ S n = b * step n) by (intros b; unfold step; rewrite <- tech_pow_Rmult; field; lra).
  rewrite (Rsum_ext _ _ (fun k => psi (x * step n) (PI * INR k * step n))) in E by (intros; rewrite Q; f_equal; unfold step; rewrite <- tech_pow_Rmult; reflexivity).
  rewrite mirror in E.
  - assert (E' : coth x = step n * (2 ^ S n * coth x)) by (unfold step; rewrite <- tech_pow_Rmult; field; lra). rewrite E', <- E. replace (2 ^ n - 1)%nat with h by lia. rewrite (Rsum_ext h (fun k => tau x (step n) (S k)) (fun k => psi (x * step n) (PI * INR (S k) * step n) * (2 * step n))) by (intros; unfold tau; ring). rewrite Rsum_scal.
    replace (PI * INR 0 * step n) with 0 by (cbn [INR]; ring). replace (PI * INR (S h) * step n) with (PI / 2) by (unfold step; rewrite HI, S_INR; field; pose proof (pos_INR h); lra). rewrite psi_0, psi_mid by (apply Rmult_lt_0_compat; assumption). ring.
  - intros k Hk. unfold psi. replace (sin (PI * INR (2 * S h - k) * step n)) with (sin (PI * INR k * step n)); [reflexivity|]. rewrite <- (sin_PI_x (PI * INR k * step n)). apply (f_equal sin). rewrite minus_INR, mult_INR, (S_INR h) by lia. change (INR 2) with 2. unfold step. rewrite HI. field. pose proof (pos_INR h). lra.
Qed.

(** ** Bounds on a term *)
Lemma sin_third y : 0 <= y <= PI / 2 -> y / 3 <= sin y.
Proof.
  intros [P U]. pose proof PI_4. destruct (sin_bound y 0 P ltac:(lra)) as (L & _). unfold sin_approx, sin_term in L. cbn [sum_f_R0 Nat.mul Nat.add fact pow INR] in L. 
  assert (Y : y * y <= 4) by nra. apply Rle_trans with (2 := L). field_simplify. nra.
Qed.
Lemma tau_nonneg x u k : 0 < x -> 0 < u -> 0 <= tau x u k.
Proof.
  intros Hx Hu. unfold tau, psi. pose proof (sinh_pos (x * u) ltac:(nra)). pose proof (cosh_pos (x * u)). assert (0 <= sin (PI * INR k * u) ^ 2) by apply pow2_ge_0. assert (0 < sinh (x * u) ^ 2) by (apply pow_lt; assumption).
  apply Rmult_le_pos; [lra|]. apply Rlt_le, Rdiv_lt_0_compat; [apply Rmult_lt_0_compat; assumption|lra].
Qed.
Lemma tau_le x u k : 0 < x -> 0 < u -> (1 <= k)%nat -> INR k * u <= 1 / 2 -> tau x u k <= 2 / u * (sinh (x * u) * cosh (x * u)) * (1 / INR k ^ 2).
Proof.
  intros Hx Hu Hk Hb. assert (K : 1 <= INR k) by (change 1 with (INR 1); apply le_INR; exact Hk). pose proof PI2_3_2 as P3. pose proof (sinh_pos (x * u) ltac:(nra)) as PS. pose proof (cosh_pos (x * u)) as PC.
  assert (Z : INR k * u <= sin (PI * INR k * u)). { pose proof (sin_third (PI * INR k * u)) as T. assert (0 < INR k * u) by nra. replace (PI * INR k * u) with (PI * (INR k * u)) in * by ring. set (z := INR k * u) in *. assert (0 <= PI * z <= PI / 2) by (split; nra). specialize (T H0). nra. }
  assert (0 < INR k * u) by nra. unfold tau, psi. set (s := sinh (x * u)) in *. set (c := cosh (x * u)) in *. set (y := sin (PI * INR k * u)) in *. set (z := INR k * u) in *.
  replace (2 / u * (s * c) * (1 / INR k ^ 2)) with (2 * u * (s * c) * / z ^ 2) by (unfold z; field; split; lra). unfold Rdiv. rewrite <- Rmult_assoc. apply Rmult_le_compat_l; [apply Rmult_le_pos; [lra|]; apply Rlt_le, Rmult_lt_0_compat; assumption|].
  apply Rinv_le_contravar; [apply pow_lt; assumption|]. assert (0 <= s ^ 2) by apply pow2_ge_0. nra.
Qed.

(** ** The limit *)
Lemma limit_le f (D : R -> Prop) l c : limit1_in f D l 0 -> adhDa D 0 -> (forall u, D u -> f u <= c) -> l <= c.
Proof.
  intros L A H. destruct (Rle_dec l c) as [|N]; [assumption|exfalso]. destruct (L (l - c) ltac:(lra)) as (d & Pd & Hd). destruct (A d Pd) as (u & Du & Ru). specialize (Hd u (conj Du Ru)). cbn in Hd. unfold R_dist in Hd. specialize (H u Du). unfold Rabs in Hd. destruct (Rcase_abs (f u - l)); lra.
Qed.
Lemma limit_const c D : limit1_in (fun _ => c) D c 0.
Proof. intros e He. exists 1. split; [lra|]. intros. cbn. unfold R_dist. rewrite Rminus_diag_eq, Rabs_R0 by reflexivity. exact He. Qed.
Lemma limit_ratio f l (D : R -> Prop) : (forall u, D u -> u <> 0) -> f 0 = 0 -> derivable_pt_lim f 0 l -> limit1_in (fun u => f u / u) D l 0.
Proof.
  intros N Z H e He. destruct (H e He) as (d & Hd). exists d. split; [apply cond_pos|]. intros u (Du & Ru). cbn in *. unfold R_dist in *. rewrite Rminus_0_r in Ru. specialize (Hd u (N u Du) Ru). rewrite Rplus_0_l, Z, Rminus_0_r in Hd. exact Hd.
Qed.
Lemma limit_ext f g (D : R -> Prop) l : (forall u, D u -> f u = g u) -> limit1_in f D l 0 -> limit1_in g D l 0.
Proof. intros E H e He. destruct (H e He) as (d & P & Hd). exists d. split; [exact P|]. intros u (Du & Ru). rewrite <- E by exact Du. apply Hd. split; assumption. Qed.
Lemma derive_scaled f l c : derivable_pt_lim f 0 l -> derivable_pt_lim (fun u => f (c * u)) 0 (c * l).
Proof.
  intros H. assert (E : derivable_pt_lim (comp f (mult_real_fct c id)) 0 (l * (c * 1))).
  { apply derivable_pt_lim_comp; [apply derivable_pt_lim_scal, derivable_pt_lim_id|]. unfold mult_real_fct, id. rewrite Rmult_0_r. exact H. }
  rewrite Rmult_1_r, Rmult_comm in E. exact E.
Qed.
Lemma limit_cosh c D : limit1_in (fun u => cosh (c * u)) D 1 0.
Proof.
  assert (C : continuity_pt (fun u => cosh (c * u)) 0) by (apply derivable_continuous_pt; exists (c * sinh 0); apply derive_scaled, derivable_pt_lim_cosh).
  intros e He. destruct (C e He) as (d & P & Hd). exists d. split; [exact P|]. intros u (_ & Ru). cbn in *. destruct (Req_dec u 0) as [->|N]; [rewrite Rmult_0_r, cosh_0; unfold R_dist; rewrite Rminus_diag_eq, Rabs_R0 by reflexivity; exact He|].
  specialize (Hd u). rewrite Rmult_0_r, cosh_0 in Hd. apply Hd. split; [|exact Ru]. split; [exact I|]. intros E. apply N. symmetry. exact E.
Qed.
Section Limit.
Variables (x : R) (D : R -> Prop).
Hypothesis Hx : 0 < x.
Hypothesis HD : forall u, D u -> 0 < u.
Lemma lim_sinh : limit1_in (fun u => sinh (x * u) / u) D x 0.
Proof. assert (E : limit1_in (fun u => sinh (x * u) / u) D (x * cosh 0) 0); [|rewrite cosh_0, Rmult_1_r in E; exact E]. apply (limit_ratio (fun u => sinh (x * u))); [intros u Du; specialize (HD u Du); lra|rewrite Rmult_0_r; apply sinh_0|apply derive_scaled, derivable_pt_lim_sinh]. Qed.
Lemma lim_sin c : limit1_in (fun u => sin (c * u) / u) D c 0.
Proof. assert (E : limit1_in (fun u => sin (c * u) / u) D (c * cos 0) 0); [|rewrite cos_0, Rmult_1_r in E; exact E]. apply (limit_ratio (fun u => sin (c * u))); [intros u Du; specialize (HD u Du); lra|rewrite Rmult_0_r; apply sin_0|apply derive_scaled, derivable_pt_lim_sin]. Qed.
Lemma lim_id : limit1_in (fun u => u) D 0 0.
Proof. intros e He. exists e. split; [exact He|]. intros u (_ & R). exact R. Qed.
Lemma lim_coth : limit1_in (fun u => u * coth (x * u)) D (1 / x) 0.
Proof.
  apply (limit_ext (fun u => cosh (x * u) * / (sinh (x * u) / u))).
  - intros u Du. specialize (HD u Du). pose proof (sinh_pos (x * u) ltac:(nra)). unfold coth. field. split; lra.
  - apply limit_mul; [apply limit_cosh|]. apply limit_inv; [apply lim_sinh|lra].
Qed.
Lemma lim_tanh : limit1_in (fun u => u * tanh (x * u)) D 0 0.
Proof.
  apply (limit_ext (fun u => (u * u) * ((sinh (x * u) / u) * / cosh (x * u)))).
  - intros u Du. specialize (HD u Du). pose proof (cosh_pos (x * u)). unfold tanh. field. split; lra.
  - assert (E : limit1_in (fun u => (u * u) * ((sinh (x * u) / u) * / cosh (x * u))) D ((0 * 0) * (x * / 1)) 0); [|rewrite !Rmult_0_l in E; exact E]. apply limit_mul; [apply limit_mul; apply lim_id|]. apply limit_mul; [apply lim_sinh|]. apply limit_inv; [apply limit_cosh|lra].
Qed.
Lemma lim_tau k : limit1_in (fun u => tau x u k) D (2 * x / (x ^ 2 + (PI * INR k) ^ 2)) 0.
Proof.
  set (c := PI * INR k). assert (0 < x ^ 2 + c ^ 2) by (assert (0 < x ^ 2) by (apply pow_lt; exact Hx); pose proof (pow2_ge_0 c); lra).
  apply (limit_ext (fun u => 2 * ((sinh (x * u) / u) * cosh (x * u)) * / ((sinh (x * u) / u) * (sinh (x * u) / u) + (sin (c * u) / u) * (sin (c * u) / u)))).
  - intros u Du. specialize (HD u Du). pose proof (sinh_pos (x * u) ltac:(nra)) as PS. unfold tau, psi. fold c. set (s := sinh (x * u)) in *. set (y := sin (c * u)). assert (0 < s ^ 2) by (apply pow_lt; exact PS). pose proof (pow2_ge_0 y). assert (s ^ 2 + y ^ 2 <> 0) by lra. field. repeat split; try lra; intros Q; nra.
  - replace (2 * x / (x ^ 2 + c ^ 2)) with (2 * (x * 1) * / (x * x + c * c)) by (unfold Rdiv; do 2 f_equal; ring). apply limit_mul; [apply limit_mul; [apply limit_const|]; apply limit_mul; [apply lim_sinh|apply limit_cosh]|].
    apply limit_inv; [|replace (x * x + c * c) with (x ^ 2 + c ^ 2) by ring; lra]. apply limit_plus; apply limit_mul; try apply lim_sinh; apply lim_sin.
Qed.
Lemma lim_sums M : limit1_in (fun u => Rsum M (fun k => tau x u (S k))) D (Rsum M (fun k => 2 * x / (x ^ 2 + (PI * INR (S k)) ^ 2))) 0.
Proof. induction M as [|M IH]; [exact (limit_const 0 D)|]. cbn [Rsum]. apply limit_plus; [exact IH|apply lim_tau]. Qed.
Lemma lim_bound : limit1_in (fun u => 2 / u * (sinh (x * u) * cosh (x * u))) D (2 * x) 0.
Proof.
  apply (limit_ext (fun u => 2 * ((sinh (x * u) / u) * cosh (x * u)))); [intros u Du; specialize (HD u Du); field; lra|]. replace (2 * x) with (2 * (x * 1)) by ring. apply limit_mul; [apply limit_const|]. apply limit_mul; [apply lim_sinh|apply limit_cosh].
Qed.
End Limit.

(** partial sums of coth *)
Definition coth_part (M : nat) (x : R) : R := 1 / x + Rsum M (fun k => 2 * x / (x ^ 2 + (PI * INR (S k)) ^ 2)).
Lemma steps_small M : adhDa (fun u => exists n, (M < 2 ^ n)%nat /\ u = step n) 0.
Proof.
  intros e He. destruct (cv_infty_cv_0 (fun n => 2 ^ n)) with (eps := e) as (N & HN); [|exact He|].
  - intros B. destruct (archimed B) as (A & _). exists (Z.to_nat (up B)). intros n Hn. apply Rlt_le_trans with (1 := A). apply Rle_trans with (INR n).
    + destruct (Z_le_gt_dec 0 (up B)) as [Z|Z]; [rewrite <- (Z2Nat.id (up B)), <- INR_IZR_INZ by exact Z; apply le_INR; lia|]. apply Rle_trans with 0; [apply IZR_le; lia|apply pos_INR].
    + clear. induction n as [|n IH]; [cbn; lra|]. rewrite S_INR, <- tech_pow_Rmult. assert (1 <= 2 ^ n) by (apply pow_R1_Rle; lra). lra.
  - exists (step (N + M)). split; [exists (N + M)%nat; split; [|reflexivity]|].
    + apply Nat.le_lt_trans with (N + M)%nat; [lia|]. apply Nat.pow_gt_lin_r. lia.
    + unfold R_dist. rewrite Rminus_0_r. specialize (HN (N + M)%nat ltac:(lia)). unfold R_dist in HN. rewrite Rminus_0_r in HN. apply Rle_lt_trans with (2 := HN). assert (0 < 2 ^ (N + M)) by (apply pow_lt; lra). unfold step. rewrite !Rabs_right; [|apply Rle_ge, Rlt_le, Rinv_0_lt_compat; lra|apply Rle_ge, Rlt_le, Rinv_0_lt_compat; lra]. apply Rinv_le_contravar; lra.
Qed.
Theorem coth_error M x : (1 <= M)%nat -> 0 < x -> 0 <= coth x - coth_part M x <= 2 * x / INR M.
Proof.
  intros HM Hx. set (D := fun u => exists n, (M < 2 ^ n)%nat /\ u = step n). assert (HD : forall u, D u -> 0 < u) by (intros u (n & _ & ->); apply Rinv_0_lt_compat; assert (0 < 2 ^ n) by (apply pow_lt; lra); lra).
  pose proof (steps_small M) as A. fold D in A. assert (PM : 0 < INR M) by (apply lt_0_INR; lia).
  set (part := fun u => (u * coth (x * u) + u * tanh (x * u)) + Rsum M (fun k => tau x u (S k))).
  assert (LP : limit1_in part D (coth_part M x) 0).
  { unfold part, coth_part. replace (1 / x) with (1 / x + 0) by ring. apply limit_plus; [apply limit_plus; [apply lim_coth|apply lim_tanh]|apply lim_sums]; assumption. }
  assert (S1 : forall u, D u -> 0 <= coth x - part u <= 2 / u * (sinh (x * u) * cosh (x * u)) * / INR M).
  { intros u Du. pose proof (HD u Du) as Pu. destruct Du as (n & Hn & ->). rewrite (coth_sum n x Hx). unfold part. replace (2 ^ n - 1)%nat with (M + (2 ^ n - 1 - M))%nat by lia. rewrite Rsum_split. set (m := (2 ^ n - 1 - M)%nat). set (u := step n) in *.
    match goal with |- 0 <= ?e <= _ => replace e with (Rsum m (fun i => tau x u (S (M + i)))) by ring end. split; [apply Rsum_nonneg; intros; apply tau_nonneg; assumption|].
    apply Rle_trans with (Rsum m (fun i => 1 / INR (M + S i) ^ 2 * (2 / u * (sinh (x * u) * cosh (x * u))))).
    - apply Rsum_le. intros i Hi. rewrite <- Nat.add_succ_r. rewrite (Rmult_comm (1 / _)). apply tau_le; [assumption|assumption|lia|]. unfold u, step. assert (0 < 2 ^ n) by (apply pow_lt; lra). apply Rmult_le_reg_r with (2 * 2 ^ n); [lra|]. rewrite Rmult_assoc, Rinv_l by lra. replace (1 / 2 * (2 * 2 ^ n)) with (2 ^ n) by field. rewrite Rmult_1_r. replace (2 ^ n) with (INR (2 ^ n)) by (rewrite pow_INR; reflexivity). apply le_INR. unfold m in Hi. lia.
    - rewrite Rsum_scal, Rmult_comm. apply Rmult_le_compat_l.
      + apply Rlt_le. apply Rmult_lt_0_compat; [apply Rdiv_lt_0_compat; lra|]. apply Rmult_lt_0_compat; [apply sinh_pos; nra|apply cosh_pos].
      + apply Rle_trans with (1 := squares_tail M m HM). assert (0 < 1 / INR (M + m)) by (apply Rdiv_lt_0_compat; [lra|apply lt_0_INR; lia]). lra. }
  split.
  - assert (coth_part M x <= coth x); [|lra]. apply (limit_le part D); [exact LP|exact A|]. intros u Du. destruct (S1 u Du). lra.
  - assert (coth x - 2 * x / INR M <= coth_part M x); [|lra].
    assert (- coth_part M x + - (2 * x * / INR M) <= - coth x); [|unfold Rdiv; lra].
    apply (limit_le (fun u => - part u + - (2 / u * (sinh (x * u) * cosh (x * u)) * / INR M)) D).
    + apply limit_plus; apply limit_Ropp; [exact LP|]. apply limit_mul; [apply lim_bound; assumption|apply limit_const].
    + exact A.
    + intros u Du. destruct (S1 u Du). lra.
Qed.

(** ** The Bose and Fermi functions *)
Lemma bose_coth x : x <> 0 -> bose x = 1 / 2 + coth (x / 2) / 2.
Proof.
  intros N. unfold bose, coth, cosh, sinh. set (t := x / 2). replace (- x) with (- t + - t) by (unfold t; field). rewrite exp_plus, exp_Ropp. pose proof (exp_pos t) as P.
  assert (E : exp t * exp t <> 1). { rewrite <- exp_plus. intros Q. apply N. rewrite <- exp_0 in Q. apply exp_inv in Q. unfold t in Q. lra. }
  assert (exp t * exp t - 1 <> 0) by lra. field. repeat split; try lra; try nra.
Qed.
Lemma coth_odd x : coth (- x) = - coth x.
Proof. unfold coth, cosh, sinh. rewrite Ropp_involutive. replace ((exp (- x) - exp x) / 2) with (- ((exp x - exp (- x)) / 2)) by field. rewrite Rplus_comm. unfold Rdiv at 1. rewrite Rinv_opp. unfold Rdiv. ring. Qed.
Lemma part_odd M x : coth_part M (- x) = - coth_part M x.
Proof.
  unfold coth_part. rewrite Ropp_plus_distr. f_equal; [unfold Rdiv; rewrite Rinv_opp; ring|]. induction M as [|M IH]; [cbn; ring|]. cbn [Rsum]. rewrite IH, Ropp_plus_distr. f_equal. replace ((- x) ^ 2) with (x ^ 2) by ring. unfold Rdiv. ring.
Qed.
Lemma coth_bound M x : (1 <= M)%nat -> x <> 0 -> Rabs (coth x - coth_part M x) <= 2 * Rabs x / INR M.
Proof.
  intros HM N. destruct (Rdichotomy x 0 N) as [H|H].
  - destruct (coth_error M (- x) HM ltac:(lra)) as (A & B). rewrite coth_odd, part_odd in A, B. rewrite (Rabs_left x) by exact H. rewrite Rabs_left1 by lra. lra.
  - destruct (coth_error M x HM H) as (A & B). rewrite (Rabs_right x), Rabs_right by lra. exact B.
Qed.
Lemma bose_matsubara N x : (1 <= N)%nat -> x <> 0 -> Rabs (bose x - (1 / x + 1 / 2 + Rsum N (fun j => 2 * x / (x ^ 2 + (2 * INR (j + 1) * PI) ^ 2)))) <= Rabs x / (2 * INR N).
Proof.
  intros HN Hx. pose proof (coth_bound N (x / 2) HN ltac:(lra)) as B. assert (0 < INR N) by (apply lt_0_INR; lia). rewrite bose_coth by exact Hx.
  assert (E : 1 / x + Rsum N (fun j => 2 * x / (x ^ 2 + (2 * INR (j + 1) * PI) ^ 2)) = coth_part N (x / 2) / 2).
  { replace (coth_part N (x / 2) / 2) with (1 / (x / 2) * / 2 + Rsum N (fun k => 2 * (x / 2) / ((x / 2) ^ 2 + (PI * INR (S k)) ^ 2)) * / 2) by (unfold coth_part; unfold Rdiv; ring). rewrite <- Rsum_scal. f_equal; [field; exact Hx|]. apply Rsum_ext. intros j _. rewrite Nat.add_1_r. pose proof (pow2_ge_0 (PI * INR (S j))). assert (0 < x ^ 2) by (rewrite <- Rsqr_pow2; apply Rsqr_pos_lt; exact Hx). field. nra. }
  replace (1 / 2 + coth (x / 2) / 2 - (1 / x + 1 / 2 + Rsum N (fun j => 2 * x / (x ^ 2 + (2 * INR (j + 1) * PI) ^ 2)))) with ((coth (x / 2) - coth_part N (x / 2)) / 2) by (unfold Rdiv at 1; rewrite Rmult_minus_distr_r; fold (coth_part N (x / 2) / 2); rewrite <- E; field; exact Hx).
  unfold Rdiv at 1. rewrite Rabs_mult, (Rabs_right (/ 2)) by lra. replace (Rabs (x / 2)) with (Rabs x / 2) in B by (unfold Rdiv; rewrite Rabs_mult, (Rabs_right (/ 2)) by lra; reflexivity). apply Rle_trans with (2 * (Rabs x / 2) / INR N * / 2); [lra|]. right. field. lra.
Qed.
Lemma fermi_coth x : x <> 0 -> fermi x = 1 / 2 - (coth x - coth (x / 2) / 2).
Proof.
  intros N. unfold fermi, coth, cosh, sinh. set (t := x / 2). replace x with (t + t) by (unfold t; field). rewrite Ropp_plus_distr, !exp_plus, exp_Ropp. pose proof (exp_pos t) as P.
  assert (E : exp t * exp t <> 1). { rewrite <- exp_plus. intros Q. apply N. rewrite <- exp_0 in Q. apply exp_inv in Q. unfold t in Q. lra. }
  assert (exp t * exp t - 1 <> 0) by lra. field. repeat split; try lra; try nra.
Qed.
Lemma odd_terms N x : x <> 0 -> coth_part (2 * N) x - coth_part N (x / 2) / 2 = Rsum N (fun j => 2 * x / (x ^ 2 + ((2 * INR j + 1) * PI) ^ 2)).
Proof.
  intros Hx. unfold coth_part. assert (X : 0 < x ^ 2) by (rewrite <- Rsqr_pow2; apply Rsqr_pos_lt; exact Hx).
  assert (E : Rsum (2 * N) (fun k => 2 * x / (x ^ 2 + (PI * INR (S k)) ^ 2)) = Rsum N (fun j => 2 * x / (x ^ 2 + ((2 * INR j + 1) * PI) ^ 2)) + Rsum N (fun k => 2 * (x / 2) / ((x / 2) ^ 2 + (PI * INR (S k)) ^ 2)) / 2).
  { induction N as [|N IH]; [cbn; field|]. replace (2 * S N)%nat with (S (S (2 * N))) by lia. cbn [Rsum] in *. rewrite IH. replace (INR (S (2 * N))) with (2 * INR N + 1) by (rewrite S_INR, mult_INR; cbn [INR]; ring). replace (INR (S (S (2 * N)))) with (2 * (INR N + 1)) by (rewrite !S_INR, mult_INR; cbn [INR]; ring). rewrite (S_INR N).
    rewrite (Rmult_comm PI (2 * INR N + 1)). replace (2 * x / (x ^ 2 + (PI * (2 * (INR N + 1))) ^ 2)) with (2 * (x / 2) / ((x / 2) ^ 2 + (PI * (INR N + 1)) ^ 2) / 2); [unfold Rdiv; ring|]. pose proof (pow2_ge_0 (PI * (INR N + 1))). field. nra. }
  rewrite E. field. exact Hx.
Qed.
Lemma fermi_matsubara N x : (1 <= N)%nat -> Rabs (fermi x - (1 / 2 - Rsum N (fun j => 2 * x / (x ^ 2 + ((2 * INR j + 1) * PI) ^ 2)))) <= 3 * Rabs x / (2 * INR N).
Proof.
  intros HN. assert (P : 0 < INR N) by (apply lt_0_INR; lia). destruct (Req_dec x 0) as [->|Hx].
  - rewrite Rabs_R0. unfold fermi. rewrite exp_0. assert (Z : Rsum N (fun j => 2 * 0 / (0 ^ 2 + ((2 * INR j + 1) * PI) ^ 2)) = 0) by (clear; induction N as [|N IH]; [reflexivity|]; cbn [Rsum]; rewrite IH; unfold Rdiv; ring). rewrite Z. replace (1 / (1 + 1) - (1 / 2 - 0)) with 0 by lra. rewrite Rabs_R0. unfold Rdiv. rewrite Rmult_0_r, Rmult_0_l. lra.
  - rewrite fermi_coth, <- odd_terms by exact Hx. pose proof (coth_bound (2 * N) x ltac:(lia) Hx) as B1. pose proof (coth_bound N (x / 2) HN ltac:(lra)) as B2. rewrite mult_INR in B1. change (INR 2) with 2 in B1.
    replace (Rabs (x / 2)) with (Rabs x / 2) in B2 by (unfold Rdiv; rewrite Rabs_mult, (Rabs_right (/ 2)) by lra; reflexivity).
    set (p := coth x - coth_part (2 * N) x) in *. set (q := coth (x / 2) - coth_part N (x / 2)) in *. replace (1 / 2 - (coth x - coth (x / 2) / 2) - (1 / 2 - (coth_part (2 * N) x - coth_part N (x / 2) / 2))) with (- p + q * / 2) by (unfold p, q; field).
    apply Rle_trans with (1 := Rabs_triang _ _). rewrite Rabs_Ropp, Rabs_mult, (Rabs_right (/ 2)) by lra. apply Rle_trans with (2 * Rabs x / (2 * INR N) + 2 * (Rabs x / 2) / INR N * / 2); [lra|]. right. field. lra.
Qed.
