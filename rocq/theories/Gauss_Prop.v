(** C98: the Gaussian wave packet. *)
From Coq Require Import Reals Lra Lia.
From Verif Require Import Discretise_Spec Discretise_Proof Gauss_Model Gauss_Spec Gauss_Proof.
Local Open Scope R_scope.

Lemma whole_lin f g k u v : whole f u -> whole g v -> whole (fun x => f x + k * g x) (u + k * v).
Proof.
  intros (F1 & F2) (G1 & G2). split.
  - intros a b L. destruct (F1 a b L) as (w & W), (G1 a b L) as (z & Z). exists (w + k * z). apply integral_lin; auto.
  - intros eps He. set (m := 1 + Rabs k). assert (Pm : 0 < m) by (unfold m; pose proof (Rabs_pos k); lra). destruct (F2 (eps / 2)) as (r1 & P1 & H1); [lra|]. destruct (G2 (eps / 2 / m)) as (r2 & P2 & H2); [apply Rdiv_lt_0_compat; lra|].
    exists (Rmax r1 r2). pose proof (Rmax_l r1 r2). pose proof (Rmax_r r1 r2). split; [lra|]. intros a b w Ha Hb I. destruct (F1 a b) as (w1 & W1); [lra|]. destruct (G1 a b) as (w2 & W2); [lra|].
    rewrite (integral_unique _ _ _ _ _ I (integral_lin _ _ k _ _ _ _ W1 W2)). specialize (H1 a b w1 ltac:(lra) ltac:(lra) W1). specialize (H2 a b w2 ltac:(lra) ltac:(lra) W2).
    replace (w1 + k * w2 - (u + k * v)) with ((w1 - u) + k * (w2 - v)) by ring. eapply Rle_lt_trans; [apply Rabs_triang|]. rewrite Rabs_mult.
    assert (Rabs k * Rabs (w2 - v) <= eps / 2); [|lra]. apply Rle_trans with (m * (eps / 2 / m)); [|right; field; lra]. apply Rmult_le_compat; try apply Rabs_pos; [unfold m; lra|lra].
Qed.
Lemma whole_ext f g v : (forall x, f x = g x) -> whole f v -> whole g v.
Proof.
  intros E (F1 & F2). assert (X : forall a b w, a <= b -> integral f a b w -> integral g a b w).
  { intros a b w L I. apply (integral_ext f g a b w L); auto. destruct I as (pr & _). exists (RiemannInt pr).
    assert (Q : Riemann_integrable g a b) by (apply (RiemannInt_P1 (a := b) (b := a)), (RiemannInt_P1 (a := a) (b := b)); revert pr; unfold Riemann_integrable; intros pr eps; destruct (pr eps) as (phi & psi & H); exists phi, psi; split; [intros t Ht; rewrite <- E; apply H, Ht|apply H]).
    exists Q. apply (RiemannInt_P18 Q pr L). intros. now rewrite E. }
  assert (Y : forall a b w, a <= b -> integral g a b w -> integral f a b w).
  { intros a b w L I. destruct (F1 a b L) as (z & Z). rewrite (integral_unique _ _ _ _ _ I (X _ _ _ L Z)). exact Z. }
  split; [intros a b L; destruct (F1 a b L) as (w & W); exists w; auto|]. intros eps He. destruct (F2 eps He) as (r & P & H). exists r. split; auto. intros a b w Ha Hb I. apply (H a b w Ha Hb), Y; auto. lra.
Qed.
Lemma whole_primitive F f : (forall x, derivable_pt_lim F x (f x)) -> (forall x, continuity_pt f x) ->
  (forall eps, 0 < eps -> exists r, 0 <= r /\ forall x, r <= Rabs x -> Rabs (F x) < eps) -> whole f 0.
Proof.
  intros D C L. split.
  - intros a b H. exists (F b - F a). apply primitive_local; auto.
  - intros eps He. destruct (L (eps / 2)) as (r & P & H); [lra|]. exists r. split; auto. intros a b w Ha Hb I. rewrite (integral_unique _ _ _ _ _ I (primitive_local F f a b ltac:(lra) (fun x _ => D x) (fun x _ => C x))).
    pose proof (H a ltac:(rewrite Rabs_left1; lra)) as A. pose proof (H b ltac:(rewrite Rabs_pos_eq; lra)) as B. apply Rabs_def2 in A. apply Rabs_def2 in B. apply Rabs_def1; lra.
Qed.

Lemma bell_decay y : 0 < Rabs y -> Rabs y * bell y <= / Rabs y.
Proof.
  intros P. unfold bell. rewrite exp_Ropp. assert (E : y ^ 2 = Rabs y * Rabs y) by (rewrite <- Rabs_mult, Rabs_pos_eq; [ring|apply Rle_0_sqr]). pose proof (exp_ineq1_le (y ^ 2)) as Q. set (a := Rabs y) in *. assert (Pa : 0 < a * a) by (apply Rmult_lt_0_compat; auto).
  replace (/ a) with (a * / (a * a)) by (field; lra). apply Rmult_le_compat_l; [lra|]. apply Rinv_le_contravar; lra.
Qed.
Lemma decay k eps : 0 < k -> 0 < eps -> exists r, 1 <= r /\ forall y, r <= Rabs y -> Rabs y * bell (k * y) < eps /\ bell (k * y) < eps.
Proof.
  intros Pk Pe. assert (P2 : 0 < k * k * eps) by (repeat apply Rmult_lt_0_compat; auto). exists (1 + / (k * k * eps)). pose proof (Rinv_0_lt_compat _ P2) as Pi. split; [lra|]. intros y Hy.
  assert (Q : Rabs y * bell (k * y) < eps).
  { pose proof (bell_decay (k * y)) as B. rewrite Rabs_mult, (Rabs_pos_eq k) in B by lra. set (a := Rabs y) in *. assert (Pa : 0 < k * a) by (apply Rmult_lt_0_compat; lra). specialize (B Pa).
    apply (Rmult_lt_reg_l k); auto. rewrite <- Rmult_assoc. eapply Rle_lt_trans; [exact B|]. apply (Rmult_lt_reg_r (k * a)); auto. rewrite Rinv_l by lra.
    assert (1 = (k * k * eps) * / (k * k * eps)) by (field; split; lra). assert ((k * k * eps) * / (k * k * eps) < (k * k * eps) * a) by (apply Rmult_lt_compat_l; lra). replace (k * eps * (k * a)) with (k * k * eps * a) by ring. lra. }
  split; auto. eapply Rle_lt_trans; [|exact Q]. rewrite <- (Rmult_1_l (bell _)) at 1. apply Rmult_le_compat_r; [left; apply bell_pos|lra].
Qed.

Section Packet.
Variables x0 alpha : R.
Hypothesis Pa : 0 < alpha.
Let k := sqrt alpha.
Let c := k / sqrt PI.
Definition dens (x : R) : R := c * bell (k * (x - x0)).
Lemma k_pos : 0 < k. Proof. apply sqrt_lt_R0, Pa. Qed.
Lemma k_sq : k * k = alpha. Proof. apply sqrt_sqrt. lra. Qed.
Lemma rp_pos : 1 <= sqrt PI. Proof. rewrite <- sqrt_1. pose proof PI2_3_2. unfold PI2 in *. apply sqrt_le_1; lra. Qed.
Lemma c_pos : 0 < c. Proof. apply Rdiv_lt_0_compat; [apply k_pos|pose proof rp_pos; lra]. Qed.
Lemma shift_lim x : derivable_pt_lim (fun y => k * (y - x0)) x k.
Proof.
  assert (Q : derivable_pt_lim (fun y => k * (y - x0)) x (k * (1 - 0))); [|replace (k * (1 - 0)) with k in Q by ring; exact Q].
  apply (derivable_pt_lim_scal (fun y => y - x0)), (derivable_pt_lim_minus (fun y => y) (fun _ => x0)); [apply derivable_pt_lim_id|apply derivable_pt_lim_const].
Qed.
Lemma dens_lim x : derivable_pt_lim dens x (- (2 * alpha * (x - x0)) * dens x).
Proof.
  unfold dens. replace (- (2 * alpha * (x - x0)) * (c * bell (k * (x - x0)))) with (c * (- (2 * (k * (x - x0))) * bell (k * (x - x0)) * k)) by (rewrite <- k_sq; ring).
  apply (derivable_pt_lim_scal (fun y => bell (k * (y - x0)))). apply (derivable_pt_lim_comp (fun y => k * (y - x0)) bell); [apply shift_lim|apply bell_lim].
Qed.
Lemma dens_cont x : continuity_pt dens x. Proof. eapply lim_cont, dens_lim. Qed.
Lemma lin_lim x : derivable_pt_lim (fun y => y - x0) x 1.
Proof. assert (Q : derivable_pt_lim (fun y => y - x0) x (1 - 0)) by (apply (derivable_pt_lim_minus (fun y => y) (fun _ => x0)); [apply derivable_pt_lim_id|apply derivable_pt_lim_const]). now rewrite Rminus_0_r in Q. Qed.
Lemma lin_dens_lim x : derivable_pt_lim (fun y => (y - x0) * dens y) x (1 * dens x + (x - x0) * (- (2 * alpha * (x - x0)) * dens x)).
Proof. apply (derivable_pt_lim_mult (fun y => y - x0) dens); [apply lin_lim|apply dens_lim]. Qed.

(** the whole of the density *)
Lemma dens_whole : whole dens 1.
Proof.
  pose proof k_pos as Pk. pose proof rp_pos as Pr. split.
  - intros a b L. apply integral_cont; auto. intros; apply dens_cont.
  - intros eps He. destruct (decay k (eps / 4) Pk) as (r & R1 & R2); [lra|]. exists (Rabs x0 + r). pose proof (Rabs_pos x0) as X0. pose proof (Rle_abs x0) as X1. pose proof (Rle_abs (- x0)) as X2. rewrite Rabs_Ropp in X2. split; [lra|]. intros a b w Ha Hb I.
    set (A := - (a - x0)). set (B := b - x0). assert (HA : r <= A) by (unfold A; lra). assert (HB : r <= B) by (unfold B; lra). assert (KA : 0 < k * A) by (apply Rmult_lt_0_compat; lra). assert (KB : 0 < k * B) by (apply Rmult_lt_0_compat; lra).
    set (T := k * A + k * B). assert (PT : 0 < T) by (unfold T; lra). destruct (primitive_exists bell (- T) T) as (F & DF); [lra|apply bell_cont|].
    set (G := fun x => F x - F 0). assert (DG : forall x, - T <= x <= T -> derivable_pt_lim G x (bell x)). { intros x Hx. replace (bell x) with (bell x - 0) by ring. apply (derivable_pt_lim_minus F (fun _ => F 0)); [apply DF; auto|apply derivable_pt_lim_const]. }
    assert (G0 : G 0 = 0) by (unfold G; ring). destruct (gauss T G (k * B) PT DG G0) as (GB & _); [unfold T; lra|]. destruct (gauss T G (k * A) PT DG G0) as (_ & GA); [unfold T; lra|].
    assert (E : integral dens a b (/ sqrt PI * G (k * (b - x0)) - / sqrt PI * G (k * (a - x0)))).
    { apply (primitive_local (fun x => / sqrt PI * G (k * (x - x0)))); [lra| |intros; apply dens_cont]. intros x Hx. unfold dens, c. replace (k / sqrt PI * bell (k * (x - x0))) with (/ sqrt PI * (bell (k * (x - x0)) * k)) by (field; lra).
      apply (derivable_pt_lim_scal (fun y => G (k * (y - x0)))). apply (derivable_pt_lim_comp (fun y => k * (y - x0)) G); [apply shift_lim|]. apply DG. assert (k * (x - x0) <= k * B) by (apply Rmult_le_compat_l; unfold B; lra). assert (k * - (x - x0) <= k * A) by (apply Rmult_le_compat_l; unfold A; lra). unfold T. lra. }
    rewrite (integral_unique _ _ _ _ _ I E). fold B. replace (k * (a - x0)) with (- (k * A)) by (unfold A; ring).
    destruct (R2 A ltac:(rewrite Rabs_pos_eq; lra)) as (_ & QA). destruct (R2 B ltac:(rewrite Rabs_pos_eq; lra)) as (_ & QB). set (s := sqrt PI) in *. set (u := G (k * B)) in *. set (v := G (- (k * A))) in *.
    assert (Ps : 0 < / s <= 1) by (split; [apply Rinv_0_lt_compat; lra|rewrite <- Rinv_1; apply Rinv_le_contravar; lra]). assert (E1 : / s * u - / s * v - 1 = - (/ s * ((s / 2 - u) + (s / 2 + v)))) by (field; lra). rewrite E1, Rabs_Ropp.
    assert (V : 0 <= (s / 2 - u) + (s / 2 + v) < eps) by lra. rewrite Rabs_pos_eq; [|apply Rmult_le_pos; lra]. apply Rle_lt_trans with (1 * ((s / 2 - u) + (s / 2 + v))); [apply Rmult_le_compat_r; lra|lra].
Qed.
Lemma far r x : r + Rabs x0 <= Rabs x -> r <= Rabs (x - x0).
Proof. intros H. pose proof (Rabs_triang (x - x0) x0) as T. replace (x - x0 + x0) with x in T by ring. lra. Qed.
Lemma first_whole : whole (fun x => (x - x0) * dens x) 0.
Proof.
  apply (whole_primitive (fun x => - / (2 * alpha) * dens x)).
  - intros x. replace ((x - x0) * dens x) with (- / (2 * alpha) * (- (2 * alpha * (x - x0)) * dens x)) by (field; lra). apply (derivable_pt_lim_scal dens), dens_lim.
  - intros x. eapply lim_cont, lin_dens_lim.
  - intros eps He. pose proof k_pos. pose proof c_pos. assert (P : 0 < / (2 * alpha) * c) by (apply Rmult_lt_0_compat; [apply Rinv_0_lt_compat|]; lra). destruct (decay k (eps / (/ (2 * alpha) * c))) as (r & R1 & R2); auto; [apply Rdiv_lt_0_compat; lra|].
    exists (r + Rabs x0). pose proof (Rabs_pos x0). split; [lra|]. intros x Hx. destruct (R2 _ (far _ _ Hx)) as (_ & Q). unfold dens. rewrite Rabs_mult, Rabs_Ropp, !Rabs_pos_eq; [|apply Rmult_le_pos; [lra|left; apply bell_pos]|left; apply Rinv_0_lt_compat; lra].
    apply (Rmult_lt_compat_l _ _ _ P) in Q. replace (/ (2 * alpha) * c * (eps / (/ (2 * alpha) * c))) with eps in Q by (field; repeat split; lra). lra.
Qed.
Lemma second_whole : whole (fun x => (x - x0) ^ 2 * dens x) (/ (2 * alpha)).
Proof.
  assert (Z : whole (fun x => (- / (2 * alpha)) * (1 * dens x + (x - x0) * (- (2 * alpha * (x - x0)) * dens x))) 0).
  - apply (whole_primitive (fun x => - / (2 * alpha) * ((x - x0) * dens x))).
    + intros x. apply (derivable_pt_lim_scal (fun y => (y - x0) * dens y)), lin_dens_lim.
    + intros x. apply (continuity_pt_scal (fun y => 1 * dens y + (y - x0) * (- (2 * alpha * (y - x0)) * dens y))). apply (continuity_pt_plus (fun y => 1 * dens y) (fun y => (y - x0) * (- (2 * alpha * (y - x0)) * dens y))); [apply continuity_pt_scal, dens_cont|].
      apply (continuity_pt_mult (fun y => y - x0) (fun y => - (2 * alpha * (y - x0)) * dens y)); [eapply lim_cont, lin_lim|]. apply (continuity_pt_mult (fun y => - (2 * alpha * (y - x0))) dens); [|apply dens_cont]. apply (continuity_pt_opp (fun y => 2 * alpha * (y - x0))), (continuity_pt_scal (fun y => y - x0)). eapply lim_cont, lin_lim.
    + intros eps He. pose proof k_pos. pose proof c_pos. assert (P : 0 < / (2 * alpha) * c) by (apply Rmult_lt_0_compat; [apply Rinv_0_lt_compat|]; lra). destruct (decay k (eps / (/ (2 * alpha) * c))) as (r & R1 & R2); auto; [apply Rdiv_lt_0_compat; lra|].
      exists (r + Rabs x0). pose proof (Rabs_pos x0). split; [lra|]. intros x Hx. destruct (R2 _ (far _ _ Hx)) as (Q & _). unfold dens. rewrite !Rabs_mult, Rabs_Ropp, (Rabs_pos_eq (/ _)), (Rabs_pos_eq c), (Rabs_pos_eq (bell _)); [|left; apply bell_pos|lra|left; apply Rinv_0_lt_compat; lra].
      apply (Rmult_lt_compat_l _ _ _ P) in Q. replace (/ (2 * alpha) * c * (eps / (/ (2 * alpha) * c))) with eps in Q by (field; repeat split; lra). lra.
  - pose proof (whole_lin _ _ (/ (2 * alpha)) _ _ Z dens_whole) as W. replace (0 + / (2 * alpha) * 1) with (/ (2 * alpha)) in W by ring. revert W. apply whole_ext. intros x. field. lra.
Qed.
End Packet.

(** the squared modulus of the packet, and its derivative *)
Lemma packet_dens x0 p0 alpha hbar x : 0 < alpha -> modulus2 (gaussian_wfn x0 p0 alpha hbar x) = dens x0 alpha x.
Proof.
  intros P. unfold modulus2, gaussian_wfn, dens. cbn [fst snd]. set (q := p0 * (x - x0) / hbar). set (u := Rpower _ _). set (e := exp _). pose proof PI_RGT_0 as PP.
  assert (U : u * u = sqrt (alpha / PI)). { unfold u. rewrite <- Rpower_plus. replace (1 / 4 + 1 / 4) with (/ 2) by field. apply Rpower_sqrt. apply Rdiv_lt_0_compat; auto. }
  assert (E : e * e = bell (sqrt alpha * (x - x0))). { unfold e, bell. rewrite <- exp_plus. f_equal. replace ((sqrt alpha * (x - x0)) ^ 2) with ((sqrt alpha * sqrt alpha) * (x - x0) ^ 2) by ring. rewrite sqrt_sqrt by lra. field. }
  replace ((u * e * cos q) ^ 2 + (u * e * sin q) ^ 2) with ((u * u) * (e * e) * (Rsqr (sin q) + Rsqr (cos q))) by (unfold Rsqr; ring). rewrite sin2_cos2, U, E. rewrite sqrt_div_alt by auto. ring.
Qed.
Definition packet_slope (x0 p0 alpha hbar x : R) : R * R :=
  let z := gaussian_wfn x0 p0 alpha hbar x in (- alpha * (x - x0) * fst z - p0 / hbar * snd z, - alpha * (x - x0) * snd z + p0 / hbar * fst z).
Lemma packet_lim x0 p0 alpha hbar : derivative (gaussian_wfn x0 p0 alpha hbar) (packet_slope x0 p0 alpha hbar).
Proof.
  intros x. unfold packet_slope, gaussian_wfn. cbn [fst snd]. set (u := Rpower _ _).
  assert (L : forall y, derivable_pt_lim (fun y => y - x0) y 1) by (intros; apply lin_lim).
  assert (De : derivable_pt_lim (fun y => u * exp (- alpha * (y - x0) ^ 2 / 2)) x (u * (exp (- alpha * (x - x0) ^ 2 / 2) * (- alpha * (x - x0))))).
  { apply (derivable_pt_lim_scal (fun y => exp (- alpha * (y - x0) ^ 2 / 2))). apply (derivable_pt_lim_comp (fun y => - alpha * (y - x0) ^ 2 / 2) exp); [|apply derivable_pt_lim_exp].
    apply (lim_ext (fun y => - alpha / 2 * ((y - x0) * (y - x0)))); [intros; field|]. replace (- alpha * (x - x0)) with (- alpha / 2 * (1 * (x - x0) + (x - x0) * 1)) by field. apply (derivable_pt_lim_scal (fun y => (y - x0) * (y - x0))), (derivable_pt_lim_mult (fun y => y - x0) (fun y => y - x0)); apply L. }
  assert (Dq : derivable_pt_lim (fun y => p0 * (y - x0) / hbar) x (p0 / hbar)).
  { apply (lim_ext (fun y => p0 / hbar * (y - x0))); [intros; unfold Rdiv; ring|]. assert (Q : derivable_pt_lim (fun y => p0 / hbar * (y - x0)) x (p0 / hbar * 1)) by apply (derivable_pt_lim_scal (fun y => y - x0)), L. now rewrite Rmult_1_r in Q. }
  set (e := exp (- alpha * (x - x0) ^ 2 / 2)) in *. set (q := p0 * (x - x0) / hbar) in *. split.
  - replace (- alpha * (x - x0) * (u * e * cos q) - p0 / hbar * (u * e * sin q)) with (u * (e * (- alpha * (x - x0))) * cos q + u * e * (- sin q * (p0 / hbar))) by ring.
    apply (derivable_pt_lim_mult (fun y => u * exp (- alpha * (y - x0) ^ 2 / 2)) (fun y => cos (p0 * (y - x0) / hbar))); auto. apply (derivable_pt_lim_comp (fun y => p0 * (y - x0) / hbar) cos); auto. apply derivable_pt_lim_cos.
  - replace (- alpha * (x - x0) * (u * e * sin q) + p0 / hbar * (u * e * cos q)) with (u * (e * (- alpha * (x - x0))) * sin q + u * e * (cos q * (p0 / hbar))) by ring.
    apply (derivable_pt_lim_mult (fun y => u * exp (- alpha * (y - x0) ^ 2 / 2)) (fun y => sin (p0 * (y - x0) / hbar))); auto. apply (derivable_pt_lim_comp (fun y => p0 * (y - x0) / hbar) sin); auto. apply derivable_pt_lim_sin.
Qed.
Lemma derivative_unique f d e x : derivative f d -> derivative f e -> d x = e x.
Proof.
  intros D E. destruct (D x) as (D1 & D2), (E x) as (E1 & E2). rewrite (surjective_pairing (d x)), (surjective_pairing (e x)). f_equal; eapply uniqueness_limite; eauto.
Qed.

(** The packet is normalised, its position has the mean x0 and the variance 1/(2 alpha). *)
Theorem C98_position x0 p0 alpha hbar : 0 < alpha -> let psi := gaussian_wfn x0 p0 alpha hbar in
  whole (fun x => modulus2 (psi x)) 1 /\ whole (fun x => x * modulus2 (psi x)) x0 /\ whole (fun x => (x - x0) ^ 2 * modulus2 (psi x)) (/ (2 * alpha)).
Proof.
  intros P psi. assert (E : forall x, dens x0 alpha x = modulus2 (psi x)) by (intros; symmetry; apply packet_dens; auto). split; [|split].
  - eapply whole_ext; [exact E|]. apply dens_whole, P.
  - pose proof (whole_lin _ _ x0 _ _ (first_whole x0 alpha P) (dens_whole x0 alpha P)) as W. replace (0 + x0 * 1) with x0 in W by ring. revert W. apply whole_ext. intros x. rewrite <- E. ring.
  - eapply whole_ext; [|apply second_whole, P]. intros x. cbn beta. now rewrite <- E.
Qed.
Print Assumptions C98_position.

(** Its momentum has the mean p0 (an integral without imaginary part) and the variance
    hbar^2 alpha/2, so that the product of the variances is hbar^2/4, the least there is. *)
Theorem C98_momentum x0 p0 alpha hbar d : 0 < alpha -> hbar <> 0 -> let psi := gaussian_wfn x0 p0 alpha hbar in derivative psi d ->
  whole (fun x => fst (pairing (psi x) (momentum hbar 0 (psi x) (d x)))) p0 /\ whole (fun x => snd (pairing (psi x) (momentum hbar 0 (psi x) (d x)))) 0 /\
  whole (fun x => modulus2 (momentum hbar p0 (psi x) (d x))) (hbar ^ 2 / 4 / / (2 * alpha)).
Proof.
  intros P N psi D. assert (E : forall x, dens x0 alpha x = modulus2 (psi x)) by (intros; symmetry; apply packet_dens; auto). assert (S : forall x, d x = packet_slope x0 p0 alpha hbar x) by (intros; eapply derivative_unique; [exact D|apply packet_lim]).
  assert (Z : whole (fun _ => 0) 0). { split; [intros a b L; exists (0 * (b - a)); apply integral_const|]. intros eps He. exists 0. split; [lra|]. intros a b w _ _ I. rewrite (integral_unique _ _ _ _ _ I (integral_const 0 a b)), Rmult_0_l, Rminus_0_r, Rabs_R0. exact He. }
  split; [|split].
  - pose proof (whole_lin _ _ p0 _ _ Z (dens_whole x0 alpha P)) as W. replace (0 + p0 * 1) with p0 in W by ring. revert W. apply whole_ext. intros x. rewrite E, S. unfold packet_slope, pairing, momentum, modulus2. cbn [fst snd]. fold psi. field. exact N.
  - pose proof (whole_lin _ _ (hbar * alpha) _ _ Z (first_whole x0 alpha P)) as W. replace (0 + hbar * alpha * 0) with 0 in W by ring. revert W. apply whole_ext. intros x. rewrite E, S. unfold packet_slope, pairing, momentum, modulus2. cbn [fst snd]. fold psi. field. exact N.
  - pose proof (whole_lin _ _ (hbar ^ 2 * alpha ^ 2) _ _ Z (second_whole x0 alpha P)) as W. replace (0 + hbar ^ 2 * alpha ^ 2 * / (2 * alpha)) with (hbar ^ 2 / 4 / / (2 * alpha)) in W by (field; lra). revert W. apply whole_ext. intros x. rewrite E, S. unfold packet_slope, pairing, momentum, modulus2. cbn [fst snd]. fold psi. field. exact N.
Qed.
Print Assumptions C98_momentum.

(** The integral over the line is one number. *)
Theorem C98_whole_unique f u v : whole f u -> whole f v -> u = v.
Proof.
  intros (F1 & U) (_ & V). destruct (Req_dec u v) as [|N]; auto. exfalso. assert (P : 0 < Rabs (u - v)) by (apply Rabs_pos_lt; lra). destruct (U (Rabs (u - v) / 2)) as (r & R1 & R2); [lra|]. destruct (V (Rabs (u - v) / 2)) as (s & S1 & S2); [lra|].
  destruct (F1 (- (r + s)) (r + s)) as (w & W); [lra|]. specialize (R2 (- (r + s)) (r + s) w ltac:(lra) ltac:(lra) W). specialize (S2 (- (r + s)) (r + s) w ltac:(lra) ltac:(lra) W). pose proof (Rabs_triang (u - w) (w - v)) as T. replace (u - w + (w - v)) with (u - v) in T by ring. rewrite (Rabs_minus_sym u w) in T. lra.
Qed.
Print Assumptions C98_whole_unique.

(** A packet at 1 with momentum 2: there is such a derivative, and the height at the centre. *)
Example C98_example : 0 < PI /\ derivative (gaussian_wfn 1 2 PI 1) (packet_slope 1 2 PI 1) /\ gaussian_wfn 1 2 PI 1 1 = (1, 0).
Proof.
  split; [apply PI_RGT_0|]. split; [apply packet_lim|]. unfold gaussian_wfn. replace (2 * (1 - 1) / 1) with 0 by field. replace (- PI * (1 - 1) ^ 2 / 2) with 0 by field. rewrite exp_0, cos_0, sin_0. replace (PI / PI) with 1 by (field; apply PI_neq0). unfold Rpower. rewrite ln_1, Rmult_0_r, exp_0. f_equal; ring.
Qed.
