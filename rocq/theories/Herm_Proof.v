(** Hermite's polynomials. *)
From Coq Require Import List Arith ZArith Reals Lra Lia.
From Verif Require Import Herm_Model Herm_Spec.
Import ListNotations.
Local Open Scope R_scope.

Lemma peval_add p q x : peval (padd p q) x = peval p x + peval q x.
Proof. revert q. induction p as [|a p IH]; intros [|b q]; cbn [padd peval]; try ring. rewrite IH, plus_IZR. ring. Qed.
Lemma peval_scale c p x : peval (pscale c p) x = IZR c * peval p x.
Proof. induction p as [|a p IH]; cbn [pscale map peval]; [ring|]. fold (pscale c p). rewrite IH, mult_IZR. ring. Qed.
Lemma from_add k p x : peval (pderiv_from (k + 1) p) x = peval (pderiv_from k p) x + peval p x.
Proof. revert k. induction p as [|a p IH]; intros k; cbn [pderiv_from peval]; [ring|]. rewrite IH, !mult_IZR, plus_IZR. ring. Qed.
Lemma from_0 p x : peval (pderiv_from 0 p) x = x * peval (pderiv p) x.
Proof. destruct p as [|a p]; cbn [pderiv_from peval pderiv]; [ring|]. rewrite mult_IZR. change (0 + 1)%Z with 1%Z. ring. Qed.
Lemma deriv_cons a p x : peval (pderiv (a :: p)) x = peval p x + x * peval (pderiv p) x.
Proof. cbn [pderiv]. change 1%Z with (0 + 1)%Z. rewrite from_add, from_0. ring. Qed.
Lemma limit_ext f g x l : (forall y, f y = g y) -> derivable_pt_lim f x l -> derivable_pt_lim g x l.
Proof. intros E H eps P. destruct (H eps P) as (d & D). exists d. intros h. rewrite <- !E. apply D. Qed.
Lemma deriv_lim p x : derivable_pt_lim (peval p) x (peval (pderiv p) x).
Proof.
  induction p as [|a p IH]; [apply (derivable_pt_lim_const 0)|]. rewrite deriv_cons.
  apply (limit_ext (fun y => IZR a + y * peval p y)); [reflexivity|]. replace (peval p x + x * peval (pderiv p) x) with (0 + (1 * peval p x + x * peval (pderiv p) x)) by ring.
  apply (derivable_pt_lim_plus (fun _ => IZR a) (fun y => y * peval p y)); [apply derivable_pt_lim_const|].
  apply (derivable_pt_lim_mult (fun y => y) (peval p)); [apply derivable_pt_lim_id|exact IH].
Qed.
Lemma deriv_ext p q : (forall x, peval p x = peval q x) -> forall x, peval (pderiv p) x = peval (pderiv q) x.
Proof. intros E x. apply (uniqueness_limite (peval p) x); [apply deriv_lim|]. apply (limit_ext (peval q)); [intros; symmetry; apply E|apply deriv_lim]. Qed.
Lemma deriv_add p q x : peval (pderiv (padd p q)) x = peval (pderiv p) x + peval (pderiv q) x.
Proof.
  apply (uniqueness_limite (peval (padd p q)) x); [apply deriv_lim|]. apply (limit_ext (fun y => peval p y + peval q y)); [intros; symmetry; apply peval_add|].
  apply (derivable_pt_lim_plus (peval p) (peval q)); apply deriv_lim.
Qed.
Lemma deriv_scale c p x : peval (pderiv (pscale c p)) x = IZR c * peval (pderiv p) x.
Proof.
  apply (uniqueness_limite (peval (pscale c p)) x); [apply deriv_lim|]. apply (limit_ext (fun y => IZR c * peval p y)); [intros; symmetry; apply peval_scale|].
  apply (derivable_pt_lim_scal (peval p)); apply deriv_lim.
Qed.
Lemma shift_eval p x : peval (pscale (-2) (0%Z :: p)) x = -2 * x * peval p x.
Proof. rewrite peval_scale. cbn [peval]. ring. Qed.
Lemma shift_deriv p x : peval (pderiv (pscale (-2) (0%Z :: p))) x = -2 * (peval p x + x * peval (pderiv p) x).
Proof. rewrite deriv_scale, deriv_cons. reflexivity. Qed.
Lemma gauss_eval p x : peval (gauss_diff p) x = peval (pderiv p) x - 2 * x * peval p x.
Proof. unfold gauss_diff. rewrite peval_add, shift_eval. ring. Qed.

(** the polynomials before the sign *)
Notation G n := (Nat.iter n gauss_diff [1%Z]).
Lemma G_S n x : peval (G (S n)) x = peval (pderiv (G n)) x - 2 * x * peval (G n) x.
Proof. apply gauss_eval. Qed.
Lemma G_deriv n : forall x, peval (pderiv (G (S n))) x = -2 * INR (S n) * peval (G n) x.
Proof.
  induction n as [|n IH]; intros x.
  - cbn. ring.
  - assert (E : peval (pderiv (G (S (S n)))) x = peval (pderiv (pderiv (G (S n)))) x - 2 * (peval (G (S n)) x + x * peval (pderiv (G (S n))) x)).
    { change (G (S (S n))) with (gauss_diff (G (S n))). unfold gauss_diff at 1. rewrite deriv_add, shift_deriv. ring. }
    rewrite E. rewrite (deriv_ext (pderiv (G (S n))) (pscale (-2 * Z.of_nat (S n)) (G n))).
    2:{ intros y. rewrite IH, peval_scale, mult_IZR, <- INR_IZR_INZ. ring. }
    rewrite deriv_scale, mult_IZR, <- INR_IZR_INZ, IH, G_S, (S_INR (S n)). ring.
Qed.

(** Hermite's polynomials *)
Notation H n := (peval (hermite n)).
Notation H' n := (peval (pderiv (hermite n))).
Notation H'' n := (peval (pderiv (pderiv (hermite n)))).
Lemma sign_pow n : IZR ((-1) ^ Z.of_nat n) = (-1) ^ n.
Proof. now rewrite <- pow_IZR. Qed.
Lemma H_G n x : H n x = (-1) ^ n * peval (G n) x.
Proof. unfold hermite. now rewrite peval_scale, sign_pow. Qed.
Lemma H'_G n x : H' n x = (-1) ^ n * peval (pderiv (G n)) x.
Proof. unfold hermite. now rewrite deriv_scale, sign_pow. Qed.
Lemma H_S n x : H (S n) x = 2 * x * H n x - H' n x.
Proof. rewrite !H_G, H'_G, G_S. cbn [pow]. ring. Qed.
Lemma H_deriv n x : H' (S n) x = 2 * INR (S n) * H n x.
Proof. rewrite H'_G, H_G, G_deriv. cbn [pow]. ring. Qed.
Lemma H_ode n x : H'' n x = 2 * x * H' n x - 2 * INR n * H n x.
Proof.
  assert (E : H' (S n) x = 2 * H n x + 2 * x * H' n x - H'' n x).
  { rewrite (deriv_ext (hermite (S n)) (padd (pscale (-1) (pscale (-2) (0%Z :: hermite n))) (pscale (-1) (pderiv (hermite n))))).
    - rewrite deriv_add, !deriv_scale, deriv_cons. ring.
    - intros y. rewrite H_S, peval_add, !peval_scale. cbn [peval]. ring. }
  rewrite H_deriv, S_INR in E. lra.
Qed.
Lemma H_0 x : H 0 x = 1.
Proof. cbn. ring. Qed.
Lemma H_1 x : H 1 x = 2 * x.
Proof. cbn. ring. Qed.
(** not zero on the whole half line *)
Lemma H_nonzero n : ~ forall x, 0 < x -> H n x = 0.
Proof.
  induction n as [|n IH]; intros Z.
  - specialize (Z 1 Rlt_0_1). rewrite H_0 in Z. lra.
  - apply IH. intros x P. assert (D : H' (S n) x = 0).
    { apply (uniqueness_limite (H (S n)) x); [apply deriv_lim|]. intros eps Q. exists (mkposreal x P). intros h Nh Lh. cbn [pos] in Lh. apply Rabs_def2 in Lh.
      rewrite !Z by lra. replace ((0 - 0) / h - 0) with 0 by (field; auto). rewrite Rabs_R0. exact Q. }
    rewrite H_deriv in D. apply Rmult_integral in D as [D|D]; auto. exfalso. pose proof (pos_INR n). rewrite S_INR in D. lra.
Qed.

Lemma gauss_lim x : derivable_pt_lim (fun y => exp (- y ^ 2)) x (-2 * x * exp (- x ^ 2)).
Proof.
  replace (-2 * x * exp (- x ^ 2)) with (exp (- x ^ 2) * (- (INR 2 * x ^ Nat.pred 2))) by (cbn; ring).
  apply (derivable_pt_lim_comp (fun y => - y ^ 2) exp); [|apply derivable_pt_lim_exp]. apply (derivable_pt_lim_opp (fun y => y ^ 2)), derivable_pt_lim_pow.
Qed.
Lemma nth_gauss n : nth_derivative n (fun x => exp (- x ^ 2)) (fun x => peval (G n) x * exp (- x ^ 2)).
Proof.
  induction n as [|n IH].
  - intros x. cbn [Nat.iter nat_rect peval]. ring.
  - exists (fun x => peval (G n) x * exp (- x ^ 2)). split; [exact IH|]. intros x. rewrite G_S.
    replace ((peval (pderiv (G n)) x - 2 * x * peval (G n) x) * exp (- x ^ 2)) with (peval (pderiv (G n)) x * exp (- x ^ 2) + peval (G n) x * (-2 * x * exp (- x ^ 2))) by ring.
    apply (derivable_pt_lim_mult (peval (G n)) (fun y => exp (- y ^ 2))); [apply deriv_lim|apply gauss_lim].
Qed.
Lemma hermite_rodrigues n : rodrigues n (H n).
Proof. exists (fun x => peval (G n) x * exp (- x ^ 2)). split; [apply nth_gauss|]. intros x. rewrite H_G. replace ((-1) ^ n * exp (x ^ 2) * (peval (G n) x * exp (- x ^ 2))) with ((-1) ^ n * peval (G n) x * (exp (x ^ 2) * exp (- x ^ 2))) by ring. rewrite <- exp_plus, Rplus_opp_r, exp_0. ring. Qed.

(** derivatives of [c h(s y) exp(-f/2 y^2)] *)
Section Wave.
Variables c s f : R.
Variable n : nat.
Definition wave (y : R) : R := c * (H n (s * y) * exp (- f / 2 * y ^ 2)).
Definition wave' (y : R) : R := c * ((s * H' n (s * y) - f * y * H n (s * y)) * exp (- f / 2 * y ^ 2)).
Definition wave'' (y : R) : R := c * ((s ^ 2 * H'' n (s * y) - 2 * f * y * s * H' n (s * y) + (f ^ 2 * y ^ 2 - f) * H n (s * y)) * exp (- f / 2 * y ^ 2)).
Lemma exp_lim y : derivable_pt_lim (fun y => exp (- f / 2 * y ^ 2)) y (- f * y * exp (- f / 2 * y ^ 2)).
Proof.
  replace (- f * y * exp (- f / 2 * y ^ 2)) with (exp (- f / 2 * y ^ 2) * (- f / 2 * (INR 2 * y ^ Nat.pred 2))) by (cbn; field).
  apply (derivable_pt_lim_comp (fun y => - f / 2 * y ^ 2) exp); [|apply derivable_pt_lim_exp]. apply (derivable_pt_lim_scal (fun y => y ^ 2)), derivable_pt_lim_pow.
Qed.
Lemma inner_lim (g g' : R -> R) y : derivable_pt_lim g (s * y) (g' (s * y)) -> derivable_pt_lim (fun y => g (s * y)) y (s * g' (s * y)).
Proof.
  intros D. replace (s * g' (s * y)) with (g' (s * y) * (s * 1)) by ring. apply (derivable_pt_lim_comp (fun y => s * y) g); [|exact D]. apply (derivable_pt_lim_scal (fun y => y)), derivable_pt_lim_id.
Qed.
Lemma wave_lim y : derivable_pt_lim wave y (wave' y).
Proof.
  apply (derivable_pt_lim_scal (fun y => H n (s * y) * exp (- f / 2 * y ^ 2))).
  replace ((s * H' n (s * y) - f * y * H n (s * y)) * exp (- f / 2 * y ^ 2)) with (s * H' n (s * y) * exp (- f / 2 * y ^ 2) + H n (s * y) * (- f * y * exp (- f / 2 * y ^ 2))) by ring.
  apply (derivable_pt_lim_mult (fun y => H n (s * y)) (fun y => exp (- f / 2 * y ^ 2))); [apply (inner_lim (H n) (H' n)), deriv_lim|apply exp_lim].
Qed.
Lemma wave'_lim y : derivable_pt_lim wave' y (wave'' y).
Proof.
  apply (derivable_pt_lim_scal (fun y => (s * H' n (s * y) - f * y * H n (s * y)) * exp (- f / 2 * y ^ 2))).
  replace ((s ^ 2 * H'' n (s * y) - 2 * f * y * s * H' n (s * y) + (f ^ 2 * y ^ 2 - f) * H n (s * y)) * exp (- f / 2 * y ^ 2))
    with ((s * (s * H'' n (s * y)) - (f * 1 * H n (s * y) + f * y * (s * H' n (s * y)))) * exp (- f / 2 * y ^ 2) + (s * H' n (s * y) - f * y * H n (s * y)) * (- f * y * exp (- f / 2 * y ^ 2))) by ring.
  apply (derivable_pt_lim_mult (fun y => s * H' n (s * y) - f * y * H n (s * y)) (fun y => exp (- f / 2 * y ^ 2))); [|apply exp_lim].
  apply (derivable_pt_lim_minus (fun y => s * H' n (s * y)) (fun y => f * y * H n (s * y))).
  - apply (derivable_pt_lim_scal (fun y => H' n (s * y))), (inner_lim (H' n) (H'' n)), deriv_lim.
  - apply (derivable_pt_lim_mult (fun y => f * y) (fun y => H n (s * y))); [apply (derivable_pt_lim_scal (fun y => y)), derivable_pt_lim_id|apply (inner_lim (H n) (H' n)), deriv_lim].
Qed.
End Wave.

Lemma stationary_ext hbar m v e f g : (forall x, f x = g x) -> stationary hbar m v e f -> stationary hbar m v e g.
Proof. intros E (p & q & A & B & C). exists p, q. split; [intros x; apply (limit_ext f); auto|]. split; auto. intros x. rewrite <- E. apply C. Qed.
Section Par.
Variables k m hbar : R.
Hypothesis Pk : 0 < k.
Hypothesis Pm : 0 < m.
Hypothesis Ph : 0 < hbar.
Notation f := (m * k / hbar).
Definition coef (n : nat) : R := sqrt (sqrt f) / sqrt (2 ^ n * INR (fact n)) / sqrt (sqrt PI).
Lemma f_pos : 0 < f.
Proof. apply Rdiv_lt_0_compat; auto. now apply Rmult_lt_0_compat. Qed.
Lemma root_pos n : 0 < sqrt (2 ^ n * INR (fact n)).
Proof. apply sqrt_lt_R0, Rmult_lt_0_compat; [apply pow_lt; lra|apply INR_fact_lt_0]. Qed.
Lemma pi_pos : 0 < sqrt (sqrt PI).
Proof. apply sqrt_lt_R0, sqrt_lt_R0, PI_RGT_0. Qed.
Lemma coef_pos n : 0 < coef n.
Proof. unfold coef. apply Rdiv_lt_0_compat; [|apply pi_pos]. apply Rdiv_lt_0_compat; [|apply root_pos]. apply sqrt_lt_R0, sqrt_lt_R0, f_pos. Qed.
Lemma harmonic_wave n y : harmonic_oscillator n k m hbar y = wave (coef n) f f n y.
Proof. unfold harmonic_oscillator, wave, coef. cbn zeta. pose proof (root_pos n). pose proof pi_pos. field. repeat split; lra. Qed.
(** the wave with argument scaled by the square root *)
Lemma right_wave n : stationary hbar m (fun x => m * sho k 0 x) (hbar * k * (INR n + / 2)) (wave (coef n) (sqrt f) f n).
Proof.
  exists (wave' (coef n) (sqrt f) f n), (wave'' (coef n) (sqrt f) f n). split; [apply wave_lim|]. split; [apply wave'_lim|]. intros x.
  unfold wave, wave'', sho. rewrite H_ode. pose proof f_pos as P. assert (S2 : sqrt f * sqrt f = f) by (apply sqrt_sqrt; lra).
  set (e := exp _). set (r := sqrt f) in *. set (h := H n (r * x)). set (h' := H' n (r * x)).
  replace (r ^ 2) with f by (cbn [pow]; rewrite Rmult_1_r; auto).
  replace (f * (2 * (r * x) * h' - 2 * INR n * h) - 2 * f * x * r * h' + (f ^ 2 * x ^ 2 - f) * h) with ((f ^ 2 * x ^ 2 - f - 2 * INR n * f) * h) by ring.
  field. lra.
Qed.
End Par.

(** elsewhere *)
Lemma stationary_shift hbar m k x0 e psi : stationary hbar m (fun x => m * sho k 0 x) e psi -> stationary hbar m (fun x => m * sho k x0 x) e (fun x => psi (x - x0)).
Proof.
  intros (p & q & A & B & C). exists (fun x => p (x - x0)), (fun x => q (x - x0)).
  assert (S : forall f f' x, derivable_pt_lim f (x - x0) (f' (x - x0)) -> derivable_pt_lim (fun x => f (x - x0)) x (f' (x - x0))).
  { intros f f' x D. replace (f' (x - x0)) with (f' (x - x0) * (1 - 0)) by ring. apply (derivable_pt_lim_comp (fun x => x - x0) f); [|exact D].
    apply (derivable_pt_lim_minus (fun x => x) (fun _ => x0)); [apply derivable_pt_lim_id|apply derivable_pt_lim_const]. }
  split; [intros x; apply S, A|]. split; [intros x; apply S, B|]. intros x. specialize (C (x - x0)). unfold sho in *. rewrite Rminus_0_r in C. exact C.
Qed.
