(** C94: harmonic oscillator functions. *)
From Coq Require Import List Arith ZArith Reals Lra Lia.
From Verif Require Import Herm_Model Herm_Spec Herm_Proof.
Import ListNotations.
Local Open Scope R_scope.

Lemma from_length k p : length (pderiv_from k p) = length p.
Proof. revert k. induction p as [|a p IH]; intros k; cbn; auto. Qed.
Lemma gauss_top p a : exists q, gauss_diff (p ++ [a]) = q ++ [-2 * a]%Z /\ length q = S (length p).
Proof.
  unfold gauss_diff, pscale. assert (L : length (pderiv (p ++ [a])) = length p) by (destruct p as [|b p]; [reflexivity|]; cbn [app pderiv length]; rewrite from_length, app_length; cbn; lia).
  assert (Q : forall (u v : list Z) c, (length u <= length v)%nat -> exists w, padd u (v ++ [c]) = w ++ [c] /\ length w = length v).
  { clear. induction u as [|x u IH]; intros v c Hl; [exists v; auto|]. destruct v as [|y v]; [cbn in Hl; lia|]. cbn in Hl. destruct (IH v c) as (w & E & El); [lia|]. exists ((x + y)%Z :: w). cbn. rewrite E. split; auto. }
  replace (map (Z.mul (-2)) (0%Z :: p ++ [a])) with ((map (Z.mul (-2)) (0%Z :: p)) ++ [-2 * a]%Z) by (cbn; now rewrite map_app).
  destruct (Q (pderiv (p ++ [a])) (map (Z.mul (-2)) (0%Z :: p)) (-2 * a)%Z) as (w & E & El); [rewrite L, map_length; cbn; lia|].
  exists w. rewrite E, El, map_length. split; reflexivity.
Qed.
(** Differentiating gives Hermite's polynomials: of degree [n], with top coefficient 2^n. *)
Theorem C94_hermite n : rodrigues n (peval (hermite n)) /\ length (hermite n) = S n /\ nth n (hermite n) 0%Z = (2 ^ Z.of_nat n)%Z.
Proof.
  split; [apply hermite_rodrigues|].
  assert (G : exists q, Nat.iter n gauss_diff [1%Z] = q ++ [(-2) ^ Z.of_nat n]%Z /\ length q = n).
  { induction n as [|n (q & E & L)]; [exists []; split; reflexivity|]. destruct (gauss_top q ((-2) ^ Z.of_nat n)%Z) as (w & Ew & Lw). exists w. cbn [Nat.iter nat_rect]. change (nat_rect (fun _ => list Z) [1%Z] (fun _ => gauss_diff) n) with (Nat.iter n gauss_diff [1%Z]).
    rewrite E, Ew, Lw, L. split; [|reflexivity]. rewrite Nat2Z.inj_succ, Z.pow_succ_r by lia. reflexivity. }
  destruct G as (q & E & L). unfold hermite, pscale. rewrite E, map_app, app_length, map_length, L. split; [cbn; lia|].
  rewrite app_nth2 by (rewrite map_length; lia). rewrite map_length, L, Nat.sub_diag. cbn [map nth]. rewrite <- Z.pow_mul_l. reflexivity.
Qed.
Print Assumptions C94_hermite.

(** If [m k / hbar] is one, or [n] is zero or one, the function solves Schroedinger's equation of
    an oscillator of mass [m] and angular frequency [k]. *)
Lemma centred n k m hbar : 0 < k -> 0 < m -> 0 < hbar -> m * k / hbar = 1 \/ (n <= 1)%nat ->
  stationary hbar m (fun x => m * sho k 0 x) (hbar * k * (INR n + / 2)) (harmonic_oscillator n k m hbar).
Proof.
  intros Pk Pm Ph C. pose proof (f_pos k m hbar Pk Pm Ph) as P. destruct n as [|[|n]].
  - apply (stationary_ext _ _ _ _ (wave (coef k m hbar 0) (sqrt (m * k / hbar)) (m * k / hbar) 0)); [|apply right_wave; auto].
    intros x. rewrite harmonic_wave by auto. unfold wave. now rewrite !H_0.
  - assert (R : forall x, harmonic_oscillator 1 k m hbar x = sqrt (m * k / hbar) * wave (coef k m hbar 1) (sqrt (m * k / hbar)) (m * k / hbar) 1 x).
    { intros x. rewrite harmonic_wave by auto. unfold wave. rewrite !H_1. replace (m * k / hbar * x) with (sqrt (m * k / hbar) * (sqrt (m * k / hbar) * x)) by (rewrite <- Rmult_assoc, sqrt_sqrt; lra). ring. }
    destruct (right_wave k m hbar Pk Pm Ph 1) as (p & q & A & B & E).
    apply (stationary_ext _ _ _ _ (fun x => sqrt (m * k / hbar) * wave (coef k m hbar 1) (sqrt (m * k / hbar)) (m * k / hbar) 1 x)); [intros; symmetry; apply R|].
    exists (fun x => sqrt (m * k / hbar) * p x), (fun x => sqrt (m * k / hbar) * q x).
    split; [intros x; apply (derivable_pt_lim_scal (wave (coef k m hbar 1) (sqrt (m * k / hbar)) (m * k / hbar) 1)), A|].
    split; [intros x; apply (derivable_pt_lim_scal p), B|]. intros x. specialize (E x). set (w := wave _ _ _ _ x) in *.
    replace (- hbar ^ 2 / (2 * m) * (sqrt (m * k / hbar) * q x) + m * sho k 0 x * (sqrt (m * k / hbar) * w)) with (sqrt (m * k / hbar) * (- hbar ^ 2 / (2 * m) * q x + m * sho k 0 x * w)) by ring. rewrite E. ring.
  - destruct C as [C|C]; [|lia]. apply (stationary_ext _ _ _ _ (wave (coef k m hbar (S (S n))) (sqrt (m * k / hbar)) (m * k / hbar) (S (S n)))); [|apply right_wave; auto].
    intros x. rewrite harmonic_wave by auto. unfold wave. now rewrite C, sqrt_1.
Qed.
Theorem C94_stationary n k m hbar x0 : 0 < k -> 0 < m -> 0 < hbar -> m * k / hbar = 1 \/ (n <= 1)%nat ->
  stationary hbar m (fun x => m * sho k x0 x) (hbar * k * (INR n + / 2)) (fun x => harmonic_oscillator n k m hbar (x - x0)).
Proof. intros. apply stationary_shift, centred; auto. Qed.
Print Assumptions C94_stationary.

(** At unit parameters each function arises from the one before by the ladder operator, and the
    first is the normalised Gaussian. *)
Theorem C94_ladder : (forall x, harmonic_oscillator 0 1 1 1 x = exp (- x ^ 2 / 2) / sqrt (sqrt PI)) /\
  forall n, exists psi', (forall x, derivable_pt_lim (harmonic_oscillator n 1 1 1) x (psi' x)) /\
    forall x, x * harmonic_oscillator n 1 1 1 x - psi' x = sqrt (2 * (INR n + 1)) * harmonic_oscillator (S n) 1 1 1 x.
Proof.
  split.
  - intros x. rewrite harmonic_wave by lra. unfold wave, coef. rewrite H_0. replace (1 * 1 / 1) with 1 by field. cbn [pow fact INR]. rewrite Rmult_1_l, !sqrt_1. replace (- (1) / 2 * (x * (x * 1))) with (- (x * (x * 1)) / 2) by field. pose proof pi_pos. field. lra.
  - intros n. exists (wave' (coef 1 1 1 n) (1 * 1 / 1) (1 * 1 / 1) n). split.
    + intros x. apply (limit_ext (wave (coef 1 1 1 n) (1 * 1 / 1) (1 * 1 / 1) n)); [intros; symmetry; apply harmonic_wave; lra|apply wave_lim].
    + intros x. rewrite !harmonic_wave by lra. unfold wave, wave'. replace (1 * 1 / 1) with 1 by field. rewrite !Rmult_1_l, H_S. set (h := peval (hermite n) x). set (h' := peval (pderiv (hermite n)) x). set (ex := exp _).
      assert (Cn : sqrt (2 * (INR n + 1)) * coef 1 1 1 (S n) = coef 1 1 1 n).
      { unfold coef. replace (2 ^ S n * INR (fact (S n))) with (2 * (INR n + 1) * (2 ^ n * INR (fact n))) by (rewrite fact_simpl, mult_INR, S_INR; cbn [pow]; ring).
        pose proof (pos_INR n). assert (P1 : 0 < sqrt (2 * (INR n + 1))) by (apply sqrt_lt_R0; lra). pose proof (root_pos n) as P2. pose proof pi_pos as P3.
        rewrite (sqrt_mult_alt (2 * (INR n + 1)) (2 ^ n * INR (fact n))) by lra. field. repeat split; lra. }
      rewrite <- Cn. ring.
Qed.
Print Assumptions C94_ladder.

(** Any parameters: the function at unit parameters, stretched, solves the equation. *)
Theorem C94_stretched n k m hbar : 0 < k -> 0 < m -> 0 < hbar ->
  stationary hbar m (fun x => m * sho k 0 x) (hbar * k * (INR n + / 2)) (stretched (sqrt (m * k / hbar)) (harmonic_oscillator n 1 1 1)).
Proof.
  intros Pk Pm Ph. apply (stationary_ext _ _ _ _ (wave (coef k m hbar n) (sqrt (m * k / hbar)) (m * k / hbar) n)); [|apply right_wave; auto].
  intros x. unfold stretched. rewrite harmonic_wave by lra. unfold wave, coef. pose proof (f_pos k m hbar Pk Pm Ph) as P. replace (1 * 1 / 1) with 1 by field. rewrite !sqrt_1, Rmult_1_l.
  replace (- (1) / 2 * (sqrt (m * k / hbar) * x) ^ 2) with (- (m * k / hbar) / 2 * x ^ 2).
  2:{ rewrite <- (sqrt_sqrt (m * k / hbar)) at 1 by lra. field. }
  unfold Rdiv. ring.
Qed.
Print Assumptions C94_stretched.
(** The function with [n = 1] is the square root of [m k / hbar] times as long as that state. *)
Theorem C94_first k m hbar y : 0 < k -> 0 < m -> 0 < hbar ->
  harmonic_oscillator 0 k m hbar y = stretched (sqrt (m * k / hbar)) (harmonic_oscillator 0 1 1 1) y /\
  harmonic_oscillator 1 k m hbar y = sqrt (m * k / hbar) * stretched (sqrt (m * k / hbar)) (harmonic_oscillator 1 1 1 1) y.
Proof.
  intros Pk Pm Ph. pose proof (f_pos k m hbar Pk Pm Ph) as P. unfold stretched. rewrite !harmonic_wave by lra. unfold wave, coef. replace (1 * 1 / 1) with 1 by field. rewrite !sqrt_1, !H_0, !H_1, !Rmult_1_l.
  replace (- (1) / 2 * (sqrt (m * k / hbar) * y) ^ 2) with (- (m * k / hbar) / 2 * y ^ 2).
  2:{ rewrite <- (sqrt_sqrt (m * k / hbar)) at 1 by lra. field. }
  split; [unfold Rdiv; ring|]. replace (m * k / hbar * y) with (sqrt (m * k / hbar) * (sqrt (m * k / hbar) * y)) by (rewrite <- Rmult_assoc, sqrt_sqrt; lra). unfold Rdiv. ring.
Qed.
Print Assumptions C94_first.

(** For [n] from two on and [m k / hbar] other than one it is no stationary state at all. *)
Theorem C94_stationary_refuted n k m hbar e : (2 <= n)%nat -> 0 < k -> 0 < m -> 0 < hbar -> m * k / hbar <> 1 ->
  ~ stationary hbar m (fun x => m * sho k 0 x) e (harmonic_oscillator n k m hbar).
Proof.
  intros Hn Pk Pm Ph N1 (p & q & A & B & E). pose proof (f_pos k m hbar Pk Pm Ph) as P.
  assert (Ep : forall x, p x = wave' (coef k m hbar n) (m * k / hbar) (m * k / hbar) n x).
  { intros x. apply (uniqueness_limite (harmonic_oscillator n k m hbar) x); [apply A|]. apply (limit_ext (wave (coef k m hbar n) (m * k / hbar) (m * k / hbar) n)); [intros; symmetry; apply harmonic_wave; auto|apply wave_lim]. }
  assert (Eq : forall x, q x = wave'' (coef k m hbar n) (m * k / hbar) (m * k / hbar) n x).
  { intros x. apply (uniqueness_limite p x); [apply B|]. apply (limit_ext (wave' (coef k m hbar n) (m * k / hbar) (m * k / hbar) n)); [intros; symmetry; apply Ep|apply wave'_lim]. }
  pose proof (coef_pos k m hbar Pk Pm Ph n) as Pc. set (f := m * k / hbar) in *. set (c := coef k m hbar n) in *.
  assert (O1 : forall u, 2 * f * (f - 1) * u * peval (pderiv (hermite n)) u = (2 * INR n * f ^ 2 + f - 2 * m * e / hbar ^ 2) * peval (hermite n) u).
  { intros u. specialize (E (u / f)). rewrite Eq, harmonic_wave in E by auto. fold f c in E. unfold wave, wave'', sho in E. replace (f * (u / f)) with u in E by (field; lra).
    pose proof (exp_pos (- f / 2 * (u / f) ^ 2)) as Pe. set (ex := exp _) in *. rewrite H_ode in E. set (h := peval (hermite n) u) in *. set (h' := peval (pderiv (hermite n)) u) in *.
    assert (K : k = f * hbar / m) by (unfold f; field; lra). rewrite K in E.
    apply (Rmult_eq_reg_l (c * ex * hbar ^ 2 / (2 * m))).
    2:{ apply Rgt_not_eq. apply Rdiv_lt_0_compat; [|lra]. apply Rmult_lt_0_compat; [apply Rmult_lt_0_compat; auto|apply pow_lt; auto]. }
    apply (Rplus_eq_reg_r (e * (c * (h * ex)))). rewrite <- E at 1. clearbody f c ex h h'. clear - P Pm Ph. field. lra. }
  assert (N0 : 2 * f * (f - 1) <> 0) by (intros C; apply Rmult_integral in C as [C|C]; lra).
  set (b := (2 * INR n * f ^ 2 + f - 2 * m * e / hbar ^ 2) / (2 * f * (f - 1))).
  assert (O2 : forall u, u * peval (pderiv (hermite n)) u = b * peval (hermite n) u).
  { intros u. apply (Rmult_eq_reg_l (2 * f * (f - 1))); auto. rewrite <- Rmult_assoc, O1. unfold b. field. split; lra. }
  assert (O3 : forall u, peval (pderiv (hermite n)) u + u * peval (pderiv (pderiv (hermite n))) u = b * peval (pderiv (hermite n)) u).
  { intros u. apply (uniqueness_limite (fun u => u * peval (pderiv (hermite n)) u) u).
    - replace (peval (pderiv (hermite n)) u) with (1 * peval (pderiv (hermite n)) u) at 1 by ring. apply (derivable_pt_lim_mult (fun u => u) (peval (pderiv (hermite n)))); [apply derivable_pt_lim_id|apply deriv_lim].
    - apply (limit_ext (fun u => b * peval (hermite n) u)); [intros; symmetry; apply O2|]. apply (derivable_pt_lim_scal (peval (hermite n))), deriv_lim. }
  assert (O4 : forall u, peval (hermite n) u <> 0 -> b * (b - 1) = 2 * (b - INR n) * u ^ 2).
  { intros u Nu. apply (Rmult_eq_reg_r (peval (hermite n) u)); auto. specialize (O2 u). specialize (O3 u). rewrite H_ode in O3. set (h := peval (hermite n) u) in *. set (h' := peval (pderiv (hermite n)) u) in *.
    assert (M : u * (h' + u * (2 * u * h' - 2 * INR n * h)) = b * (u * h')) by (rewrite O3; ring). replace (u * (h' + u * (2 * u * h' - 2 * INR n * h))) with (u * h' + 2 * u ^ 2 * (u * h') - 2 * INR n * u ^ 2 * h) in M by ring.
    rewrite O2 in M. lra. }
  (* two points off the zeros *)
  assert (X : ~ forall u, 0 < u -> peval (hermite n) u <> 0 -> False) by (intros X; apply (H_nonzero n); intros u Pu; destruct (Req_dec (peval (hermite n) u) 0) as [|Nu]; auto; destruct (X u Pu Nu)).
  apply X. intros u Pu Nu.
  assert (Y : exists w, u < w /\ peval (hermite n) w <> 0).
  { assert (Cc : continuity_pt (peval (hermite n)) u) by (apply derivable_continuous_pt; exists (peval (pderiv (hermite n)) u); apply deriv_lim).
    destruct (Cc (Rabs (peval (hermite n) u)) (Rabs_pos_lt _ Nu)) as (d & Pd & D). exists (u + d / 2). split; [lra|]. intros Z.
    specialize (D (u + d / 2)). cbn in D. unfold R_dist in D. rewrite Z in D. assert (F : Rabs (0 - peval (hermite n) u) < Rabs (peval (hermite n) u)).
    { apply D. split; [split; [exact I|lra]|]. replace (u + d / 2 - u) with (d / 2) by ring. rewrite Rabs_pos_eq; lra. }
    rewrite Rminus_0_l, Rabs_Ropp in F. lra. }
  destruct Y as (w & Lw & Nw). pose proof (O4 u Nu) as E1. pose proof (O4 w Nw) as E2. rewrite E1 in E2.
  assert (U : u ^ 2 < w ^ 2) by (cbn [pow]; rewrite !Rmult_1_r; apply Rmult_le_0_lt_compat; lra).
  assert (Z : 2 * (b - INR n) = 0) by (assert (Z : 2 * (b - INR n) * (w ^ 2 - u ^ 2) = 0) by lra; apply Rmult_integral in Z as [Z|Z]; auto; lra).
  assert (Bn : b = INR n) by lra. rewrite Z, Rmult_0_l, Bn in E1. apply le_INR in Hn. cbn in Hn. apply Rmult_integral in E1 as [C|C]; lra.
Qed.
Print Assumptions C94_stationary_refuted.

(** [sho(k)] itself is the potential of mass one: with another mass the ground state function is
    not stationary in it. *)
Theorem C94_mass_refuted k m hbar e : 0 < k -> 0 < m -> 0 < hbar -> m <> 1 ->
  ~ stationary hbar m (sho k 0) e (harmonic_oscillator 0 k m hbar).
Proof.
  intros Pk Pm Ph N1 (p & q & A & B & E). destruct (centred 0 k m hbar Pk Pm Ph) as (p' & q' & A' & B' & E'); [right; lia|].
  assert (Ep : forall x, p x = p' x) by (intros x; apply (uniqueness_limite (harmonic_oscillator 0 k m hbar) x); auto).
  assert (Eq : forall x, q x = q' x) by (intros x; apply (uniqueness_limite p x); auto; apply (limit_ext p'); auto).
  assert (W : forall x, harmonic_oscillator 0 k m hbar x <> 0).
  { intros x. rewrite harmonic_wave by auto. unfold wave. rewrite H_0. apply Rgt_not_eq. apply Rmult_lt_0_compat; [apply coef_pos; auto|]. rewrite Rmult_1_l. apply exp_pos. }
  assert (D : forall x, (m - 1) * sho k 0 x = hbar * k * (INR 0 + / 2) - e).
  { intros x. apply (Rmult_eq_reg_r (harmonic_oscillator 0 k m hbar x)); auto. specialize (E x). specialize (E' x). rewrite Eq in E. lra. }
  pose proof (D 0) as D0. pose proof (D 1) as D1. unfold sho in D0, D1. assert (Z : (m - 1) * k ^ 2 = 0) by lra. apply Rmult_integral in Z as [Z|Z]; [lra|]. apply (pow_nonzero k 2) in Z; lra.
Qed.
Print Assumptions C94_mass_refuted.

(** H_3 = 8 x^3 - 12 x; two parameters with [m k / hbar = 1] and two without. *)
Example C94_example : hermite 3 = [0; -12; 0; 8]%Z /\ harmonic_oscillator 2 1 1 1 0 < 0 /\
  stationary 2 4 (fun x => 4 * sho (1 / 2) 0 x) (5 / 2) (harmonic_oscillator 2 (1 / 2) 4 2) /\
  ~ stationary 1 1 (fun x => 1 * sho 2 0 x) 5 (harmonic_oscillator 2 2 1 1).
Proof.
  split; [reflexivity|]. split; [|split].
  - rewrite harmonic_wave by lra. unfold wave. pose proof (coef_pos 1 1 1 Rlt_0_1 Rlt_0_1 Rlt_0_1 2) as P. replace (peval (hermite 2) (1 * 1 / 1 * 0)) with (-2) by (cbn; field).
    pose proof (exp_pos (- (1 * 1 / 1) / 2 * 0 ^ 2)) as Q. pose proof (Rmult_lt_0_compat _ _ P Q). lra.
  - replace (5 / 2) with (2 * (1 / 2) * (INR 2 + / 2)) by (cbn; field). apply centred; try lra.
  - apply C94_stationary_refuted; try lra; lia.
Qed.
