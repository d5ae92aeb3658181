(** C42: the numbers in decomposed correlation functions. *)
From Coq Require Import List Arith ZArith Lia Reals Lra Bool.
From Verif Require Import Py Alg Cplx Corr_Model Corr_Spec Corr_Proof CorrX_Spec CorrX_Proof.
Import ListNotations.
Local Open Scope star_scope.
Add Ring Crp : (r_theory C_star).

(** Pade residues: those of the partial fractions of one rational function *)
Theorem C42_pade_fractions : forall n (P Q : list R) (x : R), (1 <= n)%nat ->
  (forall a b, (a < n)%nat -> (b < n)%nat -> a <> b -> nth a Q 0%R <> nth b Q 0%R) -> (forall a, (a < n)%nat -> x <> nth a Q 0%R) ->
  Rsum n (fun i => residue n P Q i / (nth i Q 0 - x))%R =
  (0.5 * INR n * (2 * INR n + 3) * Rprod (n - 1) (fun j => nth j P 0 - x) / Rprod n (fun j => nth j Q 0 - x))%R.
Proof. exact pade_fractions. Qed.
Print Assumptions C42_pade_fractions.

(** Brownian: the first two exponents are the roots of [x^2 + 2 gamma x + omega^2]; the imaginary part of the function
    does not depend on the temperature, and the two coefficients satisfy detailed balance *)
Theorem C42_brownian_roots : forall lambda omega gamma k beta, (gamma ^ 2 < omega ^ 2)%R ->
  let w := sqrt (omega * omega - gamma * gamma) in
  exists c cc g, brownian lambda omega gamma k beta = mkCorr (Some (k + 2)%Z) beta (Some c) (Some cc) (Some g) /\
    (forall i, (i < 2)%nat -> let x := nth i g 0 in x * x + RtoC (2 * gamma) * x + RtoC (omega * omega) = 0) /\ nth 0 g 0 <> nth 1 g 0 /\
    (forall t, exp_sum c g t - exp_sum cc g t = RtoC (-2 * (lambda * (omega * omega) / w) * (exp (- gamma * t) * sin (w * t))) * C_i) /\
    match beta with
    | None => nth 0 c 0 = RtoC (lambda * (omega * omega) / w) /\ nth 1 c 0 = 0
    | Some b => (b <> 0)%R ->
        nth 0 c 0 * (1 - Cexp (RtoC (- b) * (C_i * nth 0 g 0))) = RtoC (lambda * (omega * omega) / w) /\
        nth 1 c 0 * (Cexp (RtoC b * (- C_i * nth 1 g 0)) - 1) = RtoC (lambda * (omega * omega) / w)
    end.
Proof.
  intros lambda omega gamma k beta Hg w. assert (Hw : w = sqrt (omega ^ 2 - gamma ^ 2)) by (unfold w; f_equal; ring). assert (W0 : (0 < w)%R) by (rewrite Hw; apply sqrt_lt_R0; lra). assert (WW : (w * w = omega * omega - gamma * gamma)%R) by (unfold w; apply sqrt_sqrt; nra).
  unfold brownian. rewrite <- Hw. cbn zeta. do 3 eexists. split; [reflexivity|]. cbn [app nth]. split; [|split; [|split]].
  - intros [|[|i]] Hi; [| |lia]; cbn zeta; apply Ceq; cbn; nra.
  - intros E. apply (f_equal snd) in E. cbn in E. lra.
  - intros t. cbn [exp_sum]. match goal with |- context [exp_sum ?a ?b t] => set (rest := exp_sum a b t) end.
    set (c1 := match beta with None => _ | Some b => Ccoth (RtoC (b / 2) * (RtoC w - C_i * RtoC gamma)) end). set (c2 := match beta with None => _ | Some b => Ccoth (RtoC (b / 2) * (RtoC w + C_i * RtoC gamma)) end).
    assert (C12 : rconj c2 = c1). { unfold c1, c2. destruct beta as [b|]; [|apply rconj_1]. rewrite <- coth_conj. f_equal. rewrite rconj_mul, rconj_add, rconj_mul, !RtoC_conj. replace (rconj C_i) with (- C_i) by (apply Ceq; cbn; ring). ring. }
    assert (C21 : rconj c1 = c2) by (rewrite <- C12; apply rconj_invol). rewrite C12, C21.
    set (pre := RtoC (lambda * omega ^ 2 / (2 * w))). set (e1 := Cexp _). set (e2 := Cexp _). transitivity (RtoC 2 * pre * (e1 - e2)); [replace (RtoC 2) with (1 + 1 : C_star) by (apply Ceq; cbn; ring); ring|].
    assert (X : e1 - e2 = RtoC (-2 * (exp (- gamma * t) * sin (w * t))) * C_i).
    { unfold e1, e2, Cexp. apply Ceq; cbn; replace ((- gamma - (0 * w - 1 * 0)) * t - (0 - (0 * 0 + 1 * w)) * 0)%R with (- gamma * t)%R by ring; replace ((- gamma + (0 * w - 1 * 0)) * t - (0 + (0 * 0 + 1 * w)) * 0)%R with (- gamma * t)%R by ring; replace ((- gamma - (0 * w - 1 * 0)) * 0 + (0 - (0 * 0 + 1 * w)) * t)%R with (- (w * t))%R by ring; replace ((- gamma + (0 * w - 1 * 0)) * 0 + (0 + (0 * 0 + 1 * w)) * t)%R with (w * t)%R by ring; rewrite ?cos_neg, ?sin_neg; ring. }
    rewrite X. unfold pre. transitivity (RtoC (2 * (lambda * omega ^ 2 / (2 * w)) * (-2 * (exp (- gamma * t) * sin (w * t)))) * C_i); [rewrite !RtoC_mul; ring|]. do 2 f_equal. field. lra.
  - destruct beta as [b|].
    + intros Hb.
      set (x := RtoC (b / 2) * (RtoC w - C_i * RtoC gamma)). set (y := RtoC (b / 2) * (RtoC w + C_i * RtoC gamma)). assert (X0 : fst x <> 0%R) by (unfold x; cbn; assert (b / 2 * w <> 0)%R by (apply Rmult_integral_contrapositive_currified; lra); lra). assert (Y0 : fst y <> 0%R) by (unfold y; cbn; assert (b / 2 * w <> 0)%R by (apply Rmult_integral_contrapositive_currified; lra); lra).
      destruct (coth_plus x X0) as (A & _). destruct (coth_plus y Y0) as (_ & B).
      assert (P : RtoC (lambda * omega ^ 2 / (2 * w)) * (1 + 1) = RtoC (lambda * (omega * omega) / w)) by (apply Ceq; cbn; [field; lra|ring]).
      split.
      * replace (RtoC (- b) * (C_i * (RtoC (- gamma) - C_i * RtoC w))) with (- (x + x)) by (unfold x; apply Ceq; cbn; field). rewrite <- P, <- A. ring.
      * replace (RtoC b * (- C_i * (RtoC (- gamma) + C_i * RtoC w))) with (y + y) by (unfold y; apply Ceq; cbn; field). rewrite <- P, <- B. ring.
    + split; [apply Ceq; cbn; [field; lra|ring]|ring].
Qed.
Print Assumptions C42_brownian_roots.

(** The later terms: the [i]-th belongs to the Matsubara frequency [2 pi i / beta].  Their coefficients are
    [-2 J(v) / beta], with the density at the real frequency [v]; the residues are [2 i J(i v) / beta].  The
    two agree only if [omega^2 = 2 gamma^2] *)
Theorem C42_brownian_terms_refuted : forall lambda omega gamma k b i, (gamma ^ 2 < omega ^ 2)%R -> gamma <> 0%R -> lambda <> 0%R -> (0 < b)%R -> (1 <= i)%nat -> (Z.of_nat i < k)%Z ->
  exists c cc g v j, brownian lambda omega gamma k (Some b) = mkCorr (Some (k + 2)%Z) (Some b) (Some c) (Some cc) (Some g) /\
    (v * b = 2 * PI * INR i)%R /\ nth (S i) g 0 = RtoC (- v) /\ oscillator_density lambda omega gamma (RtoC v) (RtoC j) /\
    nth (S i) c 0 = RtoC (-2 * j / b) /\ nth (S i) cc 0 = RtoC (-2 * j / b) /\
    forall y, oscillator_density lambda omega gamma (C_i * RtoC v) y -> y * (RtoC (2 / b) * C_i) = nth (S i) c 0 -> (omega * omega = 2 * (gamma * gamma))%R.
Proof.
  intros lambda omega gamma k b i Hg G0 L0 Hb H1 Hk. set (v := (2 * PI * INR i / b)%R). set (j := brownian_density lambda omega gamma v). pose proof PI_RGT_0 as Hpi. assert (I0 : (1 <= INR i)%R) by (change 1%R with (INR 1); apply le_INR; exact H1). assert (V0 : (0 < v)%R) by (unfold v; apply Rdiv_lt_0_compat; [apply Rmult_lt_0_compat; lra|exact Hb]).
  assert (N : forall (f : nat -> C_star) a a', nth (S i) ([a; a'] ++ map f (seq 1 (Z.to_nat (k - 1)))) 0 = f i).
  { intros f a a'. destruct i as [|i]; [lia|]. cbn [app nth]. rewrite (nth_indep _ 0 (f 0%nat)) by (rewrite map_length, seq_length; lia). rewrite map_nth, seq_nth by lia. reflexivity. }
  set (D := ((v * v - omega * omega) * (v * v - omega * omega) + 4 * (gamma * gamma) * (v * v))%R). assert (OM : (0 < omega * omega)%R) by nra.
  assert (GV : (0 < gamma * gamma * (v * v))%R) by (apply Rmult_lt_0_compat; [apply Rsqr_pos_lt; exact G0|nra]).
  assert (D0 : (0 < D)%R) by (unfold D; assert (0 <= (v * v - omega * omega) * (v * v - omega * omega))%R by (apply Rle_0_sqr); lra).
  assert (J : (j * D = 4 * lambda * (omega * omega) * gamma * v)%R) by (unfold j, brownian_density; replace ((v ^ 2 - omega ^ 2) ^ 2 + (2 * gamma * v) ^ 2)%R with D by (unfold D; ring); field; lra).
  unfold brownian. replace (1 <? k)%Z with true by (symmetry; apply Z.ltb_lt; lia). do 3 eexists. exists v, j. split; [reflexivity|]. rewrite !N. fold v. fold j. split; [unfold v; field; lra|]. split; [reflexivity|]. split; [|split; [reflexivity|split; [reflexivity|]]].
  - unfold oscillator_density. cbn zeta. rewrite <- !RtoC_mul, <- !RtoC_sub, <- !RtoC_mul, <- RtoC_add, <- RtoC_mul. f_equal. rewrite <- J. unfold D. ring.
  - intros y Hy Ey. assert (Yi : y = C_i * RtoC j).
    { transitivity (RtoC (- (b / 2)) * C_i * (y * (RtoC (2 / b) * C_i))); [|rewrite Ey; apply Ceq; cbn; field; lra]. apply Ceq; cbn; field; lra. }
    rewrite Yi in Hy. unfold oscillator_density in Hy. apply (f_equal snd) in Hy. cbn in Hy. assert (J0 : j <> 0%R). { intros Z. rewrite Z, Rmult_0_l in J. symmetry in J. repeat (apply Rmult_integral in J as [J|J]; try lra). }
    assert (Q : (j * ((v * v + omega * omega) * (v * v + omega * omega) - 4 * (gamma * gamma) * (v * v)) = j * D)%R) by (rewrite J; lra). apply Rmult_eq_reg_l in Q; [|exact J0]. unfold D in Q. assert (Q2 : (v * v * (omega * omega) = v * v * (2 * (gamma * gamma)))%R) by lra. apply Rmult_eq_reg_l in Q2; [exact Q2|nra].
Qed.
Print Assumptions C42_brownian_terms_refuted.

(** ** Examples *)
(** 2 roots: the double of [p = 2], [q = 1, 3] at zero *)
Example C42_pade_fractions_ex : (residue 2 [2] [1; 3] 0 / (1 - 0) + residue 2 [2] [1; 3] 1 / (3 - 0) = 14 / 3)%R.
Proof.
  pose proof (C42_pade_fractions 2 [2%R] [1%R; 3%R] 0%R) as H. cbn [Rsum Rprod nth Nat.sub INR] in H. transitivity (0 + residue 2 [2] [1; 3] 0 / (1 - 0) + residue 2 [2] [1; 3] 1 / (3 - 0))%R; [ring|]. rewrite H; [replace 0.5%R with (1 / 2)%R by lra; field|lia| |].
  - intros [|[|a]] [|[|c]] Ha Hc N; try lia; cbn [nth]; lra.
  - intros [|[|a]] Ha; try lia; cbn [nth]; lra.
Qed.
(** [x^2 + 6 x + 25 = 0]: the roots are [-3 -+ 4 i] *)
Example C42_brownian_roots_ex : exists c cc g, brownian 1 5 3 0 (Some 1%R) = mkCorr (Some 2%Z) (Some 1%R) (Some c) (Some cc) (Some g) /\
  (nth 1 g 0 * nth 1 g 0 + RtoC (2 * 3) * nth 1 g 0 + RtoC (5 * 5) = 0) /\ forall t, exp_sum c g t - exp_sum cc g t = RtoC (-2 * (25 / 4) * (exp (- 3 * t) * sin (4 * t))) * C_i.
Proof.
  destruct (C42_brownian_roots 1 5 3 0 (Some 1%R)) as (c & cc & g & E & R & _ & T & _); [lra|]. replace (5 * 5 - 3 * 3)%R with (4 * 4)%R in T by ring. rewrite sqrt_square in T by lra. exists c, cc, g. split; [exact E|]. split; [apply (R 1%nat); lia|]. intros t. rewrite T. do 3 f_equal. field.
Qed.
Example C42_brownian_terms_ex : exists c cc g v, brownian 1 2 1 3 (Some 1%R) = mkCorr (Some 5%Z) (Some 1%R) (Some c) (Some cc) (Some g) /\ (v * 1 = 2 * PI * INR 2)%R /\ nth 3 g 0 = RtoC (- v) /\
  forall y, oscillator_density 1 2 1 (C_i * RtoC v) y -> y * (RtoC (2 / 1) * C_i) <> nth 3 c 0.
Proof.
  destruct (C42_brownian_terms_refuted 1 2 1 3 1 2) as (c & cc & g & v & j & E & V & G & _ & _ & _ & F); [lra|lra|lra|lra|lia|lia|]. exists c, cc, g, v. split; [exact E|]. split; [exact V|]. split; [exact G|]. intros y Hy Z. specialize (F y Hy Z). lra.
Qed.
