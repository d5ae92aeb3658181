(** C96: window and potential functions. *)
From Coq Require Import List Reals Lra Lia.
From Verif Require Import Py Window_Model Window_Spec.
Import ListNotations.
Local Open Scope R_scope.

Lemma window_all l g : 0 < l -> g 0 = 1 -> g l = 0 -> (forall t, g (- t) = g t) -> (forall s t, 0 <= s -> s < t -> t <= l -> g t < g s) -> window l g.
Proof.
  intros P G0 G1 Ev De. repeat split; auto.
  - assert (Q : forall s, 0 <= s <= l -> 0 <= g s) by (intros s Hs; destruct (Req_dec s l) as [->|]; [lra|]; rewrite <- G1; apply Rlt_le, De; lra).
    destruct (Rle_dec 0 t); [apply Q; lra|rewrite <- Ev; apply Q; lra].
  - assert (Q : forall s, 0 <= s <= l -> g s <= 1) by (intros s Hs; destruct (Req_dec s 0) as [->|]; [lra|]; rewrite <- G0; apply Rlt_le, De; lra).
    destruct (Rle_dec 0 t); [apply Q; lra|rewrite <- Ev; apply Q; lra].
Qed.
(** without the moduli, for times that are not negative *)
Definition g1_right (l t : R) : R := (1 - t / l) * cos (PI / l * t) + sin (PI / l * t) / PI.
Lemma g1_pos l t : 0 <= t -> g1prime l t = g1_right l t.
Proof. intros H. unfold g1prime, g1_right. cbn zeta. rewrite Rabs_pos_eq by auto. replace (PI * t / l) with (PI / l * t) by (unfold Rdiv; ring). reflexivity. Qed.
Lemma g1_lim l t : l <> 0 -> derivable_pt_lim (g1_right l) t (- (PI / l) * (1 - t / l) * sin (PI / l * t)).
Proof.
  intros P. pose proof PI_RGT_0. assert (Dl : forall x, derivable_pt_lim (fun y => PI / l * y) x (PI / l * 1)) by (intros; apply (derivable_pt_lim_scal (fun y => y)), derivable_pt_lim_id).
  replace (- (PI / l) * (1 - t / l) * sin (PI / l * t)) with ((- / l * cos (PI / l * t) + (1 - t / l) * (- sin (PI / l * t) * (PI / l * 1))) + / PI * (cos (PI / l * t) * (PI / l * 1))) by (field; lra).
  assert (E : forall y, (1 - y / l) * cos (PI / l * y) + / PI * sin (PI / l * y) = g1_right l y) by (intros; unfold g1_right, Rdiv; ring).
  assert (D : derivable_pt_lim (fun y => (1 - y / l) * cos (PI / l * y) + / PI * sin (PI / l * y)) t ((- / l * cos (PI / l * t) + (1 - t / l) * (- sin (PI / l * t) * (PI / l * 1))) + / PI * (cos (PI / l * t) * (PI / l * 1)))).
  - apply (derivable_pt_lim_plus (fun y => (1 - y / l) * cos (PI / l * y)) (fun y => / PI * sin (PI / l * y))).
    + apply (derivable_pt_lim_mult (fun y => 1 - y / l) (fun y => cos (PI / l * y))); [|apply (derivable_pt_lim_comp (fun y => PI / l * y) cos); [apply Dl|apply derivable_pt_lim_cos]].
      replace (- / l) with (0 - 1 * / l) by ring. apply (derivable_pt_lim_minus (fun _ => 1) (fun y => y / l)); [apply derivable_pt_lim_const|].
      intros eps He. destruct (derivable_pt_lim_scal (fun y => y) (/ l) t 1 (derivable_pt_lim_id t) eps He) as (d & Hd). exists d. intros h H1 H2. specialize (Hd h H1 H2). unfold mult_real_fct, Rdiv in *. rewrite !(Rmult_comm _ (/ l)). exact Hd.
    + apply (derivable_pt_lim_scal (fun y => sin (PI / l * y))). apply (derivable_pt_lim_comp (fun y => PI / l * y) sin); [apply Dl|apply derivable_pt_lim_sin].
  - intros eps He. destruct (D eps He) as (d & Hd). exists d. intros h. rewrite <- !E. apply Hd.
Qed.
Lemma g1_falls l s t : 0 < l -> 0 <= s -> s < t -> t <= l \/ l <= s /\ t <= 2 * l -> g1_right l t < g1_right l s.
Proof.
  intros P Hs Hst Ht. pose proof PI_RGT_0 as PP.
  destruct (MVT_cor2 (g1_right l) (fun x => - (PI / l) * (1 - x / l) * sin (PI / l * x)) s t Hst) as (c & E & Hc); [intros; apply g1_lim; lra|].
  assert (N : - (PI / l) * (1 - c / l) * sin (PI / l * c) < 0).
  { assert (Pq : 0 < PI / l) by (apply Rdiv_lt_0_compat; lra). assert (Ec : PI / l * c = PI * (c / l)) by (unfold Rdiv; ring). rewrite Ec.
    assert (C0 : 0 < c / l) by (apply Rdiv_lt_0_compat; lra). assert (Pos : 0 < (1 - c / l) * sin (PI * (c / l))).
    { destruct Ht as [Ht|(H1 & H2)].
      - assert (C1 : c / l < 1) by (apply (Rmult_lt_reg_r l); auto; unfold Rdiv; rewrite Rmult_assoc, Rinv_l by lra; lra). apply Rmult_lt_0_compat; [lra|]. apply sin_gt_0; [apply Rmult_lt_0_compat; lra|]. rewrite <- (Rmult_1_r PI) at 2. apply Rmult_lt_compat_l; lra.
      - assert (C1 : 1 < c / l) by (apply (Rmult_lt_reg_r l); auto; unfold Rdiv; rewrite Rmult_assoc, Rinv_l by lra; lra). assert (C2 : c / l < 2) by (apply (Rmult_lt_reg_r l); auto; unfold Rdiv; rewrite Rmult_assoc, Rinv_l by lra; lra).
        assert (S : sin (PI * (c / l)) < 0). { apply sin_lt_0; [rewrite <- (Rmult_1_r PI) at 1; apply Rmult_lt_compat_l; lra|rewrite (Rmult_comm 2 PI); apply Rmult_lt_compat_l; lra]. }
        replace ((1 - c / l) * sin (PI * (c / l))) with ((c / l - 1) * - sin (PI * (c / l))) by ring. apply Rmult_lt_0_compat; lra. }
    replace (- (PI / l) * (1 - c / l) * sin (PI * (c / l))) with (- (PI / l * ((1 - c / l) * sin (PI * (c / l))))) by ring. pose proof (Rmult_lt_0_compat _ _ Pq Pos). lra. }
  pose proof (Rmult_lt_0_compat _ _ (Ropp_0_gt_lt_contravar _ N) (Rlt_Rminus _ _ Hst)). lra.
Qed.

(** Both are windows of the given length. *)
Theorem C96_windows l : 0 < l -> window l (g0prime l) /\ window l (g1prime l).
Proof.
  intros P. pose proof PI_RGT_0 as PP. split; apply window_all; auto.
  - unfold g0prime. rewrite Rabs_R0. field. lra.
  - unfold g0prime. rewrite Rabs_pos_eq by lra. field. lra.
  - intros t. unfold g0prime. now rewrite Rabs_Ropp.
  - intros s t Hs Hst Ht. unfold g0prime. rewrite !Rabs_pos_eq by lra. assert (s / l < t / l) by (apply Rmult_lt_compat_r; [apply Rinv_0_lt_compat|]; auto). lra.
  - rewrite g1_pos by lra. unfold g1_right. rewrite Rmult_0_r, cos_0, sin_0. field. lra.
  - rewrite g1_pos by lra. unfold g1_right. replace (PI / l * l) with PI by (field; lra). rewrite sin_PI. field. lra.
  - intros t. unfold g1prime. rewrite Rabs_Ropp. replace (PI * - t / l) with (- (PI * t / l)) by (unfold Rdiv; ring). now rewrite cos_neg.
  - intros s t Hs Hst Ht. rewrite !g1_pos by lra. apply g1_falls; auto.
Qed.
Print Assumptions C96_windows.

(** They are not cut off: times beyond the length count with negative weight. *)
Theorem C96_cutoff_refuted l : 0 < l -> (forall t, l < Rabs t -> g0prime l t < 0) /\ (forall t, l < Rabs t <= 2 * l -> g1prime l t < 0) /\ g0prime l (2 * l) = -1 /\ g1prime l (2 * l) = -1.
Proof.
  intros P. pose proof PI_RGT_0 as PP. destruct (C96_windows l P) as (_ & (_ & Z & Ev & _)). split; [|split; [|split]].
  - intros t Ht. unfold g0prime. assert (1 < Rabs t / l) by (apply (Rmult_lt_reg_r l); auto; unfold Rdiv; rewrite Rmult_assoc, Rinv_l by lra; lra). lra.
  - assert (Q : forall t, l < t <= 2 * l -> g1prime l t < 0) by (intros t Ht; rewrite <- Z, !g1_pos by lra; apply g1_falls; lra).
    intros t Ht. unfold Rabs in Ht. destruct (Rcase_abs t); [rewrite <- Ev|]; apply Q; lra.
  - unfold g0prime. rewrite Rabs_pos_eq by lra. field. lra.
  - rewrite g1_pos by lra. unfold g1_right. replace (PI / l * (2 * l)) with (2 * PI) by (field; lra). rewrite cos_2PI, sin_2PI. field. lra.
Qed.
Print Assumptions C96_cutoff_refuted.

(** The double well has its minima at -a and a and the barrier d0, not another height. *)
Theorem C96_w_well d0 a : 0 < d0 -> a <> 0 -> double_well a d0 (w_well d0 a).
Proof.
  intros P N. assert (A4 : 0 < a ^ 4) by (replace (a ^ 4) with ((a * a) * (a * a)) by ring; apply Rmult_lt_0_compat; apply Rsqr_pos_lt; auto).
  assert (C : 0 < d0 / a ^ 4) by (apply Rdiv_lt_0_compat; auto). assert (Sq : forall x, x ^ 2 = Rabs x * Rabs x) by (intros x; rewrite <- Rabs_mult, Rabs_pos_eq; [ring|apply Rle_0_sqr]).
  unfold double_well, w_well. repeat split.
  - intros x. apply Rmult_le_pos; [lra|]. apply pow2_ge_0.
  - intros H. apply Rmult_integral in H as [H|H]; [lra|]. assert (Z : x ^ 2 - a ^ 2 = 0) by (destruct (Req_dec (x ^ 2 - a ^ 2) 0) as [|M]; auto; apply (pow_nonzero _ 2) in M; contradiction).
    assert (Z2 : (x - a) * (x + a) = 0) by (rewrite <- Z; ring). apply Rmult_integral in Z2 as [Z2|Z2]; [left|right]; lra.
  - intros [->| ->]; ring.
  - field. auto.
  - intros x. ring.
  - intros s t Hs Hst Ht. apply Rmult_lt_compat_l; auto. rewrite (Sq s), (Sq t), (Sq a), !(Rabs_pos_eq s), !(Rabs_pos_eq t) by lra. set (c := Rabs a) in *.
    assert (U : s * s < t * t) by (apply Rmult_le_0_lt_compat; lra). assert (V : t * t <= c * c) by (apply Rmult_le_compat; lra).
    replace ((s * s - c * c) ^ 2) with ((c * c - s * s) * (c * c - s * s)) by ring. replace ((t * t - c * c) ^ 2) with ((c * c - t * t) * (c * c - t * t)) by ring. apply Rmult_le_0_lt_compat; lra.
  - intros s t Hs Hst. apply Rmult_lt_compat_l; auto. pose proof (Rabs_pos a). rewrite (Sq s), (Sq t), (Sq a), !(Rabs_pos_eq s), !(Rabs_pos_eq t) by lra. set (c := Rabs a) in *.
    assert (U : s * s < t * t) by (apply Rmult_le_0_lt_compat; lra). assert (V : c * c <= s * s) by (apply Rmult_le_compat; lra).
    replace ((s * s - c * c) ^ 2) with ((s * s - c * c) * (s * s - c * c)) by ring. replace ((t * t - c * c) ^ 2) with ((t * t - c * c) * (t * t - c * c)) by ring. apply Rmult_le_0_lt_compat; lra.
Qed.
Print Assumptions C96_w_well.

(** The square well takes two values: the lower one strictly inside only, so that the edges are
    outside, and nowhere if the width is not positive; a product of two coordinates needs two. *)
Theorem C96_square_well depth width x0 v0 x : (square_well depth width x0 v0 x = v0 /\ x0 < x < x0 + width) \/ (square_well depth width x0 v0 x = v0 + depth /\ ~ x0 < x < x0 + width).
Proof. unfold square_well. destruct (Rlt_dec x0 x); [destruct (Rlt_dec x (x0 + width))|]; [left|right|right]; split; auto; lra. Qed.
Print Assumptions C96_square_well.
Theorem C96_linear_corr c x : ((exists y, linear_corr c x = Ok y) <-> (2 <= length x)%nat) /\
  (forall p q l, linear_corr c (p :: q :: l) = linear_corr c (q :: p :: l)) /\ (forall p q s, linear_corr c [s * p; q] = linear_corr (s * c) [p; q]).
Proof.
  split; [|split].
  - destruct x as [|p [|q l]]; cbn; split; intros H; try lia; try (destruct H; discriminate). eexists. reflexivity.
  - intros. cbn. f_equal. ring.
  - intros. cbn. f_equal. ring.
Qed.
Print Assumptions C96_linear_corr.

Example C96_example : g0prime 2 (-1) = 1 / 2 /\ g1prime 2 1 = / PI /\ w_well 5 2 0 = 5 /\ square_well 3 1 0 (-1) 1 = 2 /\ linear_corr 2 [3; 4] = Ok 24.
Proof.
  pose proof PI_RGT_0. split; [unfold g0prime; rewrite (Rabs_left (-1)) by lra; field|]. split; [|split; [unfold w_well; field|split]].
  - rewrite g1_pos by lra. unfold g1_right. replace (PI / 2 * 1) with (PI / 2) by field. rewrite cos_PI2, sin_PI2. field. lra.
  - unfold square_well. destruct (Rlt_dec 0 1); [|lra]. destruct (Rlt_dec 1 (0 + 1)); lra.
  - cbn. f_equal. ring.
Qed.
