(** C74: decompositions of spd.py. *)
From Coq Require Import List Arith ZArith Lia Reals Lra String.
From Verif Require Import Py Alg Cplx CorrX_Spec CorrX_Proof Pade_Spec Matsubara_Proof Spd_Spec Spd_Model.
Import ListNotations.
Local Open Scope R_scope.

(** What [residues] does with its arguments: only [n = 0], temperature zero, and two Matsubara poles give a result. *)
Theorem C74_residues_outcome (eig : list R -> list R) (beta : option R) (n : Z) (m : string) :
  match residues eig beta n m with
  | Raise NotImplementedError => lower m <> "pade"%string /\ lower m <> "matsubara"%string
  | Raise AssertionError => (lower m = "pade"%string \/ lower m = "matsubara"%string) /\ (n < 0)%Z
  | Raise TypeError => lower m = "pade"%string /\ (0 < n)%Z /\ beta <> None
  | Raise ValueError => lower m = "matsubara"%string /\ (0 < n)%Z /\ n <> 2%Z /\ beta <> None
  | Raise ZeroDivisionError => lower m = "matsubara"%string /\ n = 2%Z /\ beta = Some 0
  | Raise _ => False
  | Ok l => (lower m = "pade"%string \/ lower m = "matsubara"%string) /\
      ((l = [] /\ (0 <= n)%Z /\ (beta = None \/ n = 0%Z)) \/ (lower m = "matsubara"%string /\ n = 2%Z /\ exists b, beta = Some b /\ b <> 0))
  end.
Proof.
  unfold residues. destruct (String.eqb_spec (lower m) "pade") as [E|E].
  - destruct (Z.ltb_spec n 0); [split; [left; exact E|assumption]|]. destruct beta as [b|]; [|split; [left; exact E|left; repeat split; auto]]. destruct (Z.eqb_spec n 0); [split; [left; exact E|left; repeat split; auto]|].
    unfold pade1. destruct (Z.gtb_spec n 0); [|lia]. cbn [pade_with inverses slice eigvalsh bind float_div]. repeat split; [exact E|assumption|discriminate].
  - destruct (String.eqb_spec (lower m) "matsubara") as [E'|E']; [|split; assumption]. destruct (Z.ltb_spec n 0); [split; [right; exact E'|assumption]|]. destruct beta as [b|]; [|split; [right; exact E'|left; repeat split; auto]]. destruct (Z.eqb_spec n 0); [split; [right; exact E'|left; repeat split; auto]|].
    unfold matsubara. destruct (Z.to_nat n) as [|[|[|k]]] eqn:EN; [lia| | |]; cbn [seq map unpack bind].
    + repeat split; [exact E'|lia|lia|discriminate].
    + cbn [scaled]. destruct (Req_EM_T b 0) as [->|Hb]; [repeat split; [exact E'|lia]|]. split; [right; exact E'|]. right. repeat split; [exact E'|lia|]. exists b. auto.
    + repeat split; [exact E'|lia|lia|discriminate].
Qed.
Print Assumptions C74_residues_outcome.
Example C74_residues_outcome_ex (eig : list R -> list R) : residues eig (Some 1) 3 "Pade" = Raise TypeError /\ residues eig (Some 1) 3 "MATSUBARA" = Raise ValueError /\ residues eig None 3 "pade" = Ok [] /\ residues eig (Some 1) 1 "psd" = Raise NotImplementedError.
Proof. repeat split; reflexivity. Qed.

(** The pairs that [matsubara] gives, a residue and a frequency, are right: with [r / b] at [+-i z / b], the sum of fractions comes
    as near to the Bose function as [b w / (2 n)]. *)
Definition intended (b : R) (l : list (R * R)) : list (C_star * C_star) :=
  map (fun q => (RtoC (fst q / b), rmul (ropp C_i) (RtoC (snd q / b)))) l ++ map (fun q => (RtoC (fst q / b), rmul C_i (RtoC (snd q / b)))) l.
Lemma fractions_app l l' w : fractions (l ++ l') w = radd (fractions l w) (fractions l' w).
Proof. unfold fractions. apply sumL_app. Qed.
Lemma two_fractions a z w : w <> 0 -> radd (rmul (RtoC a) (Cinv (rsub (RtoC w) (rmul (ropp C_i) (RtoC z))))) (rmul (RtoC a) (Cinv (rsub (RtoC w) (rmul C_i (RtoC z))))) = RtoC (2 * a * w / (w ^ 2 + z ^ 2)).
Proof.
  intros Hw. assert (P : 0 < w ^ 2 + z ^ 2) by (assert (0 < w ^ 2) by (rewrite <- Rsqr_pow2; apply Rsqr_pos_lt; exact Hw); pose proof (pow2_ge_0 z); lra).
  apply Ceq; cbn; unfold Cnorm2; cbn; field; repeat split; nra.
Qed.
Lemma intended_sum b l w : b <> 0 -> w <> 0 -> fractions (intended b l) (RtoC w) = RtoC (fold_right (fun q s => 2 * fst q * (b * w) / ((b * w) ^ 2 + snd q ^ 2) + s) 0 l).
Proof.
  intros Hb Hw. unfold intended. rewrite fractions_app. induction l as [|(r, z) l IH]; [apply Ceq; cbn; ring|]. unfold fractions in *. cbn [map fold_right]. rewrite !sumL_cons. cbn [fst snd] in *.
  rewrite RtoC_add, <- IH. set (A := sumL _ _). set (B := sumL (map _ l) _).
  replace (2 * r * (b * w) / ((b * w) ^ 2 + z ^ 2)) with (2 * (r / b) * w / (w ^ 2 + (z / b) ^ 2)).
  - rewrite <- two_fractions by exact Hw. assert (T : forall p q x y : C_star, radd (radd p q) (radd x y) = radd (radd p x) (radd q y)) by (intros; apply Ceq; cbn; ring). apply T.
  - assert (0 < w ^ 2) by (rewrite <- Rsqr_pow2; apply Rsqr_pos_lt; exact Hw). assert (0 < b ^ 2) by (rewrite <- Rsqr_pow2; apply Rsqr_pos_lt; exact Hb). pose proof (pow2_ge_0 z). field. repeat split; try nra.
Qed.
Theorem C74_matsubara (n : nat) (b w : R) : (1 <= n)%nat -> 0 < b -> w <> 0 ->
  exists s, fractions (intended b (matsubara (Z.of_nat n))) (RtoC w) = RtoC s /\
    Rabs (function (Some b) w - (1 / (b * w) + 1 / 2 + s)) <= Rabs (b * w) / (2 * INR n).
Proof.
  intros Hn Hb Hw. eexists. split; [apply intended_sum; lra|]. assert (N : b * w <> 0) by (apply Rmult_integral_contrapositive_currified; lra).
  pose proof (bose_matsubara n (b * w) Hn N) as B. unfold function. replace (- b * w) with (- (b * w)) by ring. fold (bose (b * w)).
  replace (fold_right _ 0 (matsubara (Z.of_nat n))) with (Rsum n (fun j => 2 * (b * w) / ((b * w) ^ 2 + (2 * INR (j + 1) * PI) ^ 2))); [exact B|].
  unfold matsubara. rewrite Nat2Z.id. clear. induction n as [|n IH]; [reflexivity|]. rewrite seq_S, map_app, fold_right_app. cbn [Rsum map fold_right Nat.add fst snd]. rewrite IH. set (t := 2 * (b * w) / _). set (u := 2 * 1 * (b * w) / _ + 0).
  replace t with u. { clear IH. induction (seq 0 n) as [|i l IH]; cbn [map fold_right]; [ring|]. rewrite <- IH. ring. } unfold u, t. rewrite Rplus_0_r. f_equal; [ring|]. f_equal. f_equal. ring.
Qed.
Print Assumptions C74_matsubara.
Example C74_matsubara_ex : exists s, fractions (intended 1 (matsubara 100)) (RtoC 1) = RtoC s /\ Rabs (function (Some 1) 1 - (1 / (1 * 1) + 1 / 2 + s)) <= 1 / 200.
Proof.
  destruct (C74_matsubara 100 1 1 ltac:(lia) ltac:(lra) ltac:(lra)) as (s & E & B). exists s. split; [exact E|]. apply Rle_trans with (1 := B). rewrite Rmult_1_r, Rabs_R1. replace (INR 100) with 100 by (rewrite INR_IZR_INZ; reflexivity). lra.
Qed.

(** What [residues] returns for two poles is something else: one pole is at [1 / b], where the Bose function has none. *)
Theorem C74_matsubara_2_refuted (eig : list R -> list R) (b : R) : 0 < b ->
  exists l, residues eig (Some b) 2 "matsubara" = Ok l /\ In (RtoC (1 / b), rmul C_i (RtoC (1 / b))) l /\ l <> intended b (matsubara 2) /\
    Cexp (rmul (RtoC (- b)) (rmul C_i (RtoC (1 / b)))) <> r1.
Proof.
  intros Hb. assert (E : residues eig (Some b) 2 "matsubara" = scaled b [(1, 1); (2 * PI * INR (0 + 1), 2 * PI * INR (1 + 1))]) by reflexivity.
  unfold scaled in E. destruct (Req_EM_T b 0) as [Z|_]; [exfalso; lra|]. eexists. split; [exact E|]. split; [right; right; left; reflexivity|]. split.
  - unfold intended, matsubara. cbn. intros H. injection H as H1 _. apply (f_equal (fun z => z * b)) in H1. pose proof PI2_3_2. assert (Hi : / b * b = 1) by (apply Rinv_l; lra). unfold Rdiv in H1. nra.
  - intros H. apply (f_equal snd) in H. unfold Cexp in H. cbn in H. unfold Cexp in H. cbn in H. 
    replace (- b * (0 * 0 + 1 * (1 / b)) + 0 * (0 * (1 / b) - 1 * 0)) with (- (1)) in H by (field; lra). rewrite sin_neg in H. assert (0 < exp (- b * (0 * (1 / b) - 1 * 0) - 0 * (0 * 0 + 1 * (1 / b)))) by apply exp_pos.
    assert (0 < sin 1) by (apply sin_gt_0; [lra|pose proof PI2_3_2; lra]). nra.
Qed.
Print Assumptions C74_matsubara_2_refuted.
Example C74_matsubara_2_refuted_ex (eig : list R -> list R) : exists l, residues eig (Some 1) 2 "matsubara" = Ok l.
Proof. destruct (C74_matsubara_2_refuted eig 1 ltac:(lra)) as (l & E & _). exists l. exact E. Qed.

(** The Bose function: emission and absorption; temperature zero is the limit for positive frequencies, and not for negative ones. *)
Theorem C74_function (b w : R) : b * w <> 0 -> function (Some b) w + function (Some b) (- w) = 1 /\ function (Some b) w = exp (b * w) * (- function (Some b) (- w)).
Proof.
  intros N. unfold function. replace (- b * - w) with (b * w) by ring. replace (- b * w) with (- (b * w)) by ring. rewrite exp_Ropp. pose proof (exp_pos (b * w)). assert (exp (b * w) <> 1) by (intros Q; apply N; rewrite <- exp_0 in Q; apply exp_inv in Q; exact Q).
  split; field; repeat split; lra.
Qed.
Print Assumptions C74_function.
(** Temperatures other than infinity are accepted just when the function is positive at positive frequencies. *)
Theorem C74_accepted (beta : option R) (w : R) : 0 < w -> beta <> Some 0 ->
  init beta = Ok beta /\ 1 <= function beta w \/ init beta = Raise AssertionError /\ function beta w < 0.
Proof.
  intros Hw N. destruct beta as [b|]; cbn [init function]; [|left; split; [reflexivity|lra]]. assert (b <> 0) by congruence.
  destruct (Rle_dec 0 b) as [L|L]; [left|right]; (split; [reflexivity|]).
  - assert (0 < b * w) by nra. replace (- b * w) with (- (b * w)) by ring. rewrite exp_Ropp. pose proof (exp_ineq1 (b * w) ltac:(lra)) as E. set (y := exp (b * w)) in *.
    replace (1 / (1 - / y)) with (1 + / (y - 1)) by (field; split; lra). assert (0 < / (y - 1)) by (apply Rinv_0_lt_compat; lra). lra.
  - assert (0 < - b * w) by nra. pose proof (exp_ineq1 (- b * w) ltac:(lra)) as E. replace (1 / (1 - exp (- b * w))) with (- / (exp (- b * w) - 1)) by (field; lra).
    assert (0 < / (exp (- b * w) - 1)) by (apply Rinv_0_lt_compat; lra). lra.
Qed.
Print Assumptions C74_accepted.
Example C74_accepted_ex : init (Some (-1)) = Raise AssertionError /\ init (Some 2) = Ok (Some 2).
Proof.
  split; [destruct (C74_accepted (Some (-1)) 1) as [(E & F)|(E & F)]|destruct (C74_accepted (Some 2) 1) as [(E & F)|(E & F)]]; auto; try lra; try (intros Q; injection Q; lra).
  - exfalso. cbn [init] in E. destruct (Rle_dec 0 (-1)); [lra|discriminate].
  - exfalso. cbn [init] in E. destruct (Rle_dec 0 2); [discriminate|lra].
Qed.
Theorem C74_zero_temperature (w eps : R) : 0 < w -> 0 < eps -> exists b0, forall b, b0 < b -> Rabs (function (Some b) w - function None w) < eps.
Proof.
  intros Hw He. exists ((1 + / eps) / w). intros b Hb. assert (P : 0 < / eps) by (apply Rinv_0_lt_compat; exact He).
  assert (X : 1 + / eps < b * w) by (apply Rmult_lt_compat_r with (r := w) in Hb; [|exact Hw]; replace ((1 + / eps) / w * w) with (1 + / eps) in Hb by (field; lra); exact Hb).
  unfold function. replace (- b * w) with (- (b * w)) by ring. rewrite exp_Ropp. pose proof (exp_ineq1 (b * w) ltac:(lra)) as E. set (y := exp (b * w)) in *. replace (1 / (1 - / y) - 1) with (/ (y - 1)) by (field; split; lra).
  rewrite Rabs_right by (apply Rle_ge, Rlt_le, Rinv_0_lt_compat; lra). rewrite <- (Rinv_inv eps). apply Rinv_lt_contravar; [apply Rmult_lt_0_compat; lra|lra].
Qed.
Print Assumptions C74_zero_temperature.
Theorem C74_zero_temperature_negative_refuted (w b : R) : w < 0 -> 0 < b -> function (Some b) w < 0 /\ function None w = 1.
Proof.
  intros Hw Hb. split; [|reflexivity]. unfold function. pose proof (exp_ineq1 (- b * w) ltac:(nra)) as E. assert (0 < - b * w) by nra. replace (1 / (1 - exp (- b * w))) with (- / (exp (- b * w) - 1)) by (field; lra). assert (0 < / (exp (- b * w) - 1)) by (apply Rinv_0_lt_compat; lra). lra.
Qed.
Print Assumptions C74_zero_temperature_negative_refuted.
Example C74_function_ex : function (Some 1) 2 + function (Some 1) (-2) = 1 /\ function (Some 1) (-2) < 0.
Proof. split; [apply (C74_function 1 2); lra|apply (C74_zero_temperature_negative_refuted (-2) 1); lra]. Qed.

(** The poles of Drude's spectral density add up to it. *)
Theorem C74_drude (lambda gamma w : R) : w <> 0 -> fractions (drude_residues lambda gamma) (RtoC w) = RtoC (drude_density lambda gamma w).
Proof.
  intros Hw. unfold fractions, drude_residues. rewrite !sumL_cons, sumL_nil. cbn [fst snd].
  assert (Z : forall x y : C_star, radd x (radd y r0) = radd x y) by (intros; apply Ceq; cbn; ring). rewrite Z, two_fractions by exact Hw. f_equal. unfold drude_density. pose proof PI_RGT_0. assert (0 < w ^ 2) by (rewrite <- Rsqr_pow2; apply Rsqr_pos_lt; exact Hw). pose proof (pow2_ge_0 gamma). field. split; lra || nra.
Qed.
Print Assumptions C74_drude.
Example C74_drude_ex : fractions (drude_residues 1 1) (RtoC 1) = RtoC (/ PI).
Proof. rewrite C74_drude by lra. f_equal. unfold drude_density. pose proof PI_RGT_0. field. lra. Qed.

(** Brownian raises TypeError: it squares [math.gamma]. *)
Theorem C74_brownian (lambda g omega_0 w : R) : brownian_density lambda g omega_0 w = Raise TypeError /\ brownian_residues lambda g omega_0 = Raise TypeError.
Proof. split; reflexivity. Qed.
Print Assumptions C74_brownian.
Example C74_brownian_ex : brownian_density 1 1 1 1 = Raise TypeError.
Proof. apply C74_brownian. Qed.
