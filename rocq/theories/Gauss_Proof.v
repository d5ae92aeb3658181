(** The integral of exp(-x^2), from the square of its primitive. *)
From Coq Require Import Reals Lra Lia.
From Verif Require Import Discretise_Spec Discretise_Proof.
Local Open Scope R_scope.

Lemma primitive_local (F f : R -> R) a b : a <= b -> (forall x, a <= x <= b -> derivable_pt_lim F x (f x)) -> (forall x, a <= x <= b -> continuity_pt f x) -> integral f a b (F b - F a).
Proof.
  intros L D C. destruct (integral_cont f a b L C) as (v & [p Hp]). exists p.
  assert (AF : antiderivative f F a b). { split; [|exact L]. intros x Hx. exists (exist _ (f x) (D x Hx)). reflexivity. }
  pose proof (RiemannInt_P29 L C) as AP. destruct (antiderivative_Ucte f _ _ a b AF AP) as (c & Hc).
  rewrite (Hc b), (Hc a) by lra. unfold primitive. destruct (Rle_dec a a) as [r|r]; [|exfalso; apply r, Rle_refl]. destruct (Rle_dec a b) as [r0|r0]; [|exfalso; exact (r0 L)]. destruct (Rle_dec b b) as [r1|r1]; [|exfalso; apply r1, Rle_refl].
  rewrite RiemannInt_P9, (RiemannInt_P5 p (FTC_P1 L C r0 r1)). ring.
Qed.
Lemma primitive_exists (f : R -> R) a b : a <= b -> (forall x, continuity_pt f x) -> exists F, forall x, a <= x <= b -> derivable_pt_lim F x (f x).
Proof.
  intros L C. destruct (RiemannInt_P30 L (fun x (_ : a <= x <= b) => C x)) as (g & A & _). exists g. intros x Hx. destruct (A x Hx) as (pr & E). rewrite E. destruct pr as (l & Hl). exact Hl.
Qed.
Lemma lim_ext (f g : R -> R) x l : (forall y, f y = g y) -> derivable_pt_lim f x l -> derivable_pt_lim g x l.
Proof. intros E D eps He. destruct (D eps He) as (d & Hd). exists d. intros h. rewrite <- !E. apply Hd. Qed.
Lemma lim_scaled (f : R -> R) k x l : derivable_pt_lim f (k * x) l -> derivable_pt_lim (fun y => f (k * y)) x (l * k).
Proof.
  intros D. assert (Q : derivable_pt_lim (fun y => k * y) x (k * 1)) by apply (derivable_pt_lim_scal (fun y => y)), derivable_pt_lim_id. rewrite Rmult_1_r in Q.
  exact (derivable_pt_lim_comp (fun y => k * y) f x k l Q D).
Qed.
Lemma lim_cont (f : R -> R) x l : derivable_pt_lim f x l -> continuity_pt f x.
Proof. intros D. apply derivable_continuous_pt. exists l. exact D. Qed.
(** Squeezed difference quotients *)
Lemma deriv_squeeze (F e1 e2 : R -> R) t L r : 0 < r -> continuity_pt e1 t -> continuity_pt e2 t -> e1 t = L -> e2 t = L ->
  (forall s, Rabs (s - t) < r -> (s - t) * e1 s <= F s - F t <= (s - t) * e2 s) -> derivable_pt_lim F t L.
Proof.
  intros Pr C1 C2 E1 E2 B eps He. destruct (C1 eps He) as (d1 & P1 & H1). destruct (C2 eps He) as (d2 & P2 & H2).
  assert (Pd : 0 < Rmin r (Rmin d1 d2)) by (repeat apply Rmin_pos; auto). exists (mkposreal _ Pd). cbn. intros h N Hh.
  assert (Hr : Rabs h < r) by (eapply Rlt_le_trans; [exact Hh|apply Rmin_l]).
  assert (Hd1 : Rabs h < d1) by (eapply Rlt_le_trans; [exact Hh|eapply Rle_trans; [apply Rmin_r|apply Rmin_l]]).
  assert (Hd2 : Rabs h < d2) by (eapply Rlt_le_trans; [exact Hh|eapply Rle_trans; [apply Rmin_r|apply Rmin_r]]).
  assert (Eh : t + h - t = h) by ring. specialize (B (t + h)). rewrite Eh in B. specialize (B Hr).
  assert (A1 : Rabs (e1 (t + h) - L) < eps). { rewrite <- E1. apply H1. split; [split; [exact I|lra]|]. cbn. unfold R_dist. rewrite Eh. exact Hd1. }
  assert (A2 : Rabs (e2 (t + h) - L) < eps). { rewrite <- E2. apply H2. split; [split; [exact I|lra]|]. cbn. unfold R_dist. rewrite Eh. exact Hd2. }
  apply Rabs_def2 in A1. apply Rabs_def2 in A2. set (q := (F (t + h) - F t) / h). assert (Q : F (t + h) - F t = h * q) by (unfold q; field; auto). rewrite Q in B.
  apply Rabs_def1; destruct (Rlt_dec 0 h) as [Ph|Ph].
  - assert (q <= e2 (t + h)) by (apply (Rmult_le_reg_l h); tauto). lra.
  - assert (q <= e1 (t + h)) by (apply (Rmult_le_reg_l (- h)); lra). lra.
  - assert (e1 (t + h) <= q) by (apply (Rmult_le_reg_l h); tauto). lra.
  - assert (e2 (t + h) <= q) by (apply (Rmult_le_reg_l (- h)); lra). lra.
Qed.

Definition bell (x : R) : R := exp (- x ^ 2).
Lemma bell_lim x : derivable_pt_lim bell x (- (2 * x) * bell x).
Proof.
  unfold bell. replace (- (2 * x) * exp (- x ^ 2)) with (exp (- x ^ 2) * - (2 * x)) by ring.
  apply (derivable_pt_lim_comp (fun y => - y ^ 2) exp); [|apply derivable_pt_lim_exp].
  apply (derivable_pt_lim_opp (fun y => y ^ 2)). replace (2 * x) with (INR 2 * x ^ pred 2) by (cbn; ring). apply derivable_pt_lim_pow.
Qed.
Lemma bell_cont x : continuity_pt bell x.
Proof. eapply lim_cont, bell_lim. Qed.
Lemma bell_pos x : 0 < bell x.
Proof. apply exp_pos. Qed.
Lemma bell_le1 x : bell x <= 1.
Proof. unfold bell. rewrite <- exp_0. destruct (Rle_lt_or_eq_dec 0 (x ^ 2) (pow2_ge_0 x)) as [H|H]; [left; apply exp_increasing; lra|rewrite <- H; right; f_equal; ring]. Qed.

(** The integrand with the parameter [t] *)
Definition kern (t x : R) : R := bell t * bell (t * x) / (1 + x ^ 2).
Lemma den_pos x : 1 <= 1 + x ^ 2.
Proof. pose proof (pow2_ge_0 x). lra. Qed.
Lemma tx_cont t x : continuity_pt (fun y => bell (t * y)) x.
Proof. eapply lim_cont, lim_scaled, bell_lim. Qed.
Lemma den_cont x : continuity_pt (fun y => / (1 + y ^ 2)) x.
Proof.
  apply (continuity_pt_inv (fun y => 1 + y ^ 2)); [|pose proof (den_pos x); lra]. apply (continuity_pt_plus (fun _ => 1) (fun y => y ^ 2)); [apply continuity_pt_const; intros ? ?; reflexivity|].
  eapply lim_cont, derivable_pt_lim_pow.
Qed.
Lemma kern_cont t x : continuity_pt (kern t) x.
Proof.
  unfold kern. apply (continuity_pt_mult (fun y => bell t * bell (t * y)) (fun y => / (1 + y ^ 2))); [|apply den_cont].
  apply (continuity_pt_scal (fun y => bell (t * y))), tx_cont.
Qed.
Definition H_of (t : R) : R := RiemannInt (continuity_implies_RiemannInt Rle_0_1 (fun x (_ : 0 <= x <= 1) => kern_cont t x)).
Lemma H_int t : integral (kern t) 0 1 (H_of t).
Proof. exists (continuity_implies_RiemannInt Rle_0_1 (fun x (_ : 0 <= x <= 1) => kern_cont t x)). reflexivity. Qed.
Definition slab (t x : R) : R := bell t * bell (t * x).
Lemma slab_exp t x : slab t x = exp (- (t ^ 2 * (1 + x ^ 2))).
Proof. unfold slab, bell. rewrite <- exp_plus. f_equal. ring. Qed.
Lemma kern_tangent s t x : - (s ^ 2 - t ^ 2) * slab t x <= kern s x - kern t x.
Proof.
  unfold kern. fold (slab s x) (slab t x). rewrite !slab_exp. set (a := 1 + x ^ 2). assert (Pa : 1 <= a) by apply den_pos.
  assert (E : exp (- (s ^ 2 * a)) = exp (- (t ^ 2 * a)) * exp (- ((s ^ 2 - t ^ 2) * a))) by (rewrite <- exp_plus; f_equal; ring).
  pose proof (exp_ineq1_le (- ((s ^ 2 - t ^ 2) * a))) as Q. pose proof (exp_pos (- (t ^ 2 * a))) as P. rewrite E. set (p := exp (- (t ^ 2 * a))) in *. set (q := exp (- ((s ^ 2 - t ^ 2) * a))) in *.
  replace (p * q / a - p / a) with (p * (q - 1) / a) by (field; lra). apply (Rmult_le_reg_r a); [lra|]. unfold Rdiv. rewrite (Rmult_assoc (p * (q - 1))), Rinv_l by lra.
  replace (- (s ^ 2 - t ^ 2) * p * a) with (p * (- ((s ^ 2 - t ^ 2) * a))) by ring. rewrite Rmult_1_r. apply Rmult_le_compat_l; lra.
Qed.
Lemma H_tangent s t m : integral (slab t) 0 1 m -> - (s ^ 2 - t ^ 2) * m <= H_of s - H_of t.
Proof.
  intros Im. pose proof (scaled _ (- (s ^ 2 - t ^ 2)) _ _ _ Im) as A. pose proof (integral_lin _ _ (-1) _ _ _ _ (H_int s) (H_int t)) as B.
  assert (Q : 0 + - (s ^ 2 - t ^ 2) * m <= H_of s + -1 * H_of t); [|lra].
  apply (integral_le _ _ 0 1 _ _ Rle_0_1) with (3 := B) (2 := A). intros x _. pose proof (kern_tangent s t x). lra.
Qed.
Lemma H_zero : H_of 0 = PI / 4.
Proof.
  apply (integral_unique (kern 0) 0 1 _ _ (H_int 0)). replace (PI / 4) with (atan 1 - atan 0) by (rewrite atan_1, atan_0; ring).
  apply primitive_local; [lra| |intros; apply kern_cont]. intros x _. unfold kern, bell. replace (- 0 ^ 2) with 0 by ring. replace (- (0 * x) ^ 2) with 0 by ring. rewrite exp_0. unfold Rdiv. rewrite !Rmult_1_l. apply derivable_pt_lim_atan.
Qed.
Lemma slab_le t x : 0 <= slab t x <= 1.
Proof. unfold slab. pose proof (bell_pos t). pose proof (bell_pos (t * x)). pose proof (bell_le1 t). pose proof (bell_le1 (t * x)). nra. Qed.
Lemma slab_int t : exists m, integral (slab t) 0 1 m /\ 0 <= m <= 1.
Proof.
  destruct (integral_cont (slab t) 0 1 Rle_0_1) as (m & I); [intros x _; unfold slab; apply (continuity_pt_scal (fun y => bell (t * y))), tx_cont|]. exists m. split; auto. split.
  - replace 0 with (0 * (1 - 0)) by ring. apply (integral_le _ _ 0 1 _ _ Rle_0_1) with (3 := I) (2 := integral_const 0 0 1). intros x _. apply slab_le.
  - replace 1 with (1 * (1 - 0)) by ring. apply (integral_le _ _ 0 1 _ _ Rle_0_1) with (2 := I) (3 := integral_const 1 0 1). intros x _. apply slab_le.
Qed.
Lemma H_near_zero s : PI / 4 - s ^ 2 <= H_of s <= PI / 4.
Proof.
  rewrite <- H_zero. destruct (slab_int 0) as (m0 & I0 & B0). destruct (slab_int s) as (m & I & B). pose proof (H_tangent s 0 _ I0) as P. pose proof (H_tangent 0 s _ I) as Q. pose proof (pow2_ge_0 s). replace (0 ^ 2) with 0 in * by ring. nra.
Qed.
Lemma H_bound t : 0 <= H_of t <= bell t.
Proof.
  split.
  - replace 0 with (0 * (1 - 0)) by ring. apply (integral_le _ _ 0 1 _ _ Rle_0_1) with (3 := H_int t) (2 := integral_const 0 0 1). intros x _. unfold kern. apply Rmult_le_pos; [apply slab_le|]. left. apply Rinv_0_lt_compat. pose proof (den_pos x). lra.
  - replace (bell t) with (bell t * (1 - 0)) by ring. apply (integral_le _ _ 0 1 _ _ Rle_0_1) with (2 := H_int t) (3 := integral_const (bell t) 0 1). intros x _. unfold kern, Rdiv. rewrite Rmult_assoc. rewrite <- (Rmult_1_r (bell t)) at 2. apply Rmult_le_compat_l; [left; apply bell_pos|].
    rewrite <- (Rmult_1_r 1). pose proof (den_pos x). apply Rmult_le_compat; [left; apply bell_pos|left; apply Rinv_0_lt_compat; lra|apply bell_le1|]. rewrite <- Rinv_1. apply Rinv_le_contravar; lra.
Qed.

Section Gauss.
Variable T : R.
Hypothesis PT : 0 < T.
Variable G : R -> R.
Hypothesis DG : forall x, - T <= x <= T -> derivable_pt_lim G x (bell x).
Hypothesis G0 : G 0 = 0.
Lemma M_int t : 0 < t <= T -> integral (slab t) 0 1 (bell t * G t / t).
Proof.
  intros Ht. replace (bell t * G t / t) with (bell t * / t * G (t * 1) - bell t * / t * G (t * 0)) by (rewrite Rmult_1_r, Rmult_0_r, G0; field; lra).
  apply (primitive_local (fun x => bell t * / t * G (t * x))); [lra| |intros x _; unfold slab; apply (continuity_pt_scal (fun y => bell (t * y))), tx_cont].
  intros x Hx. unfold slab. replace (bell t * bell (t * x)) with (bell t * / t * (bell (t * x) * t)) by (field; lra). apply (derivable_pt_lim_scal (fun y => G (t * y))). apply lim_scaled, DG. nra.
Qed.
Lemma H_lim t : 0 < t < T -> derivable_pt_lim H_of t (- (2 * bell t * G t)).
Proof.
  intros Ht. assert (Cm : continuity_pt (fun s => bell s * G s / s) t).
  { apply (continuity_pt_mult (fun s => bell s * G s) (fun s => / s)); [apply (continuity_pt_mult bell G); [apply bell_cont|eapply lim_cont, DG; lra]|]. apply (continuity_pt_inv (fun s => s)); [apply derivable_continuous_pt, derivable_pt_id|lra]. }
  assert (Cs : continuity_pt (fun s => - (s + t)) t). { apply (continuity_pt_opp (fun s => s + t)). apply (continuity_pt_plus (fun s => s) (fun _ => t)); [apply derivable_continuous_pt, derivable_pt_id|apply continuity_pt_const; intros ? ?; reflexivity]. }
  apply (deriv_squeeze H_of (fun s => - (s + t) * (bell t * G t / t)) (fun s => - (s + t) * (bell s * G s / s)) t _ (Rmin t (T - t))).
  - apply Rmin_pos; lra.
  - apply (continuity_pt_mult (fun s => - (s + t)) (fun _ => bell t * G t / t)); [exact Cs|apply continuity_pt_const; intros ? ?; reflexivity].
  - apply (continuity_pt_mult (fun s => - (s + t)) (fun s => bell s * G s / s)); auto.
  - field. lra.
  - field. lra.
  - intros s Hs. assert (A1 : Rabs (s - t) < t) by (eapply Rlt_le_trans; [exact Hs|apply Rmin_l]). assert (A2 : Rabs (s - t) < T - t) by (eapply Rlt_le_trans; [exact Hs|apply Rmin_r]).
    apply Rabs_def2 in A1. apply Rabs_def2 in A2. pose proof (H_tangent s t _ (M_int t ltac:(lra))) as P. pose proof (H_tangent t s _ (M_int s ltac:(lra))) as Q.
    set (u := bell t * G t / t) in *. set (v := bell s * G s / s) in *. split.
    + replace ((s - t) * (- (s + t) * u)) with (- (s ^ 2 - t ^ 2) * u) by ring. exact P.
    + replace ((s - t) * (- (s + t) * v)) with (- (- (t ^ 2 - s ^ 2) * v)) by ring. lra.
Qed.
Lemma G_sign t : 0 < t <= T -> 0 < G t <= t.
Proof.
  intros Ht. destruct (MVT_cor2 G bell 0 t) as (c & E & _); [lra|intros; apply DG; lra|]. rewrite G0 in E. pose proof (bell_pos c). pose proof (bell_le1 c). nra.
Qed.
Lemma square_law t : 0 < t < T -> G t ^ 2 + H_of t = PI / 4.
Proof.
  intros Ht. assert (C : forall s, 0 < s < t -> G t ^ 2 + H_of t = G s ^ 2 + H_of s).
  { intros s Hs. destruct (MVT_cor2 (fun x => G x * G x + H_of x) (fun x => (bell x * G x + G x * bell x) + - (2 * bell x * G x)) s t) as (c & E & _); [lra| |].
    - intros c Hc. apply (derivable_pt_lim_plus (fun x => G x * G x) H_of); [apply (derivable_pt_lim_mult G G); apply DG; lra|apply H_lim; lra].
    - replace (bell c * G c + G c * bell c + - (2 * bell c * G c)) with 0 in E by ring. lra. }
  assert (B : forall s, 0 < s < t -> Rabs (G t ^ 2 + H_of t - PI / 4) <= s ^ 2).
  { intros s Hs. rewrite (C s Hs). pose proof (H_near_zero s). pose proof (G_sign s ltac:(lra)). assert (G s ^ 2 <= s ^ 2) by (apply pow_incr; lra). pose proof (pow2_ge_0 (G s)). apply Rabs_le. lra. }
  destruct (Req_dec (G t ^ 2 + H_of t - PI / 4) 0) as [|N]; [lra|exfalso]. apply Rabs_pos_lt in N. set (e := Rabs _) in *.
  set (s := Rmin (t / 2) (Rmin 1 (e / 2))). assert (Ps : 0 < s) by (unfold s; repeat apply Rmin_pos; lra). assert (L1 : s <= t / 2) by apply Rmin_l. assert (L2 : s <= 1) by (eapply Rle_trans; [apply Rmin_r|apply Rmin_l]). assert (L3 : s <= e / 2) by (eapply Rle_trans; [apply Rmin_r|apply Rmin_r]).
  specialize (B s ltac:(lra)). nra.
Qed.
Lemma gauss_right t : 0 < t < T -> sqrt PI / 2 - 2 * bell t <= G t <= sqrt PI / 2.
Proof.
  intros Ht. pose proof (square_law t Ht) as E. pose proof (H_bound t) as B. pose proof (G_sign t ltac:(lra)) as S. pose proof PI_RGT_0 as P. pose proof PI2_3_2 as P3.
  set (r := sqrt PI). assert (R2 : r * r = PI) by (apply sqrt_sqrt; lra). assert (R1 : 1 <= r). { unfold r. rewrite <- sqrt_1. apply sqrt_le_1; unfold PI2 in *; lra. }
  assert (Q : (r / 2 - G t) * (r / 2 + G t) = H_of t) by nra. split.
  - destruct (Rle_dec (r / 2 - G t) 0); [pose proof (bell_pos t); lra|]. assert ((r / 2 - G t) * (1 / 2) <= bell t); [|lra]. eapply Rle_trans; [apply Rmult_le_compat_l with (r2 := r / 2 + G t); lra|]. lra.
  - destruct (Rle_dec (G t) (r / 2)); auto. exfalso. nra.
Qed.
End Gauss.
Lemma gauss T G t : 0 < T -> (forall x, - T <= x <= T -> derivable_pt_lim G x (bell x)) -> G 0 = 0 -> 0 < t < T ->
  (sqrt PI / 2 - 2 * bell t <= G t <= sqrt PI / 2) /\ (sqrt PI / 2 - 2 * bell t <= - G (- t) <= sqrt PI / 2).
Proof.
  intros PT D Z Ht. split; [apply (gauss_right T PT G); auto|].
  assert (Q : sqrt PI / 2 - 2 * bell t <= -1 * G (-1 * t) <= sqrt PI / 2).
  - apply (gauss_right T PT (fun x => -1 * G (-1 * x))); auto; [|rewrite Rmult_0_r, Z; ring]. intros x Hx. replace (bell x) with (-1 * (bell (-1 * x) * -1)) by (unfold bell; replace ((-1 * x) ^ 2) with (x ^ 2) by ring; ring).
    apply (derivable_pt_lim_scal (fun y => G (-1 * y))). apply lim_scaled, D. lra.
  - replace (-1 * t) with (- t) in Q by ring. lra.
Qed.
