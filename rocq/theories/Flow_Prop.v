(** Property C70. *)
From Coq Require Import String List Arith ZArith Bool Lia Reals Lra.
From Verif Require Import Py Alg ListX NdArray_Model NdArray_Proof Contract_Model Net_Model Net_Spec Env_Spec Trav_Proof Sweep_Spec Link_Spec State_Proof TEnv_Proof EnvThm_Proof Acyc_Proof Contraction_Proof
  Cache_Model Cache_Spec Cache_Proof CacheExact_Proof Cplx Eom_Model Eom_Spec Eom_Proof EomRate_Proof Eom_Prop Direct_Model Direct_Spec DirectAlg_Proof DirectSem_Proof DirectGrad_Proof DirectRun_Proof DirectThm_Proof Direct_Prop Flow_Spec Flow_Proof.
Import ListNotations.
Local Open Scope nat_scope.
Local Open Scope list_scope.

(** ** C70: norm and energy in the direct scheme *)

(** The dense tensor with every array changed by [eps] times a derivative is a polynomial in
    [eps] that starts with the tensor and the sum over the tensors of the network. *)
Theorem C70_derivative_of_state :
  forall (K : StarRing) (A D : id -> arr K) R v,
    fits A None 0 R -> NoDup (nids R) -> (forall n, In n (nids R) -> wf (D n) /\ shape (D n) = shape (A n)) ->
    starts (fun eps => dense (moved A D eps) R v) (dense A R v) (dense_dot A D R v).
Proof.
  intros K A D R v F ND H. apply dense_starts; auto. intros n Hn. destruct (H n Hn). split; auto. apply (fits_wf K A R None 0 F n Hn).
Qed.
Print Assumptions C70_derivative_of_state.

(** On the complex numbers the first two coefficients are determined. *)
Lemma horner_bound (cs : list C_star) : exists M, (0 <= M)%R /\ forall x, (-1 <= x <= 1)%R ->
  (Rabs (fst (horner cs (RtoC x))) <= M)%R /\ (Rabs (snd (horner cs (RtoC x))) <= M)%R.
Proof.
  induction cs as [|c cs (M & P & H)].
  - exists 0%R. split; [lra|]. intros x _. cbn. rewrite Rabs_R0. lra.
  - exists (Rabs (fst c) + Rabs (snd c) + M)%R. pose proof (Rabs_pos (fst c)) as Pa. pose proof (Rabs_pos (snd c)) as Pb. split; [lra|].
    intros x Hx. destruct (H x Hx) as (H1 & H2). cbn [horner]. set (p := horner cs (RtoC x)) in *. cbn.
    assert (B : forall y, (Rabs y <= M)%R -> (Rabs (x * y) <= M)%R).
    { intros y Hy. rewrite Rabs_mult. assert (Rabs x <= 1)%R by (apply Rabs_le; lra). pose proof (Rabs_pos x). pose proof (Rabs_pos y).
      apply Rle_trans with (1 * Rabs y)%R; [apply Rmult_le_compat_r; auto|lra]. }
    split.
    + replace (fst c + (x * fst p - 0 * snd p))%R with (fst c + x * fst p)%R by ring.
      eapply Rle_trans; [apply Rabs_triang|]. pose proof (B _ H1). lra.
    + replace (snd c + (x * snd p + 0 * fst p))%R with (snd c + x * snd p)%R by ring.
      eapply Rle_trans; [apply Rabs_triang|]. pose proof (B _ H2). lra.
Qed.
Lemma small_slope (a M : R) : (0 <= M)%R -> (forall x, (0 < x <= 1)%R -> (Rabs a <= x * M)%R) -> a = 0%R.
Proof.
  intros P H. destruct (Req_dec a 0) as [E|E]; auto. pose proof (Rabs_pos_lt a E) as Q. set (y := Rabs a) in *.
  assert (Hx : (0 < / (1 + M / y) <= 1)%R).
  { assert (0 <= M / y)%R by (apply Rmult_le_pos; auto; left; apply Rinv_0_lt_compat; auto). split; [apply Rinv_0_lt_compat; lra|].
    rewrite <- Rinv_1. apply Rinv_le_contravar; lra. }
  specialize (H _ Hx). assert (y + M > 0)%R by lra.
  replace (/ (1 + M / y) * M)%R with (y * M / (y + M))%R in H by (field; split; lra).
  apply (Rmult_le_compat_r (y + M)) in H; [|lra]. replace (y * M / (y + M) * (y + M))%R with (y * M)%R in H by (field; lra). nra.
Qed.
Theorem C70_rates_determined :
  forall (f : C_star -> C_star) c0 c1 d0 d1, starts f c0 c1 -> starts f d0 d1 -> c0 = d0 /\ c1 = d1.
Proof.
  intros f c0 c1 d0 d1 F G. assert (E0 : c0 = d0) by (rewrite <- (starts_at C_star f c0 c1 F); apply (starts_at C_star f d0 d1 G)).
  split; auto. subst d0. destruct F as (p & P). destruct G as (q & Q).
  destruct (horner_bound p) as (M1 & Q1 & B1). destruct (horner_bound q) as (M2 & Q2 & B2).
  assert (E : forall x, (0 < x <= 1)%R -> radd c1 (rmul (RtoC x) (horner p (RtoC x))) = radd d1 (rmul (RtoC x) (horner q (RtoC x)))).
  { intros x Hx. pose proof (P (RtoC x) (RtoC_conj x)) as X. rewrite (Q (RtoC x) (RtoC_conj x)) in X. set (u := radd c1 _) in *. set (w := radd d1 _) in *. clearbody u w.
    pose proof (f_equal fst X) as X1. pose proof (f_equal snd X) as X2. cbn in X1, X2.
    apply Ceq; apply (Rmult_eq_reg_l x); try lra. }
  assert (Bd : forall x y M, (0 <= M)%R -> (0 < x <= 1)%R -> (Rabs y <= M)%R -> (- (x * M) <= x * y <= x * M)%R).
  { intros x y M PM Hx Hy. assert (- M <= y <= M)%R by (unfold Rabs in Hy; destruct (Rcase_abs y); lra). nra. }
  assert (S1 : (fst c1 - fst d1 = 0)%R).
  { apply (small_slope _ (M1 + M2)); [lra|]. intros x Hx. pose proof (f_equal fst (E x Hx)) as X. cbn in X. destruct (B1 x) as (U1 & _); [lra|]. destruct (B2 x) as (U2 & _); [lra|].
    pose proof (Bd x _ M1 Q1 Hx U1). pose proof (Bd x _ M2 Q2 Hx U2). apply Rabs_le. lra. }
  assert (S2 : (snd c1 - snd d1 = 0)%R).
  { apply (small_slope _ (M1 + M2)); [lra|]. intros x Hx. pose proof (f_equal snd (E x Hx)) as X. cbn in X. destruct (B1 x) as (_ & U1); [lra|]. destruct (B2 x) as (_ & U2); [lra|].
    pose proof (Bd x _ M1 Q1 Hx U1). pose proof (Bd x _ M2 Q2 Hx U2). apply Rabs_le. lra. }
  apply Ceq; lra.
Qed.
Print Assumptions C70_rates_determined.

(** The arrays after a step. *)
Lemma newton_moved (K : StarRing) T (sys : system K T) fuel invert icoef e0 time (s : state K) ks A :
  let h := sheap K s in let r := sroot K s in let R := Nd r ks in let terms := all_terms K T sys time in
  canonical fuel h r ks A terms -> terms <> [] -> yields invert h A R ->
  exists s1 D, derivatives K T sys fuel invert icoef e0 time s = Ok s1 /\
    (forall t, In t (nids R) -> oaux (hget (sheap K s1) t) = Some (D t) /\ derived K invert h r ks A terms icoef e0 t (D t)) /\
    forall dt, exists s2, newton_step K T sys fuel invert dt icoef e0 time s = Ok s2 /\
      forall t, In t (nids R) -> oarr (hget (sheap K s2) t) = Some (moved A D dt t).
Proof.
  intros h r R terms Can Ne Y. destruct (all_derived K T sys fuel invert icoef e0 time s ks A Can Ne Y) as (s1 & E & _ & _ & G). fold h r R terms in G.
  exists s1, (D_of (sheap K s1)). split; auto. split; auto. intros dt.
  destruct (C69_newton_step K T sys fuel invert dt icoef e0 time s ks A Can Ne Y) as (s1' & s2 & D & E1 & E2 & _ & _ & _ & H). fold h r R terms in H.
  rewrite E in E1. injection E1 as <-. exists s2. split; auto. intros t Ht. destruct (H t Ht) as (ED & _ & _ & y & Ey & Wy & Sy & Gy).
  destruct (G t Ht) as (ED' & WD & SD & _). assert (D t = D_of (sheap K s1) t) by congruence.
  destruct (can_parts K h r ks A fuel terms Can) as (_ & _ & F & _). pose proof (fits_wf K A R None 0 F t Ht) as WA.
  rewrite Ey. f_equal. apply arr_ext; auto; [apply moved_wf; auto|]. rewrite Sy. intros idx Hi. rewrite Gy, moved_get by auto. congruence.
Qed.
Lemma starts_scale (f : C_star -> C_star) c c0 c1 : starts f c0 c1 -> starts (fun x => rmul c (f x)) (rmul c c0) (rmul c c1).
Proof.
  intros F. replace (rmul c c1) with (radd (rmul r0 c0) (rmul c c1)) by (apply Ceq; cbn; ring).
  apply (starts_mul C_star (fun _ => c) f); auto. apply starts_const.
Qed.
Lemma ip_real (l : list (list nat)) (a : list nat -> C_star) : exists n, ip C_star l a a = RtoC n /\ (0 <= n)%R.
Proof.
  unfold ip. destruct (sum_norm2 l a) as (n & E & P & _). exists n. split; auto. rewrite <- E. apply sumL_ext. intros v. apply (Rmul_comm (r_theory C_star)).
Qed.

(** Real time, terms that hold [-i H], no energy subtracted: norm and energy do not change to
    first order. *)
Theorem C70_real_time :
  forall (sys : system C_star R) fuel invert hbar time (s : state C_star) ks A,
    let h := sheap C_star s in let r := sroot C_star s in let R0 := Nd r ks in let terms := all_terms C_star R sys time in
    canonical fuel h r ks A terms -> terms <> [] -> yields invert h A R0 -> hbar <> 0%R -> adjoint_to (ropp r1) terms A R0 ->
    exists B : C_star -> id -> arr C_star,
      (forall dt, exists s', newton_step C_star R sys fuel invert dt (Cinv (coefficient hbar (Some time))) None time s = Ok s' /\
         forall t, In t (nids R0) -> oarr (hget (sheap C_star s') t) = Some (B dt t)) /\
      starts (fun dt => norm2 (B dt) R0) (norm2 A R0) r0 /\
      ((forall t, In t (nids R0) -> inverts invert h A R0 t) ->
       starts (fun dt => expectation terms (B dt) R0) (expectation terms A R0) r0).
Proof.
  intros sys fuel invert hbar time s ks A h r R0 terms Can Ne Y Hb Ad.
  assert (Ek : Cinv (coefficient hbar (Some time)) = RtoC (/ hbar)) by (apply Ceq; cbn; unfold Cnorm2; cbn; field; auto).
  rewrite Ek. destruct (newton_moved C_star R sys fuel invert (RtoC (/ hbar)) None time s ks A Can Ne Y) as (s1 & D & _ & De & St). fold h r R0 terms in De, St.
  assert (De' : forall u, In u (nids R0) -> derived C_star invert h r ks A terms (RtoC (/ hbar)) None u (D u)) by (intros u Hu; apply De; auto).
  exists (moved A D). split; auto.
  pose proof (frenkel_self C_star h r ks A fuel invert terms Can _ None D De') as Q1. fold R0 in Q1.
  set (l := indices (ldims A None 0 R0)) in *. set (m := total terms R0) in *. set (psi := dense A R0) in *. set (dot := dense_dot A D R0) in *. cbn [shift] in Q1.
  assert (Hm : forall v w, In v l -> In w l -> m v w = rmul (ropp r1) (rconj (m w v))) by (intros; apply Ad; auto).
  assert (E0 := ham_adjoint C_star l m (ropp r1) psi psi Hm). destruct (ip_real l psi) as (n & En & _).
  split.
  - replace (r0 : C_star) with (radd (ip C_star l dot psi) (rconj (ip C_star l dot psi))).
    + apply (norm_starts C_star h r ks A fuel invert terms Can _ None D De').
    + rewrite Q1, En. set (z := ham C_star l m psi psi) in *. clearbody z. apply (f_equal fst) in E0. cbn in E0.
      assert (Z : fst z = 0%R) by lra. apply Ceq; cbn; [rewrite Z|]; ring.
  - intros Iv. pose proof (frenkel_dot C_star h r ks A fuel invert terms Can _ None D De' Iv) as Q2. fold R0 l m psi dot in Q2. cbn [shift] in Q2.
    rewrite (elements_ham C_star terms A (fun n => arr_conj (A n)) A R0 ltac:(reflexivity) ltac:(reflexivity) : expectation terms A R0 = ham C_star l m psi psi).
    replace (r0 : C_star) with (radd (ham C_star l m dot psi) (ham C_star l m psi dot)).
    + apply (energy_starts C_star h r ks A fuel invert terms Can _ None D De').
    + rewrite (ham_adjoint C_star l m (ropp r1) dot psi Hm). destruct (ip_real l dot) as (k & Ekk & _). rewrite Ekk in Q2. set (x := ham C_star l m psi dot) in *. clearbody x.
      pose proof (f_equal snd Q2) as Q3. cbn in Q3. assert (Z : snd x = 0%R).
      { apply (Rmult_eq_reg_l (/ hbar)); [lra|apply Rinv_neq_0_compat; auto]. }
      apply Ceq; cbn; lra.
Qed.
Print Assumptions C70_real_time.

Lemma imaginary_rates sg u (a : C_star) (c : R) (sys : system C_star R) fuel invert (e0 : option R) (s : state C_star) ks A :
  let h := sheap C_star s in let r := sroot C_star s in let R0 := Nd r ks in let terms := all_terms C_star R sys 0%R in
  let e := match e0 with None => 0%R | Some e => e end in
  canonical fuel h r ks A terms -> terms <> [] -> yields invert h A R0 -> c <> 0%R -> adjoint_to sg terms A R0 ->
  a = RtoC (- / c) /\ sg = r1 /\ u = r1 \/ a = rmul (ropp C_i) (RtoC (/ c)) /\ sg = ropp r1 /\ u = C_i ->
  exists (B : C_star -> id -> arr C_star) s1 D n q m,
    (forall dt, exists s', newton_step C_star R sys fuel invert dt a (option_map RtoC e0) 0%R s = Ok s' /\
       forall t, In t (nids R0) -> oarr (hget (sheap C_star s') t) = Some (B dt t)) /\
    derivatives C_star R sys fuel invert a (option_map RtoC e0) 0%R s = Ok s1 /\
    (forall t, In t (nids R0) -> oaux (hget (sheap C_star s1) t) = Some (D t)) /\
    norm2 A R0 = RtoC n /\ (0 <= n)%R /\ rmul u (expectation terms A R0) = RtoC q /\ speed2 A D R0 = RtoC m /\ (0 <= m)%R /\
    starts (fun dt => norm2 (B dt) R0) (RtoC n) (RtoC (-2 * (q / c + e * n))) /\
    ((forall t, In t (nids R0) -> inverts invert h A R0 t) ->
     starts (fun dt => rmul u (expectation terms (B dt) R0)) (RtoC q) (RtoC (-2 * c * m + 2 * e * (q + c * e * n)))).
Proof.
  intros h r R0 terms e Can Ne Y Hc Ad Cases.
  destruct (newton_moved C_star R sys fuel invert a (option_map RtoC e0) 0%R s ks A Can Ne Y) as (s1 & D & E1 & De & St). fold h r R0 terms in De, St.
  assert (De' : forall u, In u (nids R0) -> derived C_star invert h r ks A terms a (option_map RtoC e0) u (D u)) by (intros x Hx; apply De; auto).
  pose proof (frenkel_self C_star h r ks A fuel invert terms Can _ _ D De') as Q1. fold R0 in Q1.
  assert (Es : shift (option_map RtoC e0) = RtoC e) by (unfold e; destruct e0; reflexivity). rewrite Es in Q1.
  set (l := indices (ldims A None 0 R0)) in *. set (m := total terms R0) in *. set (psi := dense A R0) in *. set (dot := dense_dot A D R0) in *.
  assert (Hm : forall v w, In v l -> In w l -> m v w = rmul sg (rconj (m w v))) by (intros; apply Ad; auto).
  assert (E0 := ham_adjoint C_star l m sg psi psi Hm). destruct (ip_real l psi) as (n & En & Pn). destruct (ip_real l dot) as (k & Ekk & Pk).
  set (z := ham C_star l m psi psi) in *.
  assert (Ez : expectation terms A R0 = z) by (apply (elements_ham C_star terms A (fun n => arr_conj (A n)) A R0); reflexivity).
  assert (Hz : z = ham C_star l m psi psi) by reflexivity. clearbody z.
  assert (Q : exists q, rmul u z = RtoC q).
  { destruct Cases as [(_ & -> & ->)|(_ & -> & ->)].
    - exists (fst z). apply (f_equal snd) in E0. cbn in E0. apply Ceq; cbn; lra.
    - exists (- snd z)%R. apply (f_equal fst) in E0. cbn in E0. apply Ceq; cbn; lra. }
  destruct Q as (q & Q). rewrite En in Q1. 
  exists (moved A D), s1, D, n, q, k. split; auto. split; auto. split; [intros t Ht; apply De; auto|].
  split; [exact En|]. split; auto. split; [rewrite Ez; exact Q|]. split; [exact Ekk|]. split; auto.
  assert (Sv : ip C_star l dot psi = RtoC (- (q / c) - e * n)%R).
  { rewrite Q1. pose proof (f_equal fst Q) as X1. pose proof (f_equal snd Q) as X2. destruct Cases as [(-> & _ & ->)|(-> & _ & ->)]; cbn in X1, X2; apply Ceq; cbn; unfold Rdiv.
    - replace (fst z) with q by lra. replace (snd z) with 0%R by lra. ring.
    - replace (fst z) with q by lra. replace (snd z) with 0%R by lra. ring.
    - replace (fst z) with 0%R by lra. replace (snd z) with (- q)%R by lra. ring.
    - replace (fst z) with 0%R by lra. replace (snd z) with (- q)%R by lra. ring. }
  split.
  - rewrite <- En. replace (RtoC (-2 * (q / c + e * n))) with (radd (ip C_star l dot psi) (rconj (ip C_star l dot psi))) by (rewrite Sv; apply Ceq; cbn; ring).
    apply (norm_starts C_star h r ks A fuel invert terms Can _ _ D De').
  - intros Iv. pose proof (frenkel_dot C_star h r ks A fuel invert terms Can _ _ D De' Iv) as Q2. fold R0 l m psi dot in Q2.
    rewrite Es, Ekk, <- (ip_conj C_star l dot psi), Sv in Q2. rewrite <- Q.
    replace (RtoC (-2 * c * k + 2 * e * (q + c * e * n))) with (rmul u (radd (ham C_star l m dot psi) (ham C_star l m psi dot))).
    + apply starts_scale. rewrite Hz. apply (energy_starts C_star h r ks A fuel invert terms Can _ _ D De').
    + rewrite (ham_adjoint C_star l m sg dot psi Hm). set (x := ham C_star l m psi dot) in *. clearbody x.
      pose proof (f_equal fst Q2) as Q3. pose proof (f_equal snd Q2) as Q4. destruct Cases as [(-> & -> & ->)|(-> & -> & ->)]; cbn in Q3, Q4.
      * assert (X1 : fst x = (- c * (k + e * (- (q / c) - e * n)))%R) by (rewrite Q3; field; auto). apply Ceq; cbn; [|ring]. rewrite X1. field. auto.
      * assert (X2 : snd x = (c * (k + e * (- (q / c) - e * n)))%R) by (rewrite Q3; field; auto). apply Ceq; cbn; [|ring]. rewrite X2. field. auto.
Qed.

(** Imaginary time, terms that hold [-i H]: the energy [q] falls at the rate [2 hbar m] with
    [m] the square of the speed of the state, if no energy is subtracted. *)
Theorem C70_imaginary_time :
  forall (sys : system C_star R) fuel invert (e0 : option R) hbar (s : state C_star) ks A,
    let h := sheap C_star s in let r := sroot C_star s in let R0 := Nd r ks in let terms := all_terms C_star R sys 0%R in
    let e := match e0 with None => 0%R | Some e => e end in
    canonical fuel h r ks A terms -> terms <> [] -> yields invert h A R0 -> hbar <> 0%R -> adjoint_to (ropp r1) terms A R0 ->
    exists (B : C_star -> id -> arr C_star) s1 D n q m,
      (forall dt, exists s', newton_step C_star R sys fuel invert dt (Cinv (coefficient hbar None)) (option_map RtoC e0) 0%R s = Ok s' /\
         forall t, In t (nids R0) -> oarr (hget (sheap C_star s') t) = Some (B dt t)) /\
      derivatives C_star R sys fuel invert (Cinv (coefficient hbar None)) (option_map RtoC e0) 0%R s = Ok s1 /\
      (forall t, In t (nids R0) -> oaux (hget (sheap C_star s1) t) = Some (D t)) /\
      norm2 A R0 = RtoC n /\ (0 <= n)%R /\ rmul C_i (expectation terms A R0) = RtoC q /\ speed2 A D R0 = RtoC m /\ (0 <= m)%R /\
      starts (fun dt => norm2 (B dt) R0) (RtoC n) (RtoC (-2 * (q / hbar + e * n))) /\
      ((forall t, In t (nids R0) -> inverts invert h A R0 t) ->
       starts (fun dt => rmul C_i (expectation terms (B dt) R0)) (RtoC q) (RtoC (-2 * hbar * m + 2 * e * (q + hbar * e * n)))).
Proof.
  intros sys fuel invert e0 hbar s ks A h r R0 terms e Can Ne Y Hb Ad.
  apply (imaginary_rates (ropp r1) C_i (Cinv (coefficient hbar None)) hbar sys fuel invert e0 s ks A Can Ne Y Hb Ad).
  right. split; [|auto]. apply Ceq; cbn; unfold Cnorm2; cbn; field; auto.
Qed.
Print Assumptions C70_imaginary_time.

(** The same with the coefficient of /repo/minitn/heom/propagate.py and terms that hold [H]. *)
Theorem C70_heom_imaginary_time :
  forall (sys : system C_star R) fuel invert (e0 : option R) hbar (s : state C_star) ks A,
    let h := sheap C_star s in let r := sroot C_star s in let R0 := Nd r ks in let terms := all_terms C_star R sys 0%R in
    let e := match e0 with None => 0%R | Some e => e end in
    canonical fuel h r ks A terms -> terms <> [] -> yields invert h A R0 -> hbar <> 0%R -> adjoint_to r1 terms A R0 ->
    exists (B : C_star -> id -> arr C_star) s1 D n q m,
      (forall dt, exists s', newton_step C_star R sys fuel invert dt (Cinv (heom_coefficient hbar None)) (option_map RtoC e0) 0%R s = Ok s' /\
         forall t, In t (nids R0) -> oarr (hget (sheap C_star s') t) = Some (B dt t)) /\
      derivatives C_star R sys fuel invert (Cinv (heom_coefficient hbar None)) (option_map RtoC e0) 0%R s = Ok s1 /\
      (forall t, In t (nids R0) -> oaux (hget (sheap C_star s1) t) = Some (D t)) /\
      norm2 A R0 = RtoC n /\ (0 <= n)%R /\ rmul r1 (expectation terms A R0) = RtoC q /\ speed2 A D R0 = RtoC m /\ (0 <= m)%R /\
      starts (fun dt => norm2 (B dt) R0) (RtoC n) (RtoC (-2 * (q / hbar + e * n))) /\
      ((forall t, In t (nids R0) -> inverts invert h A R0 t) ->
       starts (fun dt => rmul r1 (expectation terms (B dt) R0)) (RtoC q) (RtoC (-2 * hbar * m + 2 * e * (q + hbar * e * n)))).
Proof.
  intros sys fuel invert e0 hbar s ks A h r R0 terms e Can Ne Y Hb Ad.
  apply (imaginary_rates r1 r1 (Cinv (heom_coefficient hbar None)) hbar sys fuel invert e0 s ks A Can Ne Y Hb Ad).
  left. split; [|auto]. apply Ceq; cbn; unfold Cnorm2; cbn; field; auto.
Qed.
Print Assumptions C70_heom_imaginary_time.

(** Taking the energy as the energy subtracted does not keep the norm: the sign is the other one. *)
Lemma one_canonical u tm : canonical 3 one_h 0 one_ks one_a (all_terms C_star R (one_sys u) tm).
Proof.
  split; [apply one_standing|]. split; [|split; [|split]].
  - intros n. destruct n as [|[|n]]; [cbn; repeat constructor..|]. unfold one_h, hget. destruct n; cbn; constructor.
  - repeat constructor.
  - intros l [<-|[]]. reflexivity.
  - intros n [<-|[]] E. congruence.
Qed.
Theorem C70_shift_refuted :
  ~ (forall (sys : system C_star R) fuel invert hbar (e : R) (s : state C_star) ks A (B : C_star -> id -> arr C_star),
      let h := sheap C_star s in let r := sroot C_star s in let R0 := Nd r ks in let terms := all_terms C_star R sys 0%R in
      canonical fuel h r ks A terms -> terms <> [] -> yields invert h A R0 -> hbar <> 0%R -> adjoint_to (ropp r1) terms A R0 ->
      rmul C_i (expectation terms A R0) = rmul (RtoC (hbar * e)) (norm2 A R0) ->
      (forall dt, exists s', newton_step C_star R sys fuel invert dt (Cinv (coefficient hbar None)) (Some (RtoC e)) 0%R s = Ok s' /\
         forall t, In t (nids R0) -> oarr (hget (sheap C_star s') t) = Some (B dt t)) ->
      starts (fun dt => norm2 (B dt) R0) (norm2 A R0) r0).
Proof.
  intros H. pose (inv := fun (_ : option (arr C_star)) (_ : nat) => Raise TypeError : res (arr C_star)).
  assert (Y : yields inv one_h one_a (Nd 0 one_ks)).
  { intros t ax rho [<-|[]] E. discriminate. }
  assert (Ad := one_adjoint (ropp r1) (ropp C_i) 0%R ltac:(apply Ceq; cbn; ring)).
  assert (Ne : all_terms C_star R (one_sys (ropp C_i)) 0%R <> []) by discriminate.
  destruct (C70_imaginary_time (one_sys (ropp C_i)) 3 inv (Some 1%R) 1 one_s one_ks one_a (one_canonical _ _) Ne Y R1_neq_R0 Ad)
    as (B & s1 & D & n & q & m & St & _ & _ & En & _ & Eq & _ & _ & S1 & _).
  assert (Vn : norm2 one_a (Nd 0 one_ks) = RtoC 1) by (unfold norm2; cbn; apply Ceq; cbn; ring).
  assert (Vq : rmul C_i (expectation (all_terms C_star R (one_sys (ropp C_i)) 0%R) one_a (Nd 0 one_ks)) = RtoC 1).
  { unfold expectation, element, all_terms; cbn; apply Ceq; cbn; ring. }
  specialize (H (one_sys (ropp C_i)) 3 inv 1%R 1%R one_s one_ks one_a B (one_canonical _ _) Ne Y R1_neq_R0 Ad). cbv zeta in H.
  cbn [sroot sheap one_s] in H, En, Eq, S1, St. rewrite Vq, Vn in H.
  specialize (H ltac:(apply Ceq; cbn; ring) St). rewrite Vn in En. rewrite Vq in Eq. apply RtoC_inj in En, Eq. subst n q.
  destruct (C70_rates_determined _ _ _ _ _ H S1) as (_ & X). apply (f_equal fst) in X. cbn in X. lra.
Qed.
Print Assumptions C70_shift_refuted.

(** Two tensors. *)
Local Definition c (x : Z) : C_star := RtoC (IZR x).
Local Definition j (x : Z) : C_star := rmul (ropp C_i) (RtoC (IZR x)).
Definition fl_a (n : nat) : arr C_star :=
  match n with
  | 0 => mkArr [2; 2] ([c 1; c 0; c 0; c 1] : list C_star)
  | _ => mkArr [2; 3] ([c 1; c 0; c 0; c 0; c 1; c 0] : list C_star)
  end.
Definition fl_h : heap C_star :=
  [mkObj (Some "0"%string) false (Some (fl_a 0)) None None true [(0, (1, 0)); (1, (2, 0))] [];
   mkObj (Some "1"%string) false (Some (fl_a 1)) None (Some 0) true [(0, (0, 0)); (1, (3, 0))] [];
   mkObj (Some "2"%string) true None None None false [(0, (0, 1))] [];
   mkObj (Some "3"%string) true None None None false [(0, (1, 1))] []].
Definition fl_ks : list (nat * tree * nat) := [(0, Nd 1 [(1, Lf 3, 0)], 0); (1, Lf 2, 0)].
Definition fl_m3 : arr C_star := mkArr [3; 3] ([j 3; j 0; j 2; j 0; j 0; j 0; j 2; j 0; j 0] : list C_star).
Definition fl_m2 : arr C_star := mkArr [2; 2] ([j 1; j 1; j 1; j 0] : list C_star).
Definition fl_sys : system C_star R := mkSystem C_star R [[(3, fl_m3)]; [(2, fl_m2)]] None.
Definition fl_s : state C_star := mkState C_star fl_h 0 (no_env C_star).
Definition fl_inv (rho : option (arr C_star)) (_ : nat) : res (arr C_star) := match rho with Some m => Ok m | None => Raise TypeError end.
Lemma fl_unit : unit_along (fl_a 1) (Some 0).
Proof. intros a b Ha Hb. cbn in Ha, Hb. destruct a as [|[|a]]; destruct b as [|[|b]]; try lia; cbn; apply Ceq; cbn; ring. Qed.
Lemma fl_canonical tm : canonical 6 fl_h 0 fl_ks fl_a (all_terms _ _ fl_sys tm).
Proof.
  assert (H : hangs fl_h None (Nd 0 fl_ks)).
  { apply hangs_root; [reflexivity|reflexivity|cbn; repeat constructor; cbn; intuition discriminate|].
    repeat constructor. apply (hangs_node _ _ 1 0 (0, 0) [] [(1, Lf 3, 0)]); [reflexivity|reflexivity| |repeat constructor].
    cbn. repeat constructor; cbn; intuition discriminate. }
  assert (F : fits fl_a None 0 (Nd 0 fl_ks)).
  { constructor; [reflexivity|repeat constructor|exact I|reflexivity|]. constructor; [|repeat constructor].
    constructor; [reflexivity|repeat constructor|cbn; lia|reflexivity|repeat constructor]. }
  split; [split; [exact H|split; [|split; [exact F|split; [cbn; lia|split; [|split]]]]]|split; [|split; [|split]]].
  - repeat constructor; cbn; intuition discriminate.
  - intros n Hn. cbn in Hn. destruct Hn as [<-|[<-|[]]]; reflexivity.
  - intros n Hn E _. cbn in Hn. destruct Hn as [<-|[<-|[]]]; [congruence|exact fl_unit].
  - repeat constructor; cbn; try (intros l m Hl; repeat (destruct Hl as [Hl|Hl]; [injection Hl as <- <-; reflexivity|]); destruct Hl).
  - intros n. destruct n as [|[|[|[|n]]]]; [cbn; repeat constructor..|]. unfold fl_h, hget. destruct n; cbn; constructor.
  - repeat constructor.
  - intros l Hl. cbn in Hl. destruct Hl as [<-|[<-|[]]]; reflexivity.
  - intros n Hn E. cbn in Hn. destruct Hn as [<-|[<-|[]]]; [congruence|exact fl_unit].
Qed.
Lemma fl_yields : yields fl_inv fl_h fl_a (Nd 0 fl_ks).
Proof. intros t ax rho _ _ (M & _). exists rho. split; auto. Qed.
Lemma fl_inverts t : In t (nids (Nd 0 fl_ks)) -> inverts fl_inv fl_h fl_a (Nd 0 fl_ks) t.
Proof.
  intros Ht. cbn in Ht. destruct Ht as [<-|[<-|[]]]; [intros ax rho m Ea; discriminate|].
  intros ax rho m Ea (M & De) E. injection E as <-. cbn in Ea. injection Ea as <-. cbn [fl_a shape nth] in *.
  assert (G : forall p q, p < 2 -> q < 2 -> get rho [p; q] = delta p q).
  { intros p q Hp Hq. set (e := fun i : nat => build [2; 3] (fun idx => rmul (delta (nth 0 idx 0) i) (delta (nth 1 idx 0) 0)) : arr C_star).
    pose proof (De (e p) (e q) (wf_build _ _ _) (wf_build _ _ _) eq_refl eq_refl) as X.
    rewrite (sumn_ext C_star 2 _ (fun p' => rmul (delta p' p) (get rho [p'; q]))) in X.
    - rewrite sumn_delta in X by auto. rewrite <- X. clear - Hp Hq. destruct p as [|[|p]]; destruct q as [|[|q]]; try lia; unfold overlap; cbn; apply Ceq; cbn; ring.
    - intros p' Hp'. rewrite (sumn_ext C_star 2 _ (fun q' => rmul (delta q' q) (rmul (delta p' p) (get rho [p'; q'])))).
      + rewrite sumn_delta by auto. reflexivity.
      + intros q' Hq'. replace (crossed (e q) (e p) 0 q' p') with (rmul (delta q' q) (delta p' p) : C_star).
        * rewrite (Rmul_comm (r_theory C_star) (get rho [p'; q'])). symmetry. apply (Rmul_assoc (r_theory C_star)).
        * clear - Hp Hq Hp' Hq'. destruct p as [|[|p]]; destruct q as [|[|q]]; destruct p' as [|[|p']]; destruct q' as [|[|q']]; try lia; cbn; apply Ceq; cbn; ring. }
  split; auto. intros p q Hp Hq. rewrite (sumn_ext C_star 2 _ (fun c => rmul (delta c p) (delta c q))).
  - rewrite sumn_delta by auto. reflexivity.
  - intros c0 Hc. rewrite !G by auto. f_equal. unfold delta. rewrite Nat.eqb_sym. reflexivity.
Qed.
Lemma fl_adjoint tm : adjoint_to (ropp r1) (all_terms C_star R fl_sys tm) fl_a (Nd 0 fl_ks).
Proof.
  intros v w Hv Hw. cbn [fl_ks] in *. cbn in Hv, Hw.
  repeat (destruct Hv as [<-|Hv]; [|]); try (destruct Hv); repeat (destruct Hw as [<-|Hw]; [|]); try (destruct Hw);
    unfold total, factor, all_terms; cbn; apply Ceq; cbn; lra.
Qed.
Definition fl_psi (v : list nat) : C_star := match v with [0; 0] => r1 | [1; 1] => r1 | _ => r0 end.
Definition fl_ham (v w : list nat) : C_star :=
  match v, w with [0; 0], [0; 0] => j 4 | _, _ => r0 end.
Lemma fl_expectation tm : rmul C_i (expectation (all_terms C_star R fl_sys tm) fl_a (Nd 0 fl_ks)) = RtoC 4.
Proof.
  rewrite (elements_ham C_star (all_terms C_star R fl_sys tm) fl_a (fun n => arr_conj (fl_a n)) fl_a (Nd 0 fl_ks) ltac:(reflexivity) ltac:(reflexivity)
    : expectation (all_terms C_star R fl_sys tm) fl_a (Nd 0 fl_ks) = _).
  unfold ham. change (indices (ldims fl_a None 0 (Nd 0 fl_ks))) with [[0; 0]; [0; 1]; [1; 0]; [1; 1]; [2; 0]; [2; 1]].
  rewrite (sumL_ext_in C_star _ _ (fun v => sumL [[0; 0]; [0; 1]; [1; 0]; [1; 1]; [2; 0]; [2; 1]] (fun w => rmul (rmul (fl_psi v) (rconj (fl_psi w))) (fl_ham v w)))).
  - cbn. apply Ceq; cbn; ring.
  - assert (P : forall v, In v [[0; 0]; [0; 1]; [1; 0]; [1; 1]; [2; 0]; [2; 1]] -> dense fl_a (Nd 0 fl_ks) v = fl_psi v).
    { intros v Hv. repeat (destruct Hv as [<-|Hv]; [cbn; apply Ceq; cbn; ring|]). destruct Hv. }
    intros v Hv. apply sumL_ext_in. intros w Hw. rewrite !P by auto. clear P.
    repeat (destruct Hv as [<-|Hv]; [|]); try (destruct Hv); repeat (destruct Hw as [<-|Hw]; [|]); try (destruct Hw);
      unfold total, factor, all_terms; cbn; apply Ceq; cbn; ring.
Qed.
Example C70_example :
  let R0 := Nd 0 fl_ks in let terms := all_terms C_star R fl_sys 0%R in
  canonical 6 (sheap _ fl_s) (sroot _ fl_s) fl_ks fl_a terms /\ terms <> [] /\ yields fl_inv fl_h fl_a R0 /\
  (forall t, In t (nids R0) -> inverts fl_inv fl_h fl_a R0 t) /\ adjoint_to (ropp r1) terms fl_a R0 /\
  norm2 fl_a R0 = RtoC 2 /\ rmul C_i (expectation terms fl_a R0) = RtoC 4.
Proof.
  split; [apply fl_canonical|]. split; [discriminate|]. split; [exact fl_yields|]. split; [exact fl_inverts|]. split; [apply fl_adjoint|].
  split; [unfold norm2; cbn; apply Ceq; cbn; ring|apply fl_expectation].
Qed.
