(** Property C84: propagation on a grid. *)
From Coq Require Import List Arith Bool Lia Reals Lra ZArith.
From Verif Require Import Py Alg Cplx ListX NdArray_Model Grid_Model Grid_Spec Grid_Proof Grid_Prop Wave_Model Wave_Spec Wave_Proof WaveNorm_Proof WaveMore_Proof.
Import ListNotations.
Notation length := Datatypes.length.
Local Open Scope nat_scope.
Local Open Scope star_scope.
Add Ring Cwp : (r_theory C_star).

Notation points h i := (g_space (gget h i)).
Notation npts h i := (length (g_space (gget h i))).
(** What is yielded: the times [t0 + k dt], and functions with the given values at the points *)
Notation yields one s h i t0 dt K ys psis :=
  (Forall2 (fun k y => fst y = (t0 + INR k * dt)%R /\ sampled one s (points h i) (snd y) (psis k)) (seq 0 (S K)) ys).

(** A new grid and its conjugate are ready. *)
Theorem C84_fresh h k a b n hb : paired h -> 2 <= n -> (0 < hb)%R -> a <> b ->
  exists h' j, conj_of (h ++ [new_grid k a b n hb]) (length h) = Ok (h', j) /\ ready h' (length h) j /\ g_space (gget h' (length h)) = linspace a b n.
Proof. intros P N B D. destruct (fresh_ready h k a b n hb P N B D) as (h' & E & HR & _ & G & _). exists h', (S (length h)). auto. Qed.
Print Assumptions C84_fresh.

(** One state: at the points, every pass is a split step with the exponentials at the points. *)
Theorem C84_one simps h i j (v t : pot C_star) t0 dt K f c psi : ready h i j -> sampled true 1 (points h i) f psi ->
  let P := fun m k (_ _ : nat) => Cexp (im (- (dt / 2 / g_hbar (gget h i)))%R * with_time v (t0 + INR m * dt) (nth k (points h i) 0%R)) in
  let Q := fun m l (_ _ : nat) => Cexp (im (- (dt / g_hbar (gget h i)))%R * with_time t (t0 + INR m * dt) (nth l (points h j) 0%R)) in
  exists ys f', prop_call exp_one simps i v t t0 dt false K (mkProp h f c) = Ok (ys, mkProp h f' c) /\
    sampled true 1 (points h i) f' (split_steps (ft_sign (g_kind (gget h i))) 1 (npts h i) P Q K psi) /\
    yields true 1 h i t0 dt K ys (fun k => split_steps (ft_sign (g_kind (gget h i))) 1 (npts h i) P Q k psi).
Proof. intros HR H P Q. exact (call_ok true 1 exp_one one_exp (fun _ => True) exp_one_acts simps h i j v t HR (fun _ _ _ => I) (fun _ _ _ => I) t0 dt K f c psi H). Qed.
Print Assumptions C84_one.

(** So the [m]-th pass uses functions of time at [t0 + m dt], and others as they are. *)
Theorem C84_timed simps h i j (v t : R -> R -> C_star) (w : R -> C_star) t0 dt K f c psi : ready h i j -> sampled true 1 (points h i) f psi ->
  let P := fun m k (_ _ : nat) => Cexp (im (- (dt / 2 / g_hbar (gget h i)))%R * v (t0 + INR m * dt)%R (nth k (points h i) 0%R)) in
  let Q := fun m l (_ _ : nat) => Cexp (im (- (dt / g_hbar (gget h i)))%R * t (t0 + INR m * dt)%R (nth l (points h j) 0%R)) in
  let W := fun (m : nat) k (_ _ : nat) => Cexp (im (- (dt / 2 / g_hbar (gget h i)))%R * w (nth k (points h i) 0%R)) in
  (exists ys f', prop_call exp_one simps i (Timed v) (Timed t) t0 dt false K (mkProp h f c) = Ok (ys, mkProp h f' c) /\
    sampled true 1 (points h i) f' (split_steps (ft_sign (g_kind (gget h i))) 1 (npts h i) P Q K psi)) /\
  (exists ys f', prop_call exp_one simps i (Static w) (Timed t) t0 dt false K (mkProp h f c) = Ok (ys, mkProp h f' c) /\
    sampled true 1 (points h i) f' (split_steps (ft_sign (g_kind (gget h i))) 1 (npts h i) W Q K psi)).
Proof.
  intros HR H P Q W. split.
  - destruct (C84_one simps h i j (Timed v) (Timed t) t0 dt K f c psi HR H) as (ys & f' & E & S' & _). exists ys, f'. split; [exact E|exact S'].
  - destruct (C84_one simps h i j (Static w) (Timed t) t0 dt K f c psi HR H) as (ys & f' & E & S' & _). exists ys, f'. split; [exact E|exact S'].
Qed.
Print Assumptions C84_timed.

(** Several states: at every point the exponential of the matrix, if [eigh] gives its
    eigenvalues and eigenvectors. *)
Theorem C84_many eigh simps h i j s (v t : pot (arr C_star)) t0 dt K f c psi : ready h i j -> sampled false s (points h i) f psi ->
  (forall A, shape A = [s; s] -> (forall a b, get A [a; b] = rconj (get A [b; a])) -> eigensystem s (fun a b => get A [a; b]) (fst (eigh A)) (fun a b => get (snd (eigh A)) [a; b])) ->
  (forall time x, let A := with_time v time x in shape A = [s; s] /\ forall a b, get A [a; b] = rconj (get A [b; a])) ->
  (forall time x, let A := with_time t time x in shape A = [s; s] /\ forall a b, get A [a; b] = rconj (get A [b; a])) ->
  exists ys f' P Q, prop_call (exp_many eigh) simps i v t t0 dt false K (mkProp h f c) = Ok (ys, mkProp h f' c) /\
    sampled false s (points h i) f' (split_steps (ft_sign (g_kind (gget h i))) s (npts h i) P Q K psi) /\
    yields false s h i t0 dt K ys (fun k => split_steps (ft_sign (g_kind (gget h i))) s (npts h i) P Q k psi) /\
    (forall m k, exp_of s (im (- (dt / 2 / g_hbar (gget h i)))%R) (fun a b => get (with_time v (t0 + INR m * dt) (nth k (points h i) 0%R)) [a; b]) (P m k)) /\
    (forall m l, exp_of s (im (- (dt / g_hbar (gget h i)))%R) (fun a b => get (with_time t (t0 + INR m * dt) (nth l (points h j) 0%R)) [a; b]) (Q m l)) /\
    (forall m k, isometry s (P m k)) /\ (forall m l, isometry s (Q m l)).
Proof.
  intros HR H HE HV HT. destruct (call_ok false s (exp_many eigh) (many_exp eigh s) (fun A => shape A = [s; s]) (exp_many_acts eigh s) simps h i j v t HR (fun time x _ => proj1 (HV time x)) (fun time x _ => proj1 (HT time x)) t0 dt K f c psi H) as (ys & f' & E & S' & Y).
  exists ys, f'. eexists _, _. split; [exact E|]. split; [exact S'|]. split; [exact Y|]. split; [|split; [|split]].
  - intros m k. destruct (HV (t0 + INR m * dt)%R (nth k (points h i) 0%R)) as (Sh & He). apply many_exp_of. apply HE; auto.
  - intros m k. destruct (HT (t0 + INR m * dt)%R (nth k (points h j) 0%R)) as (Sh & He). apply many_exp_of. apply HE; auto.
  - intros m k. destruct (HV (t0 + INR m * dt)%R (nth k (points h i) 0%R)) as (Sh & He). destruct (HE _ Sh He) as (_ & H1 & H2). exact (exp_iso s _ _ H1 H2 _).
  - intros m k. destruct (HT (t0 + INR m * dt)%R (nth k (points h j) 0%R)) as (Sh & He). destruct (HE _ Sh He) as (_ & H1 & H2). exact (exp_iso s _ _ H1 H2 _).
Qed.
Print Assumptions C84_many.

Lemma yields_total one s h i t0 dt K ys psis T : yields one s h i t0 dt K ys psis -> (forall k, total s (npts h i) (psis k) = T) ->
  Forall (fun y => exists phi, sampled one s (points h i) (snd y) phi /\ total s (npts h i) phi = T) ys.
Proof. intros F H. induction F as [|k y l l' (_ & S') _ IH]; constructor; auto. exists (psis k). auto. Qed.
Lemma ready_pos h i j : ready h i j -> 0 < npts h i.
Proof. intros HR. pose proof (ready_ge h i j HR). lia. Qed.

(** The sum of the squares over the points does not change, for real functions and for hermitian
    matrices, also if they depend on time. *)
Theorem C84_norm simps h i j (v t : pot C_star) t0 dt K f c psi : ready h i j -> sampled true 1 (points h i) f psi ->
  (forall time x, exists r, with_time v time x = RtoC r) -> (forall time x, exists r, with_time t time x = RtoC r) ->
  exists ys s', prop_call exp_one simps i v t t0 dt false K (mkProp h f c) = Ok (ys, s') /\
    Forall (fun y => exists phi, sampled true 1 (points h i) (snd y) phi /\ total 1 (npts h i) phi = total 1 (npts h i) psi) ys.
Proof.
  intros HR H HV HT. destruct (C84_one simps h i j v t t0 dt K f c psi HR H) as (ys & f' & E & _ & Y). exists ys, (mkProp h f' c). split; [exact E|]. eapply yields_total; [exact Y|]. intros k. apply steps_total; [eapply ready_pos; eauto|..].
  - intros m l _. destruct (HV (t0 + INR m * dt)%R (nth l (points h i) 0%R)) as (r & ->). exact (one_exp_iso _ r).
  - intros m l _. destruct (HT (t0 + INR m * dt)%R (nth l (points h j) 0%R)) as (r & ->). exact (one_exp_iso _ r).
Qed.
Print Assumptions C84_norm.
Theorem C84_norm_many eigh simps h i j s (v t : pot (arr C_star)) t0 dt K f c psi : ready h i j -> sampled false s (points h i) f psi ->
  (forall A, shape A = [s; s] -> (forall a b, get A [a; b] = rconj (get A [b; a])) -> eigensystem s (fun a b => get A [a; b]) (fst (eigh A)) (fun a b => get (snd (eigh A)) [a; b])) ->
  (forall time x, let A := with_time v time x in shape A = [s; s] /\ forall a b, get A [a; b] = rconj (get A [b; a])) ->
  (forall time x, let A := with_time t time x in shape A = [s; s] /\ forall a b, get A [a; b] = rconj (get A [b; a])) ->
  exists ys s', prop_call (exp_many eigh) simps i v t t0 dt false K (mkProp h f c) = Ok (ys, s') /\
    Forall (fun y => exists phi, sampled false s (points h i) (snd y) phi /\ total s (npts h i) phi = total s (npts h i) psi) ys.
Proof.
  intros HR H HE HV HT. destruct (C84_many eigh simps h i j s v t t0 dt K f c psi HR H HE HV HT) as (ys & f' & P & Q & E & _ & Y & _ & _ & IP & IQ). exists ys, (mkProp h f' c). split; [exact E|]. eapply yields_total; [exact Y|]. intros k. apply steps_total; auto. eapply ready_pos; eauto.
Qed.
Print Assumptions C84_norm_many.

(** Functions that do not depend on time: a call with [-dt] undoes one with [dt]. *)
Theorem C84_reverse simps h i j (v t : R -> C_star) t0 t1 dt K f c psi : ready h i j -> sampled true 1 (points h i) f psi ->
  exists ys s1 ys' f', prop_call exp_one simps i (Static v) (Static t) t0 dt false K (mkProp h f c) = Ok (ys, s1) /\
    prop_call exp_one simps i (Static v) (Static t) t1 (- dt) false K s1 = Ok (ys', mkProp h f' c) /\ sampled true 1 (points h i) f' psi.
Proof.
  intros HR H. destruct (C84_one simps h i j (Static v) (Static t) t0 dt K f c psi HR H) as (ys & f1 & E1 & S1 & _). destruct (C84_one simps h i j (Static v) (Static t) t1 (- dt) K f1 c _ HR S1) as (ys' & f2 & E2 & S2 & _).
  exists ys, (mkProp h f1 c), ys', f2. split; [exact E1|]. split; [exact E2|]. eapply sampled_ext; [|exact S2]. cbn [with_time].
  assert (U : forall r z, Cexp (im (- (- dt / r / g_hbar (gget h i)))%R * z) * Cexp (im (- (dt / r / g_hbar (gget h i)))%R * z) = 1) by (intros r z; rewrite <- Cexp_add, <- Cexp_0; f_equal; apply Ceq; cbn; unfold Rdiv; ring).
  assert (U' : forall z, Cexp (im (- (- dt / g_hbar (gget h i)))%R * z) * Cexp (im (- (dt / g_hbar (gget h i)))%R * z) = 1) by (intros z; rewrite <- Cexp_add, <- Cexp_0; f_equal; apply Ceq; cbn; unfold Rdiv; ring).
  apply (steps_undo (g_kind (gget h i)) 1 (npts h i) (ready_pos h i j HR)
    (fun k _ _ => Cexp (im (- (dt / 2 / g_hbar (gget h i)))%R * v (nth k (points h i) 0%R))) (fun l _ _ => Cexp (im (- (dt / g_hbar (gget h i)))%R * t (nth l (points h j) 0%R)))
    (fun k _ _ => Cexp (im (- (- dt / 2 / g_hbar (gget h i)))%R * v (nth k (points h i) 0%R))) (fun l _ _ => Cexp (im (- (- dt / g_hbar (gget h i)))%R * t (nth l (points h j) 0%R)))).
  - intros k a b Hk Ha Hb. rewrite sumn_S, sumn_0, U. assert (a = 0%nat) by lia. assert (b = 0%nat) by lia. subst. unfold delta. rewrite Nat.eqb_refl. ring.
  - intros k a b Hk Ha Hb. rewrite sumn_S, sumn_0, U'. assert (a = 0%nat) by lia. assert (b = 0%nat) by lia. subst. unfold delta. rewrite Nat.eqb_refl. ring.
Qed.
Print Assumptions C84_reverse.

Definition quad_one := quad_of true 1 exp_one one_exp (fun _ => True) exp_one_acts.
(** [renormalize]: after [k >= 1] passes the function is the one without renormalization divided
    by its norm, and the coefficient has been multiplied by this norm. *)
Theorem C84_renormalize simps h i j (v t : pot C_star) t0 dt K f c psi q : ready h i j -> sampled true 1 (points h i) f psi ->
  (forall (r : R) ys, simps (map (rmul (RtoC r)) ys) (points h i) = RtoC r * simps ys (points h i)) ->
  let P := fun m k (_ _ : nat) => Cexp (im (- (dt / 2 / g_hbar (gget h i)))%R * with_time v (t0 + INR m * dt) (nth k (points h i) 0%R)) in
  let Q := fun m l (_ _ : nat) => Cexp (im (- (dt / g_hbar (gget h i)))%R * with_time t (t0 + INR m * dt) (nth l (points h j) 0%R)) in
  let psis := fun k => split_steps (ft_sign (g_kind (gget h i))) 1 (npts h i) P Q k psi in
  1 <= K -> (forall k, 1 <= k -> k <= K -> (0 < q k)%R /\ quad simps 1 (points h i) (psis k) = RtoC (q k)) ->
  exists ys f', prop_call exp_one simps i v t t0 dt true K (mkProp h f c) = Ok (ys, mkProp h f' (c * RtoC (sqrt (q K)))) /\
    sampled true 1 (points h i) f' (fun a k => RtoC (/ sqrt (q K)) * psis K a k) /\ norm_of simps (gget h i) f' = Ok 1 /\
    Forall2 (fun k y => fst y = (t0 + INR k * dt)%R /\ sampled true 1 (points h i) (snd y) (fun a m => RtoC (/ match k with O => 1 | S _ => sqrt (q k) end) * psis k a m)) (seq 0 (S K)) ys.
Proof.
  intros HR H Hom P Q psis HK Hq.
  pose proof (renorm_ok true 1 exp_one one_exp (fun _ => True) exp_one_acts simps h i j v t HR (fun _ _ _ => I) (fun _ _ _ => I) Hom t0 dt f c psi q K H Hq) as N.
  unfold prop_call. cbn [p_heap p_wfn p_coeff]. pose proof HR as (_ & _ & _ & _ & _ & Cc & _). unfold conj_of. rewrite Cc. cbn [bind fst snd].
  destruct (mapM_all (fun k => bind (passes exp_one simps i j v t t0 dt true k (mkProp h f c)) (fun s' => Ok (match k with O => t0 | S k' => t0 + INR k' * dt + dt end, p_wfn s')%R))
    (fun k y => fst y = (t0 + INR k * dt)%R /\ sampled true 1 (points h i) (snd y) (fun a m => RtoC (/ match k with O => 1 | S _ => sqrt (q k) end) * psis k a m)) (seq 0 (S K))) as (ys & Ey & Fy).
  { intros k Ik. apply in_seq in Ik. destruct (N k ltac:(lia)) as (f' & E' & H'). rewrite E'. cbn [bind p_wfn]. eexists. split; [reflexivity|]. cbn [fst snd]. split; [|exact H'].
    destruct k as [|k]; [cbn [INR]; ring|]. rewrite S_INR. ring. }
  rewrite Ey. cbn [bind]. destruct (N K ltac:(lia)) as (f' & E' & H'). rewrite E'. cbn [bind]. exists ys, f'. destruct K as [|K]; [lia|]. split; [reflexivity|]. split; [exact H'|]. split; [|exact Fy].
  rewrite (quad_one simps h i f' (fun a k => RtoC (/ sqrt (q (S K))) * psis (S K) a k) H'). f_equal. rewrite (quad_scale 1 simps h i Hom). destruct (Hq (S K) ltac:(lia) ltac:(lia)) as (Q0 & Q1). rewrite Q1, <- RtoC_mul.
  replace (/ sqrt (q (S K)) * / sqrt (q (S K)) * q (S K))%R with 1%R; [rewrite Csqrt_pos, sqrt_1 by lra; reflexivity|]. pose proof (sqrt_lt_R0 _ Q0). rewrite <- (sqrt_sqrt (q (S K))) at 3 by lra. field. lra.
Qed.
Print Assumptions C84_renormalize.

(** After a pass the function is not defined out of the range of the grid. *)
Theorem C84_range simps h i j v t time dt rn f c s' x : ready h i j -> prop_step exp_one simps i j v t time dt rn (mkProp h f c) = Ok s' ->
  (forall p, In p (points h i) -> (x < p)%R) \/ (forall p, In p (points h i) -> (p < x)%R) -> p_wfn s' [x] = Raise ValueError.
Proof. intros HR E O. exact (range_one simps h i j v t time dt rn f c s' x HR E O). Qed.
Print Assumptions C84_range.

Notation coordinate a b n hb := ([] ++ [new_grid Coordinate a b n hb]).
(** The momenta have the wrong distances: for [T = p] a wave moves by [t], but here it moves by
    the distance of two points within a shorter time. *)
Theorem C84_drift_refuted simps a b n hb : 2 <= n -> (0 < hb)%R -> (a < b)%R -> let dx := ((b - a) / INR (n - 1))%R in
  exists h j dt, conj_of (coordinate a b n hb) 0 = Ok (h, j) /\ ready h 0 j /\ points h 0 = linspace a b n /\ (dt < dx)%R /\
    forall f c psi, sampled true 1 (points h 0) f psi ->
      exists f', prop_step exp_one simps 0 j (Static (fun _ => 0)) (Static RtoC) 0 dt false (mkProp h f c) = Ok (mkProp h f' c) /\
        sampled true 1 (points h 0) f' (fun _ k => psi 0%nat ((k + (n - 1)) mod n)%nat).
Proof.
  intros Hn Hb Hab dx. assert (P0 : paired []) by (intros i Hi; cbn [length] in Hi; lia). destruct (fresh_ready [] Coordinate a b n hb P0 Hn Hb ltac:(lra)) as (h & E & HR & Kd & Gs & Gh & _). cbn [length] in *.
  assert (N1 : (0 < INR (n - 1))%R) by (apply lt_0_INR; lia). assert (N0 : (0 < INR n)%R) by (apply lt_0_INR; lia). assert (EN : INR n = (INR (n - 1) + 1)%R) by (rewrite minus_INR by lia; cbn [INR]; ring). pose proof PI_RGT_0 as Pp.
  set (dt := ((b - a) * INR (n - 1) / (INR n * INR n))%R). exists h, 1%nat, dt. split; [exact E|]. split; [exact HR|]. split; [exact Gs|]. split.
  { unfold dx, dt. apply (Rmult_lt_reg_r (INR n * INR n * INR (n - 1))); [apply Rmult_lt_0_compat; [apply Rmult_lt_0_compat|]; auto|]. replace ((b - a) * INR (n - 1) / (INR n * INR n) * (INR n * INR n * INR (n - 1)))%R with ((b - a) * (INR (n - 1) * INR (n - 1)))%R by (field; lra). replace ((b - a) / INR (n - 1) * (INR n * INR n * INR (n - 1)))%R with ((b - a) * (INR n * INR n))%R by (field; lra). apply Rmult_lt_compat_l; [lra|]. rewrite EN. nra. }
  intros f c psi H. destruct (pass_ok true 1 exp_one one_exp (fun _ => True) exp_one_acts simps h 0 1 (Static (fun _ => 0)) (Static RtoC) HR (fun _ _ _ => I) (fun _ _ _ => I) 0 dt f c psi H) as (f' & E' & H'). exists f'. split; [exact E'|].
  assert (Ln : npts h 0 = n) by (rewrite Gs; apply length_linspace). eapply sampled_ext; [|exact H']. intros a' k Ha Hk. rewrite Kd. cbn [ft_sign]. rewrite Ln in *. apply drift_step; auto; [lia|..].
  - intros k' a1 b1. unfold half_v, one_exp. cbn [with_time]. rewrite <- Cexp_0. f_equal. ring.
  - intros l a1 b1 Hl. unfold full_t, one_exp. cbn [with_time]. rewrite Gh.
    assert (Pl : nth l (points h 1) 0%R = (IZR (off n l) * (2 * PI * hb * INR n / (b - a) / INR (n - 1)))%R).
    { clear - E Hn Hb Hab N1 Hl. pose proof (width_new Coordinate a b n hb 0 Hn) as W. change (width (new_grid Coordinate a b n hb) = Ok (b - a)%R) in W. cbn [app] in E. unfold conj_of in E. change (gget [new_grid Coordinate a b n hb] 0) with (new_grid Coordinate a b n hb) in E. rewrite W in E. cbn [new_grid g_conj bind g_kind g_hbar g_space] in E. rewrite length_linspace in E. injection E as <-.
      cbn [gget nth app upd set_conj g_space new_grid length]. rewrite nth_linspace by exact Hl. rewrite (momentum_points n (2 * PI * hb * INR n / (b - a)) l Hn). reflexivity. }
    rewrite Pl. unfold Cexp, turn. cbn [fst snd rmul C_star Cmul RtoC]. unfold RtoC. cbn [fst snd]. replace (0 * (IZR (off n l) * (2 * PI * hb * INR n / (b - a) / INR (n - 1))) - - (dt / hb) * 0)%R with 0%R by ring. rewrite exp_0.
    replace (0 * 0 + - (dt / hb) * (IZR (off n l) * (2 * PI * hb * INR n / (b - a) / INR (n - 1))))%R with (2 * PI * IZR (- off n l) / INR n)%R; [apply Ceq; cbn [fst snd]; ring|]. rewrite opp_IZR. unfold dt. field. repeat split; lra.
Qed.
Print Assumptions C84_drift_refuted.

(** [norm] integrates by Simpson's rule, and this is not kept: not even by a drift on three points. *)
Theorem C84_simpson_refuted simps a b hb : (0 < hb)%R -> (a < b)%R ->
  (forall ys, length ys = 3 -> simps ys (linspace a b 3) = simpson3 ((b - a) / 2) ys) ->
  exists h j dt f f', conj_of (coordinate a b 3 hb) 0 = Ok (h, j) /\ prop_step exp_one simps 0 j (Static (fun _ => 0)) (Static RtoC) 0 dt false (mkProp h f 1) = Ok (mkProp h f' 1) /\
    norm_of simps (gget h 0) f = Ok (RtoC (sqrt ((b - a) / 6))) /\ norm_of simps (gget h 0) f' = Ok (RtoC (2 * sqrt ((b - a) / 6))).
Proof.
  intros Hb Hab Hs. destruct (C84_drift_refuted simps a b 3 hb ltac:(lia) Hb Hab) as (h & j & dt & E & HR & Gs & _ & D). set (psi := fun a k : nat => if (k =? 0)%nat then 1 else 0 : C_star).
  set (f := (fun _ => Ok (One [1; 0; 0])) : wave). assert (Sf : sampled true 1 (points h 0) f psi).
  { exists (One [1; 0; 0]). split; [reflexivity|]. rewrite Gs, length_linspace. split; [repeat split|]. intros a' k Ha Hk. destruct k as [|[|[|k]]]; [reflexivity..|lia]. }
  destruct (D f 1 psi Sf) as (f' & E' & S'). exists h, j, dt, f, f'. split; [exact E|]. split; [exact E'|].
  assert (H6 : (0 <= (b - a) / 6)%R) by lra.
  split; erewrite quad_one by eassumption; f_equal; unfold quad; rewrite sumn_S, sumn_0; rewrite Gs, length_linspace, Hs by reflexivity; unfold simpson3; cbn [seq map nth].
  - rewrite <- Csqrt_pos by exact H6. f_equal. unfold psi. cbn [Nat.eqb]. rewrite !rconj_1, !rconj_0. transitivity (RtoC ((b - a) / 2 / 3)); [ring|]. f_equal. field.
  - replace (2 * sqrt ((b - a) / 6))%R with (sqrt (4 * ((b - a) / 6))) by (rewrite sqrt_mult by lra; replace 4%R with (2 * 2)%R by ring; rewrite sqrt_square by lra; reflexivity). rewrite <- Csqrt_pos by lra. f_equal. cbn [Nat.add Nat.sub Nat.modulo Nat.divmod fst snd]. unfold psi. cbn [Nat.eqb]. rewrite !rconj_1, !rconj_0. transitivity (RtoC ((b - a) / 2 / 3) * RtoC 4); [ring|]. rewrite <- RtoC_mul. f_equal. field.
Qed.
Print Assumptions C84_simpson_refuted.

(** ** Examples *)
Lemma pointwise_sampled g xs : sampled true 1 xs (fun pts => Ok (One (map g pts))) (fun _ k => g (nth k xs 0%R)).
Proof.
  eexists. split; [reflexivity|]. split; [cbn [fits]; rewrite map_length; auto|]. intros a k _ Hk. cbn [val]. rewrite (nth_indep _ 0 (g 0%R)) by (rewrite map_length; exact Hk). apply map_nth.
Qed.
(** Five points from -1 to 1, potential x^2 (1 + t), energy p^2 / 2, the wave i x + 1 *)
Example C84_example : exists h j, conj_of (coordinate (-1) 1 5 1) 0 = Ok (h, j) /\ ready h 0 j /\
  exists ys s', prop_call exp_one (fun _ _ => 0) 0 (Timed (fun t x => RtoC (x * x * (1 + t)))) (Static (fun p => RtoC (p * p / 2))) 0 (1 / 10) false 7
     (mkProp h (fun pts => Ok (One (map (fun x => (1%R, x)) pts))) 1) = Ok (ys, s') /\ length ys = 8 /\
   Forall (fun y => exists phi, sampled true 1 (linspace (-1) 1 5) (snd y) phi /\ total 1 5 phi = total 1 5 (fun _ k => (1%R, nth k (linspace (-1) 1 5) 0%R))) ys.
Proof.
  assert (P0 : paired []) by (intros i Hi; cbn [length] in Hi; lia). destruct (C84_fresh [] Coordinate (-1) 1 5 1 P0 ltac:(lia) ltac:(lra) ltac:(lra)) as (h & j & E & HR & G). exists h, j. split; [exact E|]. split; [exact HR|]. cbn [length] in *.
  set (v := Timed (fun t x => RtoC (x * x * (1 + t)))). set (t := Static (fun p => RtoC (p * p / 2))).
  pose proof (pointwise_sampled (fun x => (1%R, x)) (points h 0)) as Sp.
  destruct (C84_norm (fun _ _ => 0) h 0 j v t 0 (1 / 10) 7 _ 1 _ HR Sp ltac:(intros; eexists; reflexivity) ltac:(intros; eexists; reflexivity)) as (ys & s' & Ec & F). exists ys, s'. split; [exact Ec|]. split.
  - destruct (C84_one (fun _ _ => 0) h 0 j v t 0 (1 / 10) 7 _ 1 _ HR Sp) as (ys' & f' & Ec' & _ & Y). rewrite Ec' in Ec. injection Ec as <- _. assert (L : forall {A B} (R : A -> B -> Prop) l l', Forall2 R l l' -> length l' = length l) by (intros A B R l l' F'; induction F'; cbn [length]; auto). rewrite (L _ _ _ _ _ Y). reflexivity.
  - rewrite G in F. rewrite length_linspace in F. exact F.
Qed.
