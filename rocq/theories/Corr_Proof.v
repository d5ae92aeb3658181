(** Proofs about bath correlation functions. *)
From Coq Require Import List Arith ZArith Lia Reals Lra Bool.
From Verif Require Import Py Alg Cplx Corr_Model Corr_Spec NdArray_Model NdArray_Proof Heom_Model Heom_Proof.
Import ListNotations.
Local Open Scope star_scope.
Add Ring Cr : (r_theory C_star).

Lemma exp_sum_app c1 g1 c2 g2 t : length c1 = length g1 -> exp_sum (c1 ++ c2) (g1 ++ g2) t = exp_sum c1 g1 t + exp_sum c2 g2 t.
Proof.
  revert g1. induction c1 as [|a c IH]; intros [|x g] L; try discriminate; cbn [app exp_sum]; [ring|]. rewrite IH by (injection L; auto). ring.
Qed.
Lemma conjugate_app c1 d1 g1 c2 d2 g2 : conjugate_data c1 d1 g1 -> conjugate_data c2 d2 g2 -> conjugate_data (c1 ++ c2) (d1 ++ d2) (g1 ++ g2).
Proof.
  intros (L1 & L1' & H1) (L2 & L2' & H2). split; [rewrite !app_length; lia|]. split; [rewrite !app_length; lia|]. intros t.
  rewrite !exp_sum_app, H1, H2 by lia. rewrite rconj_add. reflexivity.
Qed.
Lemma conjugate_nil : conjugate_data [] [] [].
Proof. split; auto. split; auto. intros t. cbn [exp_sum]. rewrite rconj_0. reflexivity. Qed.

(** Exponents that are real, coefficients conjugated one by one. *)
Lemma conjugate_real c (g : list R) : length g = length c -> conjugate_data c (map rconj c) (map RtoC g).
Proof.
  intros L. split; [apply map_length|]. split; [rewrite map_length; auto|]. intros t. revert g L. induction c as [|a c IH]; intros [|x g] L; try discriminate; cbn [map exp_sum].
  - now rewrite rconj_0.
  - rewrite IH by (injection L; auto). rewrite rconj_add, rconj_mul, <- Cexp_conj, rconj_mul, !RtoC_conj. reflexivity.
Qed.
(** Two exponents conjugate to each other. *)
Lemma conjugate_pair (a b x : C_star) : conjugate_data [a; b] [rconj b; rconj a] [x; rconj x].
Proof.
  split; auto. split; auto. intros t. cbn [exp_sum]. rewrite !rconj_add, !rconj_mul, <- !Cexp_conj, !rconj_mul, RtoC_conj, rconj_invol, rconj_0. ring.
Qed.

Lemma conj_i : rconj C_i = ropp C_i.
Proof. apply Ceq; cbn; unfold Copp; cbn; lra. Qed.
Lemma rconj_opp' (x : C_star) : rconj (ropp x) = ropp (rconj x).
Proof. apply Ceq; cbn; ring. Qed.
Lemma rconj_sub' (x y : C_star) : rconj (x - y) = rconj x - rconj y.
Proof. apply Ceq; cbn; ring. Qed.
Lemma rconj_1' : rconj (1 : C_star) = 1.
Proof. apply Ceq; cbn; lra. Qed.

(** ** [Drude] *)
Lemma drude_ok gamma lambda k beta decomp : (0 <= k)%Z ->
  (forall n, length (fst (decomp n)) = n /\ length (snd (decomp n)) = n) ->
  exists c cc g, drude gamma lambda k beta decomp = Ok (mkCorr (Some k) beta (Some c) (Some cc) (Some g)) /\
    conjugate_data c cc g /\ Z.of_nat (length c) = k.
Proof.
  intros Hk Hd. unfold drude. rewrite (proj2 (Z.ltb_ge k 0)) by auto.
  assert (X : forall c (g : list R), length g = length c -> Z.of_nat (length c) = k ->
    exists c' cc g', Ok (mkCorr (Some k) beta (Some c) (Some (map rconj c)) (Some (map RtoC g))) = Ok (mkCorr (Some k) beta (Some c') (Some cc) (Some g')) /\ conjugate_data c' cc g' /\ Z.of_nat (length c') = k).
  { intros c g L E. exists c, (map rconj c), (map RtoC g). split; [reflexivity|]. split; [apply conjugate_real; auto|auto]. }
  destruct (Z.eqb_spec k 0) as [->|Hk0]; cbn [fst snd].
  - apply (X [] []); auto.
  - destruct beta as [b|].
    + pose proof (Hd (Z.to_nat (k - 1))) as (L1 & L2). destruct (decomp (Z.to_nat (k - 1))) as [ps rs]. cbn [fst snd] in *.
      match goal with |- context [Some (?x :: map (fun pr => RtoC (- fst pr / b)) ?l)] => replace (x :: map (fun pr => RtoC (- fst pr / b)) l) with (map RtoC ((- gamma)%R :: map (fun pr => (- fst pr / b)%R) l)) by (cbn [map]; rewrite map_map; reflexivity) end.
      apply X; cbn [length]; rewrite !map_length, combine_length; lia.
    + unfold times_list. cbn [fst snd]. assert (E0 : forall m, repeat (r0 : C_star) m = map RtoC (repeat 0%R m)) by (induction m; cbn; [|f_equal]; auto).
      rewrite (E0 _). match goal with |- context [Some (RtoC (- gamma) :: map RtoC ?l)] => change (RtoC (- gamma) :: map RtoC l) with (map RtoC ((- gamma)%R :: l)) end.
      apply X; cbn [length]; rewrite ?map_length, !repeat_length; lia.
Qed.
Lemma drude_negative gamma lambda k beta decomp : (k < 0)%Z -> drude gamma lambda k beta decomp = Raise AssertionError.
Proof. intros H. unfold drude. rewrite (proj2 (Z.ltb_lt k 0)) by auto. reflexivity. Qed.

Lemma matsubara_sizes n : length (fst (matsubara n)) = n /\ length (snd (matsubara n)) = n.
Proof. unfold matsubara. cbn [fst snd]. rewrite map_length, seq_length, repeat_length. auto. Qed.
Lemma pade_sizes eig n : (forall l, length (eig l) = S (length l)) -> length (fst (pade eig n)) = n /\ length (snd (pade eig n)) = n.
Proof.
  intros He. unfold pade. destruct n as [|n]; [auto|]. cbn [fst snd]. unfold poles_of. rewrite !map_length, firstn_length, He, map_length, !seq_length. split; lia.
Qed.

(** ** [Brownian] *)
Lemma brownian_ok lambda omega gamma k beta :
  exists c cc g, brownian lambda omega gamma k beta = mkCorr (Some (k + 2)%Z) beta (Some c) (Some cc) (Some g) /\
    conjugate_data c cc g /\ Z.of_nat (length c) = match beta with None => 2%Z | Some _ => Z.max 2 (k + 1) end.
Proof.
  unfold brownian. do 3 eexists. split; [reflexivity|]. split.
  - apply conjugate_app.
    + set (pre := RtoC (lambda * omega ^ 2 / (2 * sqrt (omega ^ 2 - gamma ^ 2)))). set (w1 := sqrt (omega ^ 2 - gamma ^ 2)).
      match goal with |- conjugate_data [?a; ?b] [?p; ?q] [?x; ?y] => replace p with (rconj b); [replace q with (rconj a); [replace y with (rconj x); [apply conjugate_pair|]|]|] end.
      * rewrite rconj_sub', rconj_mul, conj_i, !RtoC_conj. ring.
      * rewrite rconj_mul, rconj_add, rconj_1'. unfold pre. rewrite RtoC_conj. reflexivity.
      * rewrite rconj_mul, rconj_sub', rconj_1'. unfold pre. rewrite RtoC_conj. reflexivity.
    + match goal with |- conjugate_data (map ?d ?ks) _ (map ?v ?ks) => assert (H : conjugate_data (map d ks) (map rconj (map d ks)) (map RtoC (map (fun k0 => (- (2 * PI * INR k0 / match beta with None => 0 | Some b => b end))%R) ks))) end.
      { apply conjugate_real. rewrite !map_length. reflexivity. }
      rewrite !map_map in H. erewrite (map_ext (fun x => rconj _)) in H; [exact H|]. intros x. cbn. apply RtoC_conj.
  - rewrite app_length, map_length. cbn [length]. destruct beta as [b|]; [|reflexivity]. destruct (Z.ltb_spec 1 k); [rewrite seq_length|cbn [length]]; lia.
Qed.

(** ** [generate_BCF] *)
Lemma modes_ok (f : R -> R) (ph : list (R * R)) :
  conjugate_data (flat_map (fun p => [RtoC (snd p ^ 2 / 2 * (f (fst p) + 1)); RtoC (snd p ^ 2 / 2 * (f (fst p) - 1))]) ph)
    (flat_map (fun p => [RtoC (snd p ^ 2 / 2 * (f (fst p) - 1)); RtoC (snd p ^ 2 / 2 * (f (fst p) + 1))]) ph)
    (flat_map (fun p => [ropp C_i * RtoC (fst p); C_i * RtoC (fst p)]) ph).
Proof.
  induction ph as [|[w x] ph IH]; cbn [flat_map fst snd]; [apply conjugate_nil|]. apply conjugate_app; [|exact IH].
  match goal with |- conjugate_data [?a; ?b] [?p; ?q] [?y; ?z] => replace z with (rconj y); [change (conjugate_data [a; b] [p; q] [y; rconj y]); replace [p; q] with [rconj b; rconj a]; [apply conjugate_pair|]|] end.
  - rewrite !RtoC_conj. reflexivity.
  - rewrite rconj_mul, rconj_opp', conj_i, RtoC_conj. ring.
Qed.
Lemma Cexp_plus w t : Cexp (C_i * RtoC w * RtoC t) = (cos (w * t), sin (w * t)) :> C_star.
Proof. replace (C_i * RtoC w * RtoC t) with ((0, w * t)%R : C_star) by (apply Ceq; cbn; ring). unfold Cexp. cbn [fst snd]. rewrite exp_0. apply Ceq; cbn; ring. Qed.
Lemma Cexp_minus w t : Cexp (ropp C_i * RtoC w * RtoC t) = (cos (w * t), - sin (w * t))%R :> C_star.
Proof. replace (ropp C_i * RtoC w * RtoC t) with ((0, - (w * t))%R : C_star) by (apply Ceq; cbn; ring). unfold Cexp. cbn [fst snd]. rewrite exp_0, cos_neg, sin_neg. apply Ceq; cbn; ring. Qed.
Lemma bcf_ok ph bath beta c cc g :
  match bath with None => c = [] /\ cc = [] /\ g = [] | Some b => c_coeff b = Some c /\ c_conj_coeff b = Some cc /\ c_derivative b = Some g end ->
  conjugate_data c cc g ->
  exists c' cc' g', generate_BCF ph bath beta = Ok (mkCorr (Some (Z.of_nat (length c'))) beta (Some c') (Some cc') (Some g')) /\
    conjugate_data c' cc' g' /\ length c' = (2 * length ph + length c)%nat /\
    forall t, exp_sum c' g' t = sumL ph (fun p => mode_function (temp_factor beta (fst p)) (fst p) (snd p) t) + exp_sum c g t.
Proof.
  intros Hb Hc. unfold generate_BCF.
  assert (E : (match bath with
             | None => Ok ([], [], [])
             | Some b => (let! c := as_list (c_coeff b) in let! cc := as_list (c_conj_coeff b) in let! d := as_list (c_derivative b) in Ok (c, cc, d))%py
             end) = Ok (c, cc, g)).
  { destruct bath as [b|]; destruct Hb as (-> & -> & ->); reflexivity. }
  rewrite E. cbn [bind]. do 3 eexists. split; [reflexivity|]. pose proof (modes_ok (temp_factor beta) ph) as M. split; [apply conjugate_app; auto|]. split.
  - rewrite app_length. f_equal. clear. induction ph as [|p ph IH]; cbn [flat_map app length]; [reflexivity|]. rewrite IH. lia.
  - intros t. destruct M as (_ & L & _). rewrite exp_sum_app by auto. f_equal. clear. induction ph as [|[w x] ph IH]; [reflexivity|]. cbn [flat_map app exp_sum]. rewrite IH, sumL_cons. cbn [fst snd].
    set (f := temp_factor beta w). set (rest := sumL ph _). transitivity (RtoC (x ^ 2 / 2 * (f + 1)) * Cexp (ropp C_i * RtoC w * RtoC t) + RtoC (x ^ 2 / 2 * (f - 1)) * Cexp (C_i * RtoC w * RtoC t) + rest); [ring|]. f_equal.
    rewrite Cexp_minus, Cexp_plus. unfold mode_function. apply Ceq; cbn; field.
Qed.

(** ** The two [Drude] classes *)
Lemma first_term lambda gamma beta : sin (beta * gamma / 2) <> 0%R -> cos (beta * gamma / 2) <> 0%R ->
  rmul (rmul (ropp C_i) (RtoC (2 * lambda * gamma))) (f_bose (rmul (ropp C_i) (RtoC (gamma * beta)))) = noise_coeff lambda gamma beta 0.
Proof.
  intros Hs Hc. unfold f_bose, noise_coeff, noise_symm, noise_asymm. set (y := (beta * gamma / 2)%R) in *.
  replace (ropp (rmul (ropp C_i) (RtoC (gamma * beta)))) with (C_i * RtoC (gamma * beta) * RtoC 1) by (apply Ceq; cbn; ring).
  rewrite Cexp_plus. replace (gamma * beta * 1)%R with (2 * y)%R by (unfold y; field). rewrite cos_2a_sin, sin_2a. unfold tan.
  assert (N : (sin y * sin y + cos y * cos y = 1)%R) by (pose proof (sin2_cos2 y) as H; unfold Rsqr in H; exact H).
  assert (N2 : Cnorm2 (rsub (s := C_star) r1 ((1 - 2 * sin y * sin y)%R, (2 * sin y * cos y)%R)) = (4 * (sin y * sin y))%R).
  { unfold Cnorm2. cbn. transitivity (4 * (sin y * sin y) * (sin y * sin y + cos y * cos y))%R; [ring|]. rewrite N. ring. }
  assert (Ci : Cinv (rsub (s := C_star) r1 ((1 - 2 * sin y * sin y)%R, (2 * sin y * cos y)%R)) = (1 / 2, cos y / (2 * sin y))%R).
  { unfold Cinv. rewrite N2. apply Ceq; cbn; field; auto. }
  rewrite Ci. apply Ceq; cbn; field; auto.
Qed.
Lemma later_terms lambda gamma beta i : (beta <> 0)%R ->
  let v := (2 * (INR i + 1) * PI)%R in (gamma ^ 2 <> (v / beta) ^ 2)%R ->
  RtoC (-4 * (v / beta) * (1 / beta) * gamma * lambda / (gamma ^ 2 - (v / beta) ^ 2)) = noise_coeff lambda gamma beta (S i) <-> (lambda = 0 \/ gamma = 0)%R.
Proof.
  intros Hb v Hv. unfold noise_coeff, noise_symm, noise_asymm, noise_spectrum, noise_exp.
  assert (E : (2 * PI * INR (S i) / beta = v / beta)%R) by (unfold v; rewrite S_INR; field; auto). rewrite E.
  set (x := (v / beta)%R) in *. assert (Hx : (x <> 0)%R).
  { unfold x, v. pose proof PI_RGT_0. pose proof (pos_INR i). intros Z. apply Rmult_integral in Z as [Z|Z]; [|apply Rinv_neq_0_compat in Z; auto]. 
    assert (0 < 2 * (INR i + 1) * PI)%R by (apply Rmult_lt_0_compat; lra). lra. }
  replace (radd (s := C_star) (RtoC (2 * (2 * lambda * (x * gamma) / (x ^ 2 + gamma ^ 2)) / beta)) (rmul (s := C_star) C_i (RtoC 0))) with (RtoC (2 * (2 * lambda * (x * gamma) / (x ^ 2 + gamma ^ 2)) / beta)) by (apply Ceq; cbn; ring).
  assert (P : (0 < x ^ 2 + gamma ^ 2)%R). { pose proof (pow2_ge_0 gamma). assert (0 < x ^ 2)%R by (replace (x ^ 2)%R with (Rsqr x) by (unfold Rsqr; ring); apply Rsqr_pos_lt; auto). lra. }
  assert (Hd : (gamma ^ 2 - x ^ 2 <> 0)%R) by (intros Z; apply Hv; lra).
  clear E. clearbody x. split.
  - intros H. apply RtoC_inj in H.
    assert (H' : (4 * x * gamma * lambda * (2 * gamma ^ 2) = 0)%R).
    { assert (A : (-4 * x * (1 / beta) * gamma * lambda / (gamma ^ 2 - x ^ 2) * (beta * (gamma ^ 2 - x ^ 2) * (x ^ 2 + gamma ^ 2)) = -4 * x * gamma * lambda * (x ^ 2 + gamma ^ 2))%R) by (field; auto).
      assert (B : (2 * (2 * lambda * (x * gamma) / (x ^ 2 + gamma ^ 2)) / beta * (beta * (gamma ^ 2 - x ^ 2) * (x ^ 2 + gamma ^ 2)) = 4 * x * gamma * lambda * (gamma ^ 2 - x ^ 2))%R) by (field; split; auto; lra).
      rewrite H in A. rewrite A in B. lra. }
    destruct (Req_dec lambda 0) as [|Hl]; [auto|]. destruct (Req_dec gamma 0) as [|Hg]; [auto|]. exfalso.
    assert (4 * x * gamma * lambda * (2 * gamma ^ 2) <> 0)%R; [|auto]. repeat apply Rmult_integral_contrapositive_currified; auto; try lra.
  - intros [->| ->]; f_equal; field; repeat split; auto; lra.
Qed.

(** ** The generator of hierachy.py with these data *)
Section Generator.
Local Open Scope nat_scope.
Variable K : StarRing.
Lemma diff_k3_defined im sq dims (op : arr K) (der coeff ccoeff : list K) scale iscale k :
  k < length dims -> k < length der -> k < length coeff -> k < length ccoeff ->
  exists l, diff_k3 K im sq dims op der coeff ccoeff scale iscale k = Ok l.
Proof.
  intros Hk H1 H2 H3. unfold diff_k3, raiser3, lower3, k_max.
  rewrite (item_nth coeff k r0), (item_nth ccoeff k r0), (item_nth der k r0) by lia. cbn [bind].
  destruct (numberer_ok K dims k Hk) as (nn & En & Tn & _). rewrite En. cbn [bind]. rewrite (item_nth dims k 0) by lia. cbn [bind].
  destruct (tri_mul_diag K _ _ _ _ _ sq (tri_up K (nth k dims 0))) as (r & Er & Tr). rewrite Er. cbn [bind].
  destruct (diag_mul_tri K _ _ _ _ _ sq (tri_dn K (nth k dims 0))) as (l & El & Tl). rewrite El. cbn [bind].
  pose proof (matmul_wf K _ _ _ Er) as Wr. pose proof (matmul_wf K _ _ _ El) as Wl.
  destruct (tri_add K _ _ _ _ _ _ _ _ _ (wf_scale K (nth k coeff r0 * iscale)%S r Wr) (wf_scale K scale l Wl) (tri_scale K _ _ _ _ _ _ Tr) (tri_scale K _ _ _ _ _ _ Tl)) as (m1 & E1 & T1).
  destruct (tri_add K _ _ _ _ _ _ _ _ _ (wf_scale K (nth k ccoeff r0 * iscale)%S r Wr) (wf_scale K scale l Wl) (tri_scale K _ _ _ _ _ _ Tr) (tri_scale K _ _ _ _ _ _ Tl)) as (m2 & E2 & T2).
  rewrite E1. cbn [bind]. rewrite E2. cbn [bind]. eauto.
Qed.
Lemma map_res_raises {A B} (f : A -> res B) l x r e : (forall y, In y l -> exists z, f y = Ok z) -> f x = Raise e -> map_res f (l ++ x :: r) = Raise e.
Proof.
  induction l as [|y l IH]; intros H E; cbn [app map_res].
  - rewrite E. reflexivity.
  - destruct (H y) as (z & Ez); [left; auto|]. rewrite Ez. cbn [bind]. rewrite IH; auto. intros y' Hy. apply H. right. auto.
Qed.
(** Enough data for the modes: the generator exists; too few: IndexError. *)
Lemma diff3_defined im sq dims (h op : arr K) (der coeff ccoeff : list K) scale iscale :
  length dims <= length coeff -> length der = length coeff -> length ccoeff = length coeff ->
  exists l, diff3 K im sq dims h op der coeff ccoeff scale iscale = Ok l.
Proof.
  intros H H1 H2. unfold diff3, k_max. destruct (map_res_ok (diff_k3 K im sq dims op der coeff ccoeff scale iscale) (fun _ _ => True) (seq 0 (length dims))) as (l & E & _).
  { intros k Hk. apply in_seq in Hk. destruct (diff_k3_defined im sq dims op der coeff ccoeff scale iscale k) as (l & E); try lia. eauto. }
  rewrite E. cbn [bind]. eauto.
Qed.
Lemma diff3_raises im sq dims (h op : arr K) (der coeff ccoeff : list K) scale iscale :
  length coeff < length dims -> length der = length coeff -> length ccoeff = length coeff ->
  diff3 K im sq dims h op der coeff ccoeff scale iscale = Raise IndexError.
Proof.
  intros H H1 H2. unfold diff3, k_max. replace (seq 0 (length dims)) with (seq 0 (length coeff) ++ length coeff :: seq (S (length coeff)) (length dims - S (length coeff))).
  - rewrite (map_res_raises _ _ _ _ IndexError); [reflexivity| |].
    + intros k Hk. apply in_seq in Hk. apply diff_k3_defined; lia.
    + unfold diff_k3, item. rewrite (proj2 (nth_error_None coeff (length coeff))) by lia. reflexivity.
  - change (length coeff :: seq (S (length coeff)) (length dims - S (length coeff))) with (seq (length coeff) (S (length dims - S (length coeff)))). rewrite <- seq_app. f_equal. lia.
Qed.
End Generator.
