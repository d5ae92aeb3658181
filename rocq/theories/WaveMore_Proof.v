(** New grids, the calls of the propagator, renormalization, the range. *)
From Coq Require Import List Arith Bool Lia Reals Lra ZArith Permutation Sorting.Sorted.
From Verif Require Import Py Alg Cplx ListX NdArray_Model Grid_Model Grid_Spec Grid_Proof Grid_Prop Wave_Model Wave_Spec Wave_Proof WaveNorm_Proof.
Import ListNotations.
Notation length := Datatypes.length.
Local Open Scope nat_scope.
Local Open Scope star_scope.
Add Ring Cwm : (r_theory C_star).

(** ** New grids *)
Lemma map_NoDup_in {A B} (f : A -> B) l : (forall x y, In x l -> In y l -> f x = f y -> x = y) -> NoDup l -> NoDup (map f l).
Proof.
  intros H N. induction N as [|x l N1 N2 IH]; cbn [map]; constructor; [|apply IH; intros; apply H; auto; now right].
  intros I. apply in_map_iff in I. destruct I as (y & E & I). apply N1. rewrite (H x y); auto; [now left|now right].
Qed.
Lemma sum_nth_seq {X} (l : list X) (f : X -> C_star) d : sumL l f = sumL (seq 0 (length l)) (fun i => f (nth i l d)).
Proof. induction l as [|x l IH]; [reflexivity|]. cbn [length seq]. rewrite !sumL_cons. f_equal. rewrite <- seq_shift, sumL_map. exact IH. Qed.
Lemma linspace_NoDup a b n : a <> b -> 2 <= n -> NoDup (linspace a b n).
Proof.
  intros N H. unfold linspace. apply map_NoDup_in; [|apply seq_NoDup]. intros x y Hx Hy E. apply in_seq in Hx, Hy.
  assert (D : ((b - a) / INR (n - 1) <> 0)%R). { unfold Rdiv. apply Rmult_integral_contrapositive_currified; [lra|]. apply Rinv_neq_0_compat, not_0_INR. lia. }
  apply INR_eq. apply (Rmult_eq_reg_r ((b - a) / INR (n - 1))); [|exact D]. apply (Rplus_eq_reg_l a). exact E.
Qed.
Lemma conj_proper g g' : conjugate g g' -> proper g -> proper g'.
Proof.
  intros (_ & Hb & Hl & w & w' & Ew & Ew' & M) (P1 & P2 & _). unfold proper. rewrite Hb, Hl. split; [exact P1|]. split; [exact P2|]. exists w'. split; [exact Ew'|]. intros ->. rewrite Rmult_0_r in M. pose proof PI_RGT_0.
  assert (0 < 2 * PI * g_hbar g)%R by (apply Rmult_lt_0_compat; lra). assert (0 < INR (length (g_space g)))%R by (apply lt_0_INR; lia). assert (0 < 2 * PI * g_hbar g * INR (length (g_space g)))%R by (apply Rmult_lt_0_compat; lra). lra.
Qed.
Lemma fresh_ready h k a b n hb : paired h -> 2 <= n -> (0 < hb)%R -> a <> b ->
  exists h', conj_of (h ++ [new_grid k a b n hb]) (length h) = Ok (h', S (length h)) /\ ready h' (length h) (S (length h)) /\
    g_kind (gget h' (length h)) = k /\ g_space (gget h' (length h)) = linspace a b n /\ g_hbar (gget h' (length h)) = hb /\
    exists lo hi, lo <> hi /\ g_space (gget h' (S (length h))) = linspace lo hi n.
Proof.
  intros HP Hn Hb Hab. set (H := h ++ [new_grid k a b n hb]). destruct (proj2 C52_fresh h k a b n hb HP) as (HP' & Hp). specialize (Hp Hn Hb Hab). fold H in HP', Hp.
  assert (Li : length h < length H) by (unfold H; rewrite app_length; cbn [length]; lia).
  destruct (conj_ok H (length h) HP' Li Hp) as (h' & j & E & P' & Hj & Hl & C1 & C2 & CC & SP). destruct (SP (length h) Li) as (K1 & K2 & K3). unfold H in K1, K2, K3. rewrite gget_new in K1, K2, K3.
  assert (G0 : g_conj (gget H (length h)) = None) by (unfold H; now rewrite gget_new).
  pose proof (proper_points _ _ (SP (length h) Li) Hp) as Pi. pose proof E as E0. unfold conj_of in E0. rewrite G0 in E0. destruct Hp as (Pn & Pb & w & Ew & Hw). rewrite Ew in E0. cbn [bind] in E0. injection E0 as Eh Ej.
  assert (LH : length H = S (length h)) by (unfold H; rewrite app_length; cbn [length]; lia). rewrite LH in Ej, Eh. subst j. exists h'. split; [exact E|].
  assert (GS : exists lo hi, lo <> hi /\ g_space (gget h' (S (length h))) = linspace lo hi n).
  { assert (Gj : forall x, nth (S (length h)) (upd (length h) x H ++ []) no_grid = no_grid) by (intros x; rewrite app_nil_r; apply nth_overflow; rewrite length_upd; lia).
    rewrite <- Eh. unfold gget at 1. rewrite app_nth2 by (rewrite length_upd; lia). rewrite length_upd, LH, Nat.sub_diag. cbn [nth set_conj g_space]. unfold H in *. rewrite gget_new in *. cbn [new_grid g_kind g_space g_hbar] in *. rewrite length_linspace.
    pose proof PI_RGT_0. assert (X : (2 * PI * hb * INR n / w <> 0)%R).
    { assert (N0 : INR n <> 0%R) by (apply not_0_INR; lia). assert (A0 : (2 * PI * hb <> 0)%R) by (apply Rgt_not_eq, Rmult_lt_0_compat; lra). unfold Rdiv. apply Rmult_integral_contrapositive_currified; [now apply Rmult_integral_contrapositive_currified|now apply Rinv_neq_0_compat]. }
    destruct k; cbn [new_grid g_space].
    - eexists _, _. split; [|reflexivity]. intros Q. apply X. lra.
    - eexists _, _. split; [|reflexivity]. intros Q. apply X. lra. }
  split; [|repeat split; auto]. unfold ready. split; [exact P'|]. split; [lia|]. split; [exact Hj|]. split; [exact Pi|]. split; [apply (conj_proper _ _ CC Pi)|]. split; [exact C1|]. split; [exact C2|]. rewrite K2. cbn [new_grid g_space]. split; [apply linspace_NoDup; auto|]. destruct GS as (lo & hi & Nl & ->). apply linspace_NoDup; auto.
Qed.

(** ** Calls *)
Lemma mapM_all {A B} (f : A -> res B) (P : A -> B -> Prop) l : (forall x, In x l -> exists y, f x = Ok y /\ P x y) -> exists ys, mapM f l = Ok ys /\ Forall2 P l ys.
Proof.
  induction l as [|x l IH]; intros H; [exists []; split; [reflexivity|constructor]|]. destruct (H x (or_introl eq_refl)) as (y & E & Hy). destruct IH as (ys & Ey & F); [intros z I; apply H; now right|]. exists (y :: ys). cbn [mapM]. rewrite E. cbn [bind]. rewrite Ey. split; [reflexivity|]. now constructor.
Qed.
Section Call.
Context {V : Type} (one : bool) (s : nat) (expo : C_star -> (R -> V) -> wave -> wave) (M : C_star -> V -> nat -> nat -> C_star) (ok : V -> Prop).
Hypothesis HA : acts one s expo M ok.
Variables (simps : list C_star -> list R -> C_star) (h : gheap) (i j : nat) (v t : pot V).
Hypothesis HR : ready h i j.
Notation xs := (g_space (gget h i)). Notation ps := (g_space (gget h j)). Notation n := (length (g_space (gget h i))).
Hypothesis OV : forall time x, In x xs -> ok (with_time v time x).
Hypothesis OT : forall time x, In x ps -> ok (with_time t time x).
Notation evolved t0 dt k psi := (split_steps (ft_sign (g_kind (gget h i))) s n (fun m => half_v M h i v (t0 + INR m * dt) dt) (fun m => full_t M h i j t (t0 + INR m * dt) dt) k psi).
Lemma call_ok t0 dt K f c psi : sampled one s xs f psi ->
  exists ys f', prop_call expo simps i v t t0 dt false K (mkProp h f c) = Ok (ys, mkProp h f' c) /\ sampled one s xs f' (evolved t0 dt K psi) /\
    Forall2 (fun k y => fst y = (t0 + INR k * dt)%R /\ sampled one s xs (snd y) (evolved t0 dt k psi)) (seq 0 (S K)) ys.
Proof.
  intros H. unfold prop_call. cbn [p_heap p_wfn p_coeff]. pose proof HR as (_ & _ & _ & _ & _ & Cc & _). unfold conj_of. rewrite Cc. cbn [bind fst snd].
  destruct (mapM_all (fun k => bind (passes expo simps i j v t t0 dt false k (mkProp h f c)) (fun s' => Ok (match k with O => t0 | S k' => t0 + INR k' * dt + dt end, p_wfn s')%R))
    (fun k y => fst y = (t0 + INR k * dt)%R /\ sampled one s xs (snd y) (evolved t0 dt k psi)) (seq 0 (S K))) as (ys & Ey & Fy).
  { intros k _. destruct (passes_ok one s expo M ok HA simps h i j v t HR OV OT t0 dt k f c psi H) as (f' & E' & H'). rewrite E'. cbn [bind p_wfn]. eexists. split; [reflexivity|]. cbn [fst snd]. split; [|exact H'].
    destruct k as [|k]; [cbn [INR]; ring|]. rewrite S_INR. ring. }
  rewrite Ey. cbn [bind]. destruct (passes_ok one s expo M ok HA simps h i j v t HR OV OT t0 dt K f c psi H) as (f' & E' & H'). rewrite E'. cbn [bind]. exists ys, f'. auto.
Qed.

(** ** Renormalization *)
Hypothesis Hom : forall (r : R) ys, simps (map (rmul (RtoC r)) ys) xs = RtoC r * simps ys xs.
Lemma quad_of f psi : sampled one s xs f psi -> norm_of simps (gget h i) f = Ok (Csqrt (quad simps s xs psi)).
Proof.
  intros (w & E & F & G). unfold norm_of. rewrite E. cbn [bind]. do 2 f_equal. unfold quad. destruct w as [ys|yss]; cbn [fits] in F.
  - destruct F as (_ & -> & L). rewrite sumn_S, sumn_0. transitivity (simps (map (fun k => rconj (psi 0%nat k) * psi 0%nat k) (seq 0 n)) xs); [|ring]. f_equal. apply (nth_ext _ _ 0 0); rewrite ?map_length, ?seq_length; [exact L|]. intros k Hk.
    rewrite nth_map_seq by lia. rewrite <- (G 0%nat k) by lia. cbn [val]. rewrite (nth_indep _ 0 ((fun y => rconj y * y) 0)) by (rewrite map_length; exact Hk). rewrite (map_nth (fun y : C_star => rconj y * y)). reflexivity.
  - destruct F as (_ & L & F). rewrite <- L. unfold sumn. rewrite (sum_nth_seq yss _ []). apply sumL_ext_in. intros a Ia. apply in_seq in Ia. f_equal. assert (La : length (nth a yss []) = n) by (rewrite Forall_forall in F; apply F, nth_In; lia).
    apply (nth_ext _ _ 0 0); rewrite ?map_length, ?seq_length; [exact La|]. intros k Hk. rewrite nth_map_seq by lia. rewrite <- (G a k) by lia. cbn [val]. rewrite (nth_indep _ 0 ((fun y => rconj y * y) 0)) by (rewrite map_length; exact Hk). rewrite (map_nth (fun y : C_star => rconj y * y)). reflexivity.
Qed.
Lemma quad_scale r psi : quad simps s xs (fun a k => RtoC r * psi a k) = RtoC (r * r) * quad simps s xs psi.
Proof.
  unfold quad. rewrite <- sumn_scal_l. apply sumn_ext. intros a _. rewrite <- Hom, map_map. f_equal. apply map_ext. intros k. rewrite rconj_mul, RtoC_conj, RtoC_mul. ring.
Qed.
Lemma quad_ext psi phi : (forall a k, a < s -> k < n -> psi a k = phi a k) -> quad simps s xs psi = quad simps s xs phi.
Proof. intros H. unfold quad. apply sumn_ext. intros a Ha. f_equal. apply map_ext_in. intros k Ik. apply in_seq in Ik. rewrite H by lia. reflexivity. Qed.
Lemma scale_sampled c f psi : sampled one s xs f psi -> sampled one s xs (scale_wave c f) (fun a k => c * psi a k).
Proof.
  intros (w & E & F & G). unfold sampled, scale_wave. rewrite E. cbn [bind]. eexists. split; [reflexivity|]. destruct w as [ys|yss]; cbn [fits] in *; destruct F as (E1 & E2 & F).
  - split; [repeat split; auto; now rewrite map_length|]. intros a k Ha Hk. rewrite <- G by auto. cbn [val]. apply nth_map0.
  - split; [repeat split; auto; [now rewrite map_length|]; apply Forall_forall; intros u I; apply in_map_iff in I; destruct I as (z & <- & I); rewrite map_length; rewrite Forall_forall in F; auto|].
    intros a k Ha Hk. rewrite <- G by auto. cbn [val]. change (@nil C_star) with (map (rmul c) (@nil C_star)) at 1. rewrite map_nth. apply nth_map0.
Qed.
Lemma step_true time dt st : prop_step expo simps i j v t time dt true st = bind (prop_step expo simps i j v t time dt false st) (normalize simps i).
Proof. unfold prop_step. cbv zeta. destruct (ft_fun _ _ _) as [a|e]; [|reflexivity]. cbn [bind]. destruct (ft_fun _ _ _) as [b|e]; reflexivity. Qed.
Lemma renorm_ok t0 dt f c psi (q : nat -> R) K : sampled one s xs f psi -> (forall k, 1 <= k -> k <= K -> (0 < q k)%R /\ quad simps s xs (evolved t0 dt k psi) = RtoC (q k)) ->
  forall k, k <= K -> let d := match k with O => 1%R | S _ => sqrt (q k) end in
  exists f', passes expo simps i j v t t0 dt true k (mkProp h f c) = Ok (mkProp h f' (c * RtoC d)) /\ sampled one s xs f' (fun a m => RtoC (/ d) * evolved t0 dt k psi a m).
Proof.
  intros H Hq. induction k as [|k IH]; intros Hk d.
  - exists f. cbn [passes]. split; [f_equal; f_equal; unfold d; change (RtoC 1) with (1 : C_star); ring|]. eapply sampled_ext; [|exact H]. intros a m _ _. unfold d. rewrite Rinv_1. change (RtoC 1) with (1 : C_star). cbn [split_steps]. ring.
  - destruct (IH ltac:(lia)) as (f1 & E1 & H1). cbv zeta in E1, H1. set (d1 := match k with O => 1%R | S _ => sqrt (q k) end) in *. cbn [passes]. rewrite E1. cbn [bind]. rewrite step_true.
    assert (D1 : (0 < d1)%R) by (unfold d1; destruct k; [lra|]; apply sqrt_lt_R0, Hq; lia).
    destruct (pass_ok one s expo M ok HA simps h i j v t HR OV OT (t0 + INR k * dt)%R dt f1 (c * RtoC d1) _ H1) as (f2 & E2 & H2). rewrite E2. cbn [bind].
    set (ev := evolved t0 dt (S k) psi) in *. assert (H3 : sampled one s xs f2 (fun a m => RtoC (/ d1) * ev a m)).
    { eapply sampled_ext; [|exact H2]. intros a m Ha Hm. unfold ev. cbn [split_steps]. apply step_scale; auto. }
    unfold normalize. cbn [p_heap p_wfn p_coeff]. rewrite (quad_of _ _ H3), quad_scale. cbn [bind]. destruct (Hq (S k) ltac:(lia) Hk) as (Q0 & Q1). fold ev in Q1. rewrite Q1. rewrite <- RtoC_mul.
    assert (P : (0 < / d1 * / d1)%R) by (apply Rmult_lt_0_compat; apply Rinv_0_lt_compat; exact D1). rewrite Csqrt_pos by (apply Rlt_le, Rmult_lt_0_compat; auto). rewrite sqrt_mult by lra. rewrite sqrt_square by (apply Rlt_le, Rinv_0_lt_compat; exact D1).
    pose proof (sqrt_lt_R0 _ Q0) as S0. rewrite Cinv_R by (apply Rgt_not_eq, Rmult_lt_0_compat; [apply Rinv_0_lt_compat|]; auto). eexists. split.
    + do 2 f_equal. unfold d. transitivity (c * (RtoC d1 * RtoC (/ d1 * sqrt (q (S k))))); [ring|]. rewrite <- RtoC_mul. do 2 f_equal. field. lra.
    + eapply sampled_ext; [|apply scale_sampled; exact H3]. intros a m Ha Hm. cbv beta. transitivity (RtoC (/ (/ d1 * sqrt (q (S k)))) * RtoC (/ d1) * ev a m); [ring|]. rewrite <- RtoC_mul. f_equal. f_equal. unfold d. field. split; lra.
Qed.
End Call.

(** ** Out of the range *)
Definition outside (xs : list R) (x : R) : Prop := (forall p, In p xs -> (x < p)%R) \/ (forall p, In p xs -> (p < x)%R).
Lemma interp_out xs ys x : xs <> [] -> length ys = length xs -> outside xs x -> interp_row xs ys [x] = Raise ValueError.
Proof.
  intros N L O. unfold interp_row. cbn [mapM]. set (l := sort (combine xs ys)).
  assert (Il : forall p, In p l -> In (fst p) xs).
  { intros p I. apply (Permutation_in _ (sort_perm _)) in I. apply (in_map fst) in I. rewrite fst_combine in I by auto. exact I. }
  assert (Nl : l <> []). { intros E. apply N. assert (Z : length l = 0%nat) by (rewrite E; reflexivity). unfold l in Z. rewrite (Permutation_length (sort_perm _)), combine_length, L in Z. destruct xs; [reflexivity|]. cbn [length] in Z. lia. }
  assert (E : interp_at l x = Raise ValueError).
  { unfold interp_at. destruct l as [|d l'] eqn:El; [congruence|]. rewrite <- El in *. destruct (Rlt_dec x (fst d)) as [_|X]; [reflexivity|]. destruct (Rlt_dec (fst (last l d)) x) as [_|Y]; [reflexivity|]. exfalso. destruct O as [O|O].
    - apply X, O, Il. rewrite El. now left.
    - apply Y, O, Il. rewrite El. destruct (@exists_last _ (d :: l') ltac:(discriminate)) as (u & z & Ez). rewrite Ez, last_last. apply in_or_app. right. now left. }
  rewrite E. reflexivity.
Qed.
Lemma ft_fun_out h i j f h' g u x : ready h i j -> f (g_space (gget h i)) = Ok (One u) -> ft_fun h i f = Ok (h', g) -> h' = h /\ (outside (g_space (gget h j)) x -> g [x] = Raise ValueError).
Proof.
  intros HR Ef E. pose proof HR as (_ & _ & _ & _ & Pj & Cc & _). destruct (ready_conj h i j HR) as (_ & _ & _ & w & w' & _ & Ew & _).
  unfold ft_fun in E. rewrite Ef in E. cbn [bind] in E. unfold ft, conj_of in E. rewrite Cc in E. cbn [bind fst snd] in E. rewrite Ew in E. cbn [bind] in E. destruct (ft_vec _ _ _) as [u'|e]; [|discriminate E]. cbn [bind fst snd] in E. rewrite Cc in E. cbn [bind fst snd interp1d] in E.
  destruct (length u' =? length (g_space (gget h j)))%nat eqn:El; [|discriminate E]. cbn [bind] in E. injection E as <- <-. split; [reflexivity|]. intros O. apply Nat.eqb_eq in El. destruct Pj as (P2 & _). rewrite interp_out; auto. intros Z. rewrite Z in P2. cbn [length] in P2. lia.
Qed.
Lemma exp_one_one c v f xs w : exp_one c v f xs = Ok w -> exists u, w = One u.
Proof. unfold exp_one. destruct (f xs) as [[ys|yss]|e]; cbn [bind]; try discriminate. destruct (_ =? _)%nat; [|discriminate]. intros E. injection E as <-. eauto. Qed.
Lemma ft_fun_arg h i f r : ft_fun h i f = Ok r -> exists w, f (g_space (gget h i)) = Ok w.
Proof. unfold ft_fun. destruct (f _) as [w|e]; [eauto|discriminate]. Qed.
Lemma range_one simps h i j v t time dt rn f c st x : ready h i j -> prop_step exp_one simps i j v t time dt rn (mkProp h f c) = Ok st -> outside (g_space (gget h i)) x -> p_wfn st [x] = Raise ValueError.
Proof.
  intros HR E O. assert (B : forall st, prop_step exp_one simps i j v t time dt false (mkProp h f c) = Ok st -> p_wfn st [x] = Raise ValueError).
  { clear st E. intros st E. unfold prop_step in E. cbn [p_heap p_wfn p_coeff] in E. destruct (ft_fun h i _) as [a|e] eqn:E1; [|discriminate E]. cbn [bind] in E.
    destruct (ft_fun_arg _ _ _ _ E1) as (w1 & W1). destruct (exp_one_one _ _ _ _ _ W1) as (u1 & ->). destruct a as (h1 & g1). destruct (ft_fun_out h i j _ h1 g1 u1 x HR W1 E1) as (-> & _). cbn [fst snd] in E.
    destruct (ft_fun h j _) as [b|e] eqn:E2; [|discriminate E]. cbn [bind] in E. destruct (ft_fun_arg _ _ _ _ E2) as (w2 & W2). destruct (exp_one_one _ _ _ _ _ W2) as (u2 & ->). destruct b as (h2 & g2). destruct (ft_fun_out h j i _ h2 g2 u2 x (ready_sym h i j HR) W2 E2) as (-> & R2). cbn [fst snd] in E. injection E as <-. cbn [p_wfn]. unfold exp_one. rewrite (R2 O). reflexivity. }
  destruct rn; [|apply B; exact E]. rewrite step_true in E. destruct (prop_step _ _ _ _ _ _ _ _ false _) as [st1|e]; [|discriminate E]. cbn [bind] in E. specialize (B st1 eq_refl). unfold normalize in E. destruct (norm_of _ _ _) as [nm|e]; [|discriminate E]. cbn [bind] in E. injection E as <-. cbn [p_wfn]. unfold scale_wave. rewrite B. reflexivity.
Qed.

(** ** Exponentials of matrices *)
Lemma exp_of_gen s c (B : nat -> nat -> C_star) L U : eigensystem s B L U -> exp_of s c B (fun a b => sumn s (fun e => U a e * Cexp (c * RtoC (nth e L 0%R)) * rconj (U b e))).
Proof.
  intros (H0 & H1 & H2) l u Hu a Ha. set (y := fun e => sumn s (fun j => rconj (U j e) * u j)).
  assert (EA : forall i j, i < s -> j < s -> B i j = sumn s (fun k => RtoC (nth k L 0%R) * U i k * rconj (U j k))).
  { intros i j Hi Hj. transitivity (sumn s (fun m => B i m * delta m j)); [rewrite (sum_delta s (fun m => B i m)) by auto; reflexivity|]. transitivity (sumn s (fun m => sumn s (fun k => B i m * U m k * rconj (U j k)))).
    - apply sumn_ext. intros m Hm. rewrite <- (H2 m j Hm Hj), <- sumn_scal_l. apply sumn_ext. intros. ring.
    - rewrite sumn_swap. apply sumn_ext. intros k Hk. rewrite sumn_scal_r. rewrite (H0 i k Hi Hk). reflexivity. }
  assert (Y : forall e, e < s -> RtoC (nth e L 0%R) * y e = l * y e).
  { intros e He. transitivity (sumn s (fun i => rconj (U i e) * sumn s (fun j => B i j * u j))).
    - transitivity (sumn s (fun j => sumn s (fun i => rconj (U i e) * B i j) * u j)).
      + unfold y. rewrite <- sumn_scal_l. apply sumn_ext. intros j Hj. transitivity (RtoC (nth e L 0%R) * rconj (U j e) * u j); [ring|]. f_equal.
        transitivity (sumn s (fun i => sumn s (fun k => RtoC (nth k L 0%R) * rconj (U j k) * (rconj (U i e) * U i k)))).
        * rewrite sumn_swap. transitivity (sumn s (fun k => RtoC (nth k L 0%R) * rconj (U j k) * delta k e)); [rewrite (sum_delta s (fun k => RtoC (nth k L 0%R) * rconj (U j k))) by auto; reflexivity|].
          apply sumn_ext. intros k Hk. rewrite sumn_scal_l. rewrite (H1 e k He Hk). unfold delta. rewrite Nat.eqb_sym. reflexivity.
        * apply sumn_ext. intros i Hi. rewrite EA by auto. rewrite <- sumn_scal_l. apply sumn_ext. intros. ring.
      + transitivity (sumn s (fun j => sumn s (fun i => rconj (U i e) * B i j * u j))); [apply sumn_ext; intros; rewrite sumn_scal_r; reflexivity|]. rewrite sumn_swap. apply sumn_ext. intros i _. rewrite <- sumn_scal_l. apply sumn_ext. intros. ring.
    - unfold y. rewrite <- sumn_scal_l. apply sumn_ext. intros i Hi. rewrite Hu by auto. ring. }
  transitivity (sumn s (fun e => U a e * (Cexp (c * RtoC (nth e L 0%R)) * y e))).
  - transitivity (sumn s (fun j => sumn s (fun e => U a e * Cexp (c * RtoC (nth e L 0%R)) * rconj (U j e) * u j))); [apply sumn_ext; intros; rewrite sumn_scal_r; reflexivity|]. rewrite sumn_swap. apply sumn_ext. intros e _. unfold y. transitivity (U a e * Cexp (c * RtoC (nth e L 0%R)) * sumn s (fun j => rconj (U j e) * u j)); [|ring]. rewrite <- sumn_scal_l. apply sumn_ext. intros. ring.
  - transitivity (Cexp (c * l) * sumn s (fun e => U a e * y e)).
    + rewrite <- sumn_scal_l. apply sumn_ext. intros e He. destruct (Req_dec (Cnorm2 (y e)) 0) as [Z|Z].
      * assert (Z' : y e = 0). { unfold Cnorm2 in Z. apply Ceq; cbn; nra. } rewrite Z'. ring.
      * assert (Z' : y e <> 0) by (intros Q; apply Z; rewrite Q; unfold Cnorm2; cbn; ring). replace (RtoC (nth e L 0%R)) with l; [ring|]. pose proof (Y e He) as Ye. transitivity (l * (y e * Cinv (y e))); [rewrite Cinv_r by auto; ring|]. transitivity (RtoC (nth e L 0%R) * (y e * Cinv (y e))); [|rewrite Cinv_r by auto; ring]. transitivity (l * y e * Cinv (y e)); [ring|]. rewrite <- Ye. ring.
    + f_equal. unfold y. transitivity (sumn s (fun j => sumn s (fun e => U a e * rconj (U j e)) * u j)).
      * transitivity (sumn s (fun e => sumn s (fun j => U a e * rconj (U j e) * u j))); [apply sumn_ext; intros; rewrite <- sumn_scal_l; apply sumn_ext; intros; ring|]. rewrite sumn_swap. apply sumn_ext. intros. rewrite sumn_scal_r. reflexivity.
      * transitivity (sumn s (fun j => u j * delta j a)); [|rewrite (sum_delta s u) by auto; reflexivity]. apply sumn_ext. intros j Hj. rewrite (H2 a j Ha Hj). unfold delta. rewrite Nat.eqb_sym. ring.
Qed.

Lemma many_exp_of eigh s c A : eigensystem s (fun i j => get A [i; j]) (fst (eigh A)) (fun i k => get (snd (eigh A)) [i; k]) -> exp_of s c (fun i j => get A [i; j]) (many_exp eigh s c A).
Proof. apply exp_of_gen. Qed.

(** ** A drift *)
Lemma off_prev n l k : 0 < n -> k < n -> turn n (- (off n l * (off n ((k + (n - 1)) mod n) + 1))) = turn n (- (off n l * off n k)).
Proof.
  intros Hn Hk. destruct k as [|k].
  - cbn [Nat.add]. rewrite Nat.mod_small by lia. apply (turn_cong n _ _ (- off n l)); [exact Hn|]. unfold off. rewrite Nat2Z.inj_sub by lia. ring_simplify. lia.
  - replace (S k + (n - 1))%nat with (k + 1 * n)%nat by lia. rewrite Nat.mod_add, Nat.mod_small by lia. do 2 f_equal. unfold off. lia.
Qed.
Lemma drift_centred n (psi : nat -> C_star) l : 0 < n -> centred (-1) n (fun k => psi ((k + (n - 1)) mod n)%nat) l = turn n (- off n l) * centred (-1) n psi l.
Proof.
  intros Hn. unfold centred. rewrite <- sumn_scal_l. rewrite <- (sum_roll n (n - 1) (fun m => turn n (- off n l) * (psi m * turn n (-1 * (off n l * off n m))))) by lia.
  apply sumn_ext. intros k Hk. transitivity (psi ((k + (n - 1)) mod n)%nat * (turn n (- off n l) * turn n (-1 * (off n l * off n ((k + (n - 1)) mod n))))); [|ring]. rewrite <- turn_add. f_equal.
  transitivity (turn n (- (off n l * off n k))); [f_equal; ring|]. rewrite <- off_prev by auto. f_equal. ring.
Qed.
Lemma drift_step n P Q psi : 0 < n -> (forall k a b, P k a b = 1) -> (forall l a b, l < n -> Q l a b = turn n (- off n l)) ->
  forall a k, a < 1 -> k < n -> split_step (-1) 1 n P Q psi a k = psi 0%nat ((k + (n - 1)) mod n)%nat.
Proof.
  intros Hn HP HQ a k Ha Hk. assert (E1 : forall (M : nat -> nat -> nat -> C_star) phi a k, at_points 1 M phi a k = M k a 0%nat * phi 0%nat k) by (intros; unfold at_points; rewrite sumn_S, sumn_0; ring).
  unfold split_step. rewrite E1, HP. change (- (-1))%Z with 1%Z.
  rewrite (centred_ext 1 n _ (fun l => centred (-1) n (fun k => psi 0%nat ((k + (n - 1)) mod n)%nat) l)).
  - transitivity (RtoC (/ INR n) * centred (- ft_sign Coordinate) n (fun l => centred (ft_sign Coordinate) n (fun k => psi 0%nat ((k + (n - 1)) mod n)%nat) l) k); [cbn [ft_sign Z.opp]; ring|]. apply (centred_forth Coordinate n Hn (fun k => psi 0%nat ((k + (n - 1)) mod n)%nat)). exact Hk.
  - intros l Hl. rewrite E1, HQ by auto. rewrite (drift_centred n (psi 0%nat) l Hn). f_equal. apply centred_ext. intros m Hm. rewrite E1, HP. ring.
Qed.
Lemma momentum_points n w l : 2 <= n -> let half := (if Nat.odd n then 0.5 else 0.5 * (1 - 1 / INR (n - 1)))%R in ((half - 1) * w + INR l * ((half * w - (half - 1) * w) / INR (n - 1)) = IZR (off n l) * (w / INR (n - 1)))%R.
Proof.
  intros Hn half. assert (N0 : INR (n - 1) <> 0%R) by (apply not_0_INR; lia). unfold off. rewrite minus_IZR, <- !INR_IZR_INZ.
  assert (E : (half - 1 = - (INR (n / 2) / INR (n - 1)))%R).
  { unfold half. replace 0.5%R with (/ 2)%R by lra. destruct (Nat.odd n) eqn:O.
    - apply Nat.odd_spec in O. destruct O as (m & ->). replace (2 * m + 1 - 1)%nat with (2 * m)%nat by lia. replace ((2 * m + 1) / 2)%nat with m by (rewrite Nat.mul_comm, Nat.div_add_l by lia; cbn; lia). rewrite mult_INR. assert (M0 : INR m <> 0%R) by (apply not_0_INR; lia). change (INR 2) with 2%R. field. exact M0.
    - assert (Ev : Nat.even n = true) by (rewrite <- Nat.negb_odd, O; reflexivity). apply Nat.even_spec in Ev. destruct Ev as (m & ->). replace (2 * m / 2)%nat with m by (rewrite Nat.mul_comm, Nat.div_mul; lia). assert (I2 : INR (2 * m - 1) = (2 * INR m - 1)%R) by (rewrite minus_INR by lia; rewrite mult_INR; cbn; ring). rewrite I2 in *. field. exact N0. }
  replace (half * w - (half - 1) * w)%R with w by ring. rewrite E. field. exact N0.
Qed.
