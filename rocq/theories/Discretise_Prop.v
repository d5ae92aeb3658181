(** C92: discretising a spectral density into bins of equal width. *)
From Coq Require Import String List Arith ZArith Bool Lia Reals Lra.
From Verif Require Import Py Alg Cplx NdArray_Model Phonon_Model Spin_Model Discretise_Model Discretise_Spec Discretise_Proof.
Import ListNotations.
Local Open Scope R_scope.

(** How the routine answers: nothing for a count of 0 or -1, ValueError below; else one pair per
    bin, or ZeroDivisionError if the integral over some bin is zero.  A bin with a negative
    integral gets a coupling that is nan. *)
Theorem C92_answers q J start stop num : start <= stop -> exact_on q J start stop -> exact_on q (moment J) start stop ->
  let n := Z.to_nat num in
  ((num < -1)%Z -> linear_discretization q J stop num start = Raise ValueError) /\
  ((num = -1 \/ num = 0)%Z -> linear_discretization q J stop num start = Ok []) /\
  ((0 < num)%Z ->
     ((exists i, (i < n)%nat /\ integral J (cut start stop n i) (cut start stop n (S i)) 0) -> linear_discretization q J stop num start = Raise ZeroDivisionError) /\
     (~ (exists i, (i < n)%nat /\ integral J (cut start stop n i) (cut start stop n (S i)) 0) -> exists l, linear_discretization q J stop num start = Ok l /\ length l = n /\
        forall i, (i < n)%nat -> exists w g d m, nth_error l i = Some (w, g) /\
          integral J (cut start stop n i) (cut start stop n (S i)) d /\ integral (moment J) (cut start stop n i) (cut start stop n (S i)) m /\ w * d = m /\
          match g with Some c => 0 < d /\ 0 < c /\ c ^ 2 = d | None => d < 0 end)).
Proof.
  intros L E1 E2 n. split; [|split].
  - intros H. unfold linear_discretization, linspace_z. destruct (Z.ltb_spec (num + 1) 0); [reflexivity|lia].
  - intros [->| ->]; reflexivity.
  - intros H. assert (En : num = Z.of_nat n) by (unfold n; lia). rewrite En, disc_eq.
    assert (EX : forall f, exact_on q f start stop -> forall i, (i < n)%nat -> integral f (cut start stop n i) (cut start stop n (S i)) (q f (cut start stop n i) (cut start stop n (S i)))).
    { intros f Ef i Hi. apply Ef; [apply (cut_bounds start stop n i); [lra|lia]|apply cut_le; lra|apply (cut_bounds start stop n (S i)); [lra|lia]]. }
    pose proof (map2_spec (direct_quad q J) (cut start stop n) (fun i => cut start stop n (S i)) n 0) as S. destruct (map2 _ _ _) as [l|e].
    + destruct S as (Ll & S). split.
      * intros (i & Hi & Z). exfalso. destruct (S i Hi) as ([w g] & _ & E). rewrite Nat.add_0_l in E. unfold direct_quad in E. destruct (Req_EM_T _ _) as [Q|Q]; cbn [bind] in E; [discriminate|]. apply Q. apply (integral_unique J (cut start stop n i) (cut start stop n (Datatypes.S i))); [apply EX; auto|exact Z].
      * intros _. exists l. split; [reflexivity|]. split; [exact Ll|]. intros i Hi. destruct (S i Hi) as ([w g] & En' & E). rewrite Nat.add_0_l in E. unfold direct_quad in E. destruct (Req_EM_T _ _) as [Q|Q]; cbn [bind] in E; [discriminate|]. injection E as Ew Eg.
        exists w, g, (q J (cut start stop n i) (cut start stop n (Datatypes.S i))), (q (moment J) (cut start stop n i) (cut start stop n (Datatypes.S i))).
        split; [exact En'|]. split; [apply EX; auto|]. split; [apply EX; auto|]. split; [rewrite <- Ew; unfold moment; field; exact Q|].
        rewrite <- Eg. unfold np_sqrt. destruct (Rlt_dec _ _); [assumption|]. assert (D : 0 < q J (cut start stop n i) (cut start stop n (Datatypes.S i))) by lra. split; [exact D|]. split; [now apply sqrt_lt_R0|]. apply pow2_sqrt. lra.
    + destruct S as (i & Hi & E). rewrite Nat.add_0_l in E. unfold direct_quad in E. destruct (Req_EM_T _ _) as [Q|Q]; cbn [bind] in E; [|discriminate]. injection E as <-. split; [reflexivity|].
      intros N. exfalso. apply N. exists i. split; [exact Hi|]. rewrite <- Q. apply EX; auto.
Qed.
Print Assumptions C92_answers.

(** Of a density that is not negative, the modes carry the whole weight and the whole first
    moment, and each frequency lies in its bin. *)
Theorem C92_moments q J start stop n l : start <= stop -> (0 < n)%nat -> exact_on q J start stop -> exact_on q (moment J) start stop ->
  (forall x, start <= x <= stop -> 0 <= J x) -> linear_discretization q J stop (Z.of_nat n) start = Ok l ->
  exists ws gs, l = combine ws (map Some gs) /\ length ws = n /\ length gs = n /\
    Forall (fun g => 0 < g) gs /\ (forall i, (i < n)%nat -> cut start stop n i <= nth i ws 0 <= cut start stop n (S i)) /\
    (forall i, (i < n)%nat -> integral J (cut start stop n i) (cut start stop n (S i)) (nth i gs 0 ^ 2)) /\
    integral J start stop (total (map (fun g => g ^ 2) gs)) /\
    integral (moment J) start stop (total (map (fun p => fst p * snd p ^ 2) (combine ws gs))).
Proof.
  intros L Hn E1 E2 N E. destruct (C92_answers q J start stop (Z.of_nat n) L E1 E2) as (_ & _ & A). rewrite Nat2Z.id in A. destruct (A ltac:(lia)) as (A0 & A1).
  assert (Z : ~ exists i, (i < n)%nat /\ integral J (cut start stop n i) (cut start stop n (S i)) 0) by (intros H; rewrite (A0 H) in E; discriminate).
  destruct (A1 Z) as (l' & E' & Ll & H). rewrite E in E'. injection E' as <-. clear A A0 A1.
  assert (B : forall i x, (i < n)%nat -> cut start stop n i < x < cut start stop n (S i) -> 0 <= J x).
  { intros i x Hi Hx. apply N. pose proof (cut_bounds start stop n i L ltac:(lia)). pose proof (cut_bounds start stop n (S i) L ltac:(lia)). lra. }
  set (ws := map fst l). set (gs := map (fun p => match snd p with Some g => g | None => 0 end) l).
  assert (G : forall i, (i < n)%nat -> nth_error l i = Some (nth i ws 0, Some (nth i gs 0)) /\ 0 < nth i gs 0 /\ integral J (cut start stop n i) (cut start stop n (S i)) (nth i gs 0 ^ 2) /\ integral (moment J) (cut start stop n i) (cut start stop n (S i)) (nth i ws 0 * nth i gs 0 ^ 2)).
  { intros i Hi. destruct (H i Hi) as (w & g & d & m & Ei & I1 & I2 & Hm & Hg). destruct g as [g|].
    - assert (W : nth i ws 0 = w) by (unfold ws; apply nth_error_nth; rewrite nth_error_map, Ei; reflexivity).
      assert (Gg : nth i gs 0 = g) by (unfold gs; apply nth_error_nth; rewrite nth_error_map, Ei; reflexivity).
      rewrite W, Gg. destruct Hg as (D & G0 & ->). rewrite Hm. auto.
    - exfalso. assert (0 * (cut start stop n (S i) - cut start stop n i) <= d) by (apply (integral_le (fun _ => 0) J (cut start stop n i) (cut start stop n (S i))); [apply cut_le; lra|intros x Hx; apply (B i); auto|apply integral_const|exact I1]). lra. }
  assert (Lw : length ws = n) by (unfold ws; now rewrite map_length). assert (Lg : length gs = n) by (unfold gs; now rewrite map_length).
  exists ws, gs. split; [|split; [exact Lw|split; [exact Lg|split; [|split; [|split; [|split]]]]]].
  - apply (nth_ext _ _ (0, None) (0, None)); [rewrite combine_length, map_length; lia|]. intros i Hi. rewrite combine_nth by (rewrite map_length; lia). destruct (G i ltac:(lia)) as (Ei & _). rewrite (nth_error_nth _ _ _ Ei). f_equal.
    rewrite (nth_indep _ None (Some 0)) by (rewrite map_length; lia). now rewrite map_nth.
  - apply Forall_forall. intros g Hg. apply (In_nth _ _ 0) in Hg as (i & Hi & <-). apply G. lia.
  - intros i Hi. destruct (G i Hi) as (_ & G0 & I1 & I2). assert (D : 0 < nth i gs 0 ^ 2) by (apply pow_lt; exact G0).
    pose proof (mean_bounds J _ _ _ _ (cut_le start stop n i L) (fun x => B i x Hi) D I1 I2) as M. replace (nth i ws 0 * nth i gs 0 ^ 2 / nth i gs 0 ^ 2) with (nth i ws 0) in M by (field; lra). exact M.
  - intros i Hi. apply G, Hi.
  - pose proof (integral_cuts J start stop n (fun i => nth i gs 0 ^ 2) n (fun i Hi => proj1 (proj2 (proj2 (G i Hi))))) as C. rewrite cut_n in C by exact Hn.
    replace (map (fun g => g ^ 2) gs) with (map (fun i => nth i gs 0 ^ 2) (seq 0 n)); [exact C|]. apply (nth_ext _ _ (nth n gs 0 ^ 2) (0 ^ 2)); [now rewrite !map_length, seq_length|]. intros i Hi. rewrite map_length, seq_length in Hi. rewrite (map_nth (fun i => nth i gs 0 ^ 2)), seq_nth by exact Hi. rewrite (map_nth (fun g => g ^ 2)). reflexivity.
  - pose proof (integral_cuts (moment J) start stop n (fun i => nth i ws 0 * nth i gs 0 ^ 2) n (fun i Hi => proj2 (proj2 (proj2 (G i Hi))))) as C. rewrite cut_n in C by exact Hn.
    replace (map (fun p => fst p * snd p ^ 2) (combine ws gs)) with (map (fun i => nth i ws 0 * nth i gs 0 ^ 2) (seq 0 n)); [exact C|].
    set (f := fun p : R * R => fst p * snd p ^ 2). set (h := fun i => nth i ws 0 * nth i gs 0 ^ 2). apply (nth_ext _ _ (h n) (f (0, 0))); [rewrite !map_length, seq_length, combine_length; lia|]. intros i Hi. rewrite map_length, seq_length in Hi. rewrite (map_nth h), seq_nth by exact Hi. rewrite (map_nth f), combine_nth by lia. reflexivity.
Qed.
Print Assumptions C92_moments.

(** For a continuous density that is not negative: the routine raises exactly if the density
    vanishes on the whole of some bin. *)
Theorem C92_empty_bin q J start stop n : start < stop -> (0 < n)%nat -> exact_on q J start stop -> exact_on q (moment J) start stop ->
  (forall x, start <= x <= stop -> continuity_pt J x /\ 0 <= J x) ->
  (linear_discretization q J stop (Z.of_nat n) start = Raise ZeroDivisionError <->
   exists i, (i < n)%nat /\ forall x, cut start stop n i < x < cut start stop n (S i) -> J x = 0).
Proof.
  intros L Hn E1 E2 N. destruct (C92_answers q J start stop (Z.of_nat n) ltac:(lra) E1 E2) as (_ & _ & A). rewrite Nat2Z.id in A. destruct (A ltac:(lia)) as (A0 & A1).
  assert (IN : forall i x, (i < n)%nat -> cut start stop n i < x < cut start stop n (S i) -> start <= x <= stop).
  { intros i x Hi Hx. pose proof (cut_bounds start stop n i ltac:(lra) ltac:(lia)). pose proof (cut_bounds start stop n (S i) ltac:(lra) ltac:(lia)). lra. }
  assert (EX : forall i, (i < n)%nat -> integral J (cut start stop n i) (cut start stop n (S i)) (q J (cut start stop n i) (cut start stop n (S i)))).
  { intros i Hi. apply E1; [apply (cut_bounds start stop n i); [lra|lia]|apply cut_le; lra|apply (cut_bounds start stop n (S i)); [lra|lia]]. }
  split.
  - intros E. pose proof (map2_spec (direct_quad q J) (cut start stop n) (fun i => cut start stop n (S i)) n 0) as S. rewrite disc_eq in E. rewrite E in S. destruct S as (i & Hi & S). rewrite Nat.add_0_l in S. unfold direct_quad in S. destruct (Req_EM_T _ _) as [Q|Q]; cbn [bind] in S; [|discriminate].
    exists i. split; [exact Hi|]. intros x Hx. destruct (N x (IN i x Hi Hx)) as (C & P). destruct P as [P|P]; [|auto]. exfalso.
    assert (0 < q J (cut start stop n i) (cut start stop n (Datatypes.S i))); [|lra]. apply (integral_pos J (cut start stop n i) (cut start stop n (Datatypes.S i)) x); auto. intros y Hy. apply N. apply (IN i); auto.
  - intros (i & Hi & Z). apply A0. exists i. split; [exact Hi|]. pose proof (integral_const 0 (cut start stop n i) (cut start stop n (S i))) as C. rewrite Rmult_0_l in C.
    apply (integral_ext (fun _ => 0)); [apply cut_le; lra|intros x Hx; symmetry; auto|exact C|]. eexists. apply EX. exact Hi.
Qed.
Print Assumptions C92_empty_bin.

(** A continuous density that is positive inside gives all modes, with frequencies strictly
    inside their bins and so in increasing order. *)
Theorem C92_positive q J start stop n : start < stop -> (0 < n)%nat -> exact_on q J start stop -> exact_on q (moment J) start stop ->
  (forall x, start < x < stop -> continuity_pt J x /\ 0 < J x) ->
  exists l, linear_discretization q J stop (Z.of_nat n) start = Ok l /\ length l = n /\
    (forall i, (i < n)%nat -> exists w g, nth_error l i = Some (w, Some g) /\ 0 < g /\ cut start stop n i < w < cut start stop n (S i)) /\
    (forall i j w g w' g', (i < j)%nat -> nth_error l i = Some (w, g) -> nth_error l j = Some (w', g') -> w < w').
Proof.
  intros L Hn E1 E2 N. destruct (C92_answers q J start stop (Z.of_nat n) ltac:(lra) E1 E2) as (_ & _ & A). rewrite Nat2Z.id in A. destruct (A ltac:(lia)) as (A0 & A1).
  assert (IN : forall i x, (i < n)%nat -> cut start stop n i < x < cut start stop n (S i) -> start < x < stop).
  { intros i x Hi Hx. pose proof (cut_bounds start stop n i ltac:(lra) ltac:(lia)). pose proof (cut_bounds start stop n (S i) ltac:(lra) ltac:(lia)). lra. }
  assert (EX : forall f, exact_on q f start stop -> forall i, (i < n)%nat -> integral f (cut start stop n i) (cut start stop n (S i)) (q f (cut start stop n i) (cut start stop n (S i)))).
  { intros f Ef i Hi. apply Ef; [apply (cut_bounds start stop n i); [lra|lia]|apply cut_le; lra|apply (cut_bounds start stop n (S i)); [lra|lia]]. }
  assert (M : forall i d m, (i < n)%nat -> integral J (cut start stop n i) (cut start stop n (S i)) d -> integral (moment J) (cut start stop n i) (cut start stop n (S i)) m -> 0 < d /\ cut start stop n i < m / d < cut start stop n (S i)).
  { intros i d m Hi I1 I2. apply (mean_inside J); auto; [apply cut_lt; auto|intros x Hx; apply N, (IN i); auto|intros x Hx; apply N, (IN i); auto]. }
  destruct A1 as (l & E & Ll & H).
  { intros (i & Hi & Z). destruct (M i 0 _ Hi Z (EX _ E2 i Hi)) as (D & _). lra. }
  exists l. split; [exact E|]. split; [exact Ll|].
  assert (G : forall i, (i < n)%nat -> exists w g, nth_error l i = Some (w, Some g) /\ 0 < g /\ cut start stop n i < w < cut start stop n (S i)).
  { intros i Hi. destruct (H i Hi) as (w & g & d & m & Ei & I1 & I2 & Hm & Hg). destruct (M i d m Hi I1 I2) as (D & W). destruct g as [g|]; [|lra]. exists w, g. split; [exact Ei|]. split; [apply Hg|]. replace w with (m / d); [exact W|]. rewrite <- Hm. field. lra. }
  split; [exact G|]. intros i j w g w' g' Hij Ei Ej. assert (Hj : (j < n)%nat) by (rewrite <- Ll; apply nth_error_Some; congruence).
  destruct (G i ltac:(lia)) as (? & ? & Ei' & _ & Wi). destruct (G j Hj) as (? & ? & Ej' & _ & Wj). rewrite Ei in Ei'. rewrite Ej in Ej'. injection Ei' as <- _. injection Ej' as <- _.
  assert (cut start stop n (S i) <= cut start stop n j). { unfold cut. apply Rplus_le_compat_l, Rmult_le_compat_r; [|apply le_INR; lia]. apply Rmult_le_pos; [lra|left; apply Rinv_0_lt_compat, lt_0_INR; lia]. } lra.
Qed.
Print Assumptions C92_positive.

(** The densities of [SpectralDensityFactory] but [plain] are odd, continuous, and positive at
    positive frequencies, so they can be discretised from 0 into any number of modes. *)
Definition good_density (J : R -> R) : Prop := (forall w, J (- w) = - J w) /\ (forall w, continuity_pt J w) /\ (forall w, 0 < w -> 0 < J w).
Theorem C92_densities lambda omega gamma lambda_d omega_d : 0 < lambda -> 0 < omega -> 0 < gamma -> 0 < lambda_d -> 0 < omega_d ->
  good_density (drude_lorentz lambda gamma) /\ good_density (brownian lambda omega gamma) /\ good_density (bimodal lambda omega lambda_d omega_d) /\
  (forall w, drude_lorentz lambda gamma w <= lambda / PI) /\ drude_lorentz lambda gamma gamma = lambda / PI.
Proof.
  intros Hl Ho Hg Hld Hod. pose proof PI_RGT_0 as HP.
  assert (D1 : forall w, 0 < w ^ 2 + gamma ^ 2) by (intros w; nra). assert (D2 : forall w, 0 < omega_d ^ 2 + w ^ 2) by (intros w; nra).
  assert (D3 : forall w, 0 < (w ^ 2 - omega ^ 2) ^ 2 + (2 * gamma * w) ^ 2).
  { intros w. destruct (Req_dec w 0) as [->|W]; [|assert (0 < (2 * gamma * w) ^ 2) by (rewrite <- Rsqr_pow2; apply Rsqr_pos_lt; repeat apply Rmult_integral_contrapositive_currified; lra); pose proof (pow2_ge_0 (w ^ 2 - omega ^ 2)); lra].
    replace ((0 ^ 2 - omega ^ 2) ^ 2 + (2 * gamma * 0) ^ 2) with (omega ^ 2 * omega ^ 2) by ring. assert (0 < omega ^ 2) by (apply pow_lt; exact Ho). nra. }
  split; [|split; [|split; [|split]]].
  - split; [|split].
    + intros w. unfold drude_lorentz. pose proof (D1 w). replace ((- w) ^ 2) with (w ^ 2) by ring. field. split; lra.
    + intros w. unfold drude_lorentz. pose proof (D1 w). reg. lra.
    + intros w W. unfold drude_lorentz. apply Rdiv_lt_0_compat; auto. apply Rmult_lt_0_compat; [apply Rdiv_lt_0_compat; lra|]. repeat apply Rmult_lt_0_compat; auto.
  - split; [|split].
    + intros w. unfold brownian. pose proof (D3 w) as D. replace (((- w) ^ 2 - omega ^ 2) ^ 2 + (2 * gamma * - w) ^ 2) with ((w ^ 2 - omega ^ 2) ^ 2 + (2 * gamma * w) ^ 2) by ring. field. lra.
    + intros w. unfold brownian. pose proof (D3 w). reg. lra.
    + intros w W. unfold brownian. apply Rdiv_lt_0_compat; auto. repeat apply Rmult_lt_0_compat; auto; try lra.
  - split; [|split].
    + intros w. unfold bimodal. pose proof (D2 w). replace (- (- w / (2 * omega)) ^ 2) with (- (w / (2 * omega)) ^ 2) by (field; lra). replace ((- w) ^ 2) with (w ^ 2) by ring. field. split; lra.
    + intros w. unfold bimodal. pose proof (D2 w). reg; lra.
    + intros w W. unfold bimodal. apply Rplus_lt_0_compat; [apply Rmult_lt_0_compat; [|apply exp_pos]|]; apply Rdiv_lt_0_compat; try lra; [|repeat apply Rmult_lt_0_compat; auto|pose proof (D2 w); lra].
      repeat apply Rmult_lt_0_compat; auto. now apply sqrt_lt_R0.
  - intros w. unfold drude_lorentz. pose proof (D1 w). apply Rmult_le_reg_r with (PI * (w ^ 2 + gamma ^ 2)); [apply Rmult_lt_0_compat; auto|].
    replace (2 / PI * (lambda * w * gamma) / (w ^ 2 + gamma ^ 2) * (PI * (w ^ 2 + gamma ^ 2))) with (lambda * (2 * w * gamma)) by (field; split; lra).
    replace (lambda / PI * (PI * (w ^ 2 + gamma ^ 2))) with (lambda * (w ^ 2 + gamma ^ 2)) by (field; lra). apply Rmult_le_compat_l; [lra|]. pose proof (pow2_ge_0 (w - gamma)). lra.
  - unfold drude_lorentz. pose proof (D1 gamma). field. split; lra.
Qed.
Print Assumptions C92_densities.

Theorem C92_discretised q J stop n : good_density J -> 0 < stop -> (0 < n)%nat -> exact_on q J 0 stop -> exact_on q (moment J) 0 stop ->
  exists ws gs, linear_discretization q J stop (Z.of_nat n) 0 = Ok (combine ws (map Some gs)) /\ length ws = n /\ length gs = n /\
    Forall (fun w => 0 < w < stop) ws /\ Forall (fun g => 0 < g) gs /\ integral J 0 stop (total (map (fun g => g ^ 2) gs)).
Proof.
  intros (_ & C & P) S Hn E1 E2. destruct (C92_positive q J 0 stop n S Hn E1 E2) as (l & E & Ll & G & _); [intros x Hx; split; [auto|apply P; lra]|].
  assert (Z : J 0 = 0 \/ J 0 <> 0) by (destruct (Req_dec (J 0) 0); auto).
  assert (N : forall x, 0 <= x <= stop -> 0 <= J x).
  { intros x [[Hx|<-] _]; [left; auto|]. destruct (Rle_dec 0 (J 0)) as [H|H]; [exact H|]. exfalso. destruct (C 0 (- J 0)) as (d & D0 & D); [lra|].
    assert (A : Rabs (J (d / 2) - J 0) < - J 0). { apply (D (d / 2)). split; [split; [exact I|lra]|]. cbn [dist R_met]. unfold R_dist. rewrite Rabs_right; lra. }
    apply Rabs_def2 in A. specialize (P (d / 2) ltac:(lra)). lra. }
  destruct (C92_moments q J 0 stop n l ltac:(lra) Hn E1 E2 N E) as (ws & gs & El & Lw & Lg & Pg & _ & _ & T & _). exists ws, gs. rewrite E, El. repeat (split; [auto; fail|]). split; [|split; [exact Pg|exact T]].
  apply Forall_forall. intros w Hw. apply (In_nth _ _ 0) in Hw as (i & Hi & <-). rewrite Lw in Hi. destruct (G i Hi) as (w & g & Ei & _ & W). rewrite El in Ei.
  assert (nth i ws 0 = w). { apply nth_error_nth with (d := (0, None)) in Ei. rewrite combine_nth in Ei by (rewrite map_length; lia). congruence. }
  pose proof (cut_bounds 0 stop n i ltac:(lra) ltac:(lia)). pose proof (cut_bounds 0 stop n (Datatypes.S i) ltac:(lra) ltac:(lia)). lra.
Qed.
Print Assumptions C92_discretised.

(** The density [plain] ends at [omega]: a bin beyond it cannot be discretised. *)
Theorem C92_plain_refuted q eta omega stop n : 0 < stop -> (0 < n)%nat -> exact_on q (plain eta omega) 0 stop -> exact_on q (moment (plain eta omega)) 0 stop ->
  omega <= stop - stop / INR n -> linear_discretization q (plain eta omega) stop (Z.of_nat n) 0 = Raise ZeroDivisionError.
Proof.
  intros S Hn E1 E2 H. destruct (C92_answers q (plain eta omega) 0 stop (Z.of_nat n) ltac:(lra) E1 E2) as (_ & _ & A). rewrite Nat2Z.id in A. destruct (A ltac:(lia)) as (A0 & _). apply A0. clear A A0.
  destruct n as [|n]; [lia|]. exists n. split; [lia|]. pose proof (cut_step 0 stop (Datatypes.S n) n) as St. pose proof (cut_n 0 stop (Datatypes.S n) ltac:(lia)) as Cn. rewrite Rminus_0_r in St. 
  set (a := cut 0 stop (Datatypes.S n) n) in *. rewrite Cn in *. assert (L : a <= stop) by (unfold a; rewrite <- Cn at 2; apply cut_le; lra). assert (A0 : 0 <= a) by (apply cut_bounds; [lra|lia]).
  pose proof (integral_const 0 a stop) as C. rewrite Rmult_0_l in C. apply (integral_ext (fun _ => 0)); [exact L| |exact C|].
  - intros x Hx. unfold plain. destruct (Rlt_dec 0 x); [|reflexivity]. destruct (Rlt_dec x omega); [lra|reflexivity].
  - eexists. apply E1; lra.
Qed.
Print Assumptions C92_plain_refuted.

(** The module [bath] has no function [bimodal_spectral_density], which [SpinBosonModel] asks it
    for: with [including_bath] (for [RotSpinBosonModel] the default) no model can be built.  The
    same holds for every set of names without that one. *)
Theorem C92_bath_refuted q names o p : (names = bath_names \/ ~ In "bimodal_spectral_density"%string names) ->
  (forall r, construct q names true o p <> Ok r) /\ (forall r, construct_rot q names true o p <> Ok r) /\
  (forall inner, inner_hamiltonian (sp_omegas p) (sp_lambdas p) (sp_dims p) = Ok inner ->
     construct q names true o p = Raise AttributeError /\ construct_rot q names true o p = Raise AttributeError).
Proof.
  intros N. assert (M : module_attr names "bimodal_spectral_density" = Raise AttributeError).
  { unfold module_attr. destruct (existsb _ names) eqn:E; [|reflexivity]. exfalso. destruct N as [->|N]; [discriminate E|]. apply existsb_exists in E as (s & I & E). apply String.eqb_eq in E. subst. auto. }
  assert (C : forall inner, inner_hamiltonian (sp_omegas p) (sp_lambdas p) (sp_dims p) = Ok inner -> construct q names true o p = Raise AttributeError).
  { intros inner E. unfold construct. rewrite E. cbn [bind]. destruct o as [o|]; [|reflexivity]. unfold outer_terms. rewrite M. reflexivity. }
  assert (F : forall r, construct q names true o p <> Ok r).
  { intros r. destruct (inner_hamiltonian (sp_omegas p) (sp_lambdas p) (sp_dims p)) as [inner|e] eqn:E; [rewrite (C inner eq_refl); discriminate|]. unfold construct. rewrite E. discriminate. }
  split; [exact F|]. split.
  - intros r. unfold construct_rot. destruct (construct q names true o p) as [y|] eqn:E; [exfalso; exact (F y eq_refl)|discriminate].
  - intros inner E. unfold construct_rot. rewrite (C inner E). auto.
Qed.
Print Assumptions C92_bath_refuted.

(** Without a bath both classes give the model of C63; with a module that had the name, the
    outer modes would be those of C92_discretised. *)
Theorem C92_construct q names o p : sp_outer p = None ->
  construct q names false o p = spin_model p /\ construct_rot q names false o p = spin_model p /\
  forall b l dim, In "bimodal_spectral_density"%string names -> In "linear_discretization"%string names ->
    linear_discretization q (bimodal (o_lambda_g b) (o_omega_g b) (o_lambda_d b) (o_omega_d b)) (o_stop b) (o_n b) 0 = Ok (map (fun m => (fst m, Some (snd m))) l) -> dim = o_dim b ->
    construct q names true (Some b) p = spin_model (mkSpin (sp_e1 p) (sp_e2 p) (sp_v p) (sp_omegas p) (sp_lambdas p) (sp_dims p) (Some (l, dim)) (sp_relax p) (sp_attr p)).
Proof.
  intros N. assert (C : construct q names false o p = spin_model p).
  { unfold construct, spin_model, all_terms. rewrite N. destruct (inner_hamiltonian _ _ _) as [inner|]; [|reflexivity]. cbn [bind]. destruct (sp_relax p) as [cs|]; [destruct (relaxation_hamiltonian _ _ _)|]; reflexivity. }
  split; [exact C|]. split.
  - unfold construct_rot. rewrite C. destruct (spin_model p); reflexivity.
  - intros b l dim I1 I2 E ->. assert (M : forall s, In s names -> module_attr names s = Ok tt).
    { intros s I. unfold module_attr. destruct (existsb _ names) eqn:X; [reflexivity|]. exfalso. apply Bool.not_true_iff_false in X. apply X, existsb_exists. exists s. split; [exact I|apply String.eqb_refl]. }
    unfold construct, outer_terms, spin_model, all_terms. rewrite !M by auto. cbn [bind sp_omegas sp_lambdas sp_dims sp_outer sp_relax sp_attr sp_e1 sp_e2 sp_v]. rewrite E. cbn [bind].
    rewrite map_map. cbn [fst snd]. replace (map (fun x : R * R => (fst x, snd x)) l) with l by (symmetry; rewrite <- (map_id l) at 2; apply map_ext; intros []; reflexivity).
    destruct (inner_hamiltonian _ _ _) as [inner|]; [|reflexivity]. cbn [bind]. destruct (outer_hamiltonian l (o_dim b)) as [outer|]; [|reflexivity]. cbn [bind]. destruct (sp_relax p) as [cs|]; [destruct (relaxation_hamiltonian _ _ _)|]; reflexivity.
Qed.
Print Assumptions C92_construct.

(** ** Examples *)
(** An exact routine exists for every density that can be integrated and does not vanish at some point but 1. *)
Lemma exact_exists J c : (forall a b, a <= b -> Riemann_integrable J a b) -> (forall a b, a <= b -> Riemann_integrable (moment J) a b) -> J c <> 0 -> c <> 1 ->
  exists q, forall a b, exact_on q J a b /\ exact_on q (moment J) a b.
Proof.
  intros C CM N N1.
  pose (int := fun (f : R -> R) (Cf : forall a b, a <= b -> Riemann_integrable f a b) a b => match Rle_dec a b with left L => RiemannInt (Cf a b L) | right _ => 0 end).
  assert (I : forall f Cf a b, a <= b -> integral f a b (int f Cf a b)) by (intros f Cf a b L; unfold int; destruct (Rle_dec a b); [eexists; reflexivity|lra]).
  exists (fun f a b => if Req_EM_T (f c) (J c) then int J C a b else int (moment J) CM a b). intros a b. split; intros x y _ L _; destruct (Req_EM_T _ _) as [E|E].
  - apply I, L.
  - congruence.
  - unfold moment in E. exfalso. apply N1. apply Rmult_eq_reg_r with (J c); lra.
  - apply I, L.
Qed.
(** Functions that agree inside an interval can be integrated together. *)
Lemma integrable_inside f g a b : a <= b -> (forall x, a < x < b -> f x = g x) -> Riemann_integrable g a b -> Riemann_integrable f a b.
Proof.
  intros L E I. assert (S : IsStepFun (fun x => f x - g x) a b).
  { exists [a; b], [0]. destruct (StepFun_P3 0 L) as (A1 & A2 & A3 & A4 & A5). repeat (split; [assumption|]). intros [|i] Hi x Hx; [|cbn in Hi; lia]. cbn in Hx |- *. unfold open_interval in Hx. rewrite E by exact Hx. lra. }
  assert (D : Riemann_integrable (fun x => f x - g x) a b).
  { intros e. exists (mkStepFun S), (mkStepFun (StepFun_P4 a b 0)). split; [|rewrite StepFun_P18, Rmult_0_l, Rabs_R0; apply cond_pos]. intros t _. cbn [fe]. unfold fct_cte. rewrite Rminus_diag_eq, Rabs_R0 by reflexivity. lra. }
  apply (@Riemann_integrable_ext (fun x => g x + 1 * (f x - g x)) f a b); [intros; ring|]. apply RiemannInt_P10; assumption.
Qed.
Lemma integrable_window f g : (forall x, continuity_pt g x) -> (forall x, 0 < x < 1 -> f x = g x) -> (forall x, x < 0 \/ 1 < x -> f x = 0) -> forall a b, a <= b -> Riemann_integrable f a b.
Proof.
  intros C E Z.
  assert (I : forall h, (forall x, continuity_pt h x) -> forall a b, a <= b -> (forall x, a < x < b -> f x = h x) -> Riemann_integrable f a b).
  { intros h Ch a b L H. apply (integrable_inside f h a b L H). apply continuity_implies_RiemannInt; auto. }
  assert (C0 : forall x, continuity_pt (fun _ => 0) x) by (intros x; apply continuity_pt_const; intros ? ?; reflexivity).
  assert (W : forall a b, a <= b -> Riemann_integrable f (Rmin a (-1)) (Rmax b 2)).
  { intros a b L. pose proof (Rmin_r a (-1)). pose proof (Rmax_r b 2). apply RiemannInt_P21 with 0; [lra|lra|apply (I (fun _ => 0)); [exact C0|lra|intros; apply Z; lra]|].
    apply RiemannInt_P21 with 1; [lra|lra|apply (I g); [exact C|lra|intros; apply E; lra]|apply (I (fun _ => 0)); [exact C0|lra|intros; apply Z; lra]]. }
  intros a b L. pose proof (W a b L) as Wb. pose proof (Rmin_l a (-1)). pose proof (Rmax_l b 2). apply RiemannInt_P23 with (Rmin a (-1)); [|lra]. apply RiemannInt_P22 with (Rmax b 2); [exact Wb|lra].
Qed.
Example C92_drude_ex : exists q ws gs, linear_discretization q (drude_lorentz 1 3) 10 7 0 = Ok (combine ws (map Some gs)) /\ length ws = 7%nat /\ Forall (fun w => 0 < w < 10) ws /\ Forall (fun g => 0 < g) gs.
Proof.
  destruct (C92_densities 1 1 3 1 1) as (G & _); try lra. 
  assert (CI : forall f, (forall x, continuity_pt f x) -> forall a b, a <= b -> Riemann_integrable f a b) by (intros f C a b L; apply continuity_implies_RiemannInt; auto).
  destruct (exact_exists (drude_lorentz 1 3) 2) as (q & E); [apply CI, G|apply CI; intros x; apply cont_moment, G|apply Rgt_not_eq, G; lra|lra|].
  destruct (C92_discretised q (drude_lorentz 1 3) 10 7 G ltac:(lra) ltac:(lia) (proj1 (E 0 10)) (proj2 (E 0 10))) as (ws & gs & H & L & _ & W & P & _). exists q, ws, gs. auto.
Qed.

(** The rule of Simpson, and the density w: two modes between 0 and 2. *)
Definition simpson (f : R -> R) (a b : R) : R := (b - a) / 6 * (f a + 4 * f ((a + b) / 2) + f b).
Lemma integral_primitive (F f : R -> R) a b : a <= b -> (forall x, derivable_pt_lim F x (f x)) -> (forall x, continuity_pt f x) -> integral f a b (F b - F a).
Proof.
  intros L D C. destruct (integral_cont f a b L (fun x _ => C x)) as (v & [p Hp]). exists p.
  assert (AF : antiderivative f F a b). { split; [|exact L]. intros x Hx. exists (exist _ (f x) (D x)). reflexivity. }
  pose proof (RiemannInt_P29 L (fun x (_ : a <= x <= b) => C x)) as AP. destruct (antiderivative_Ucte f _ _ a b AF AP) as (c & Hc).
  rewrite (Hc b), (Hc a) by lra. unfold primitive. destruct (Rle_dec a a) as [r|r]; [|exfalso; apply r, Rle_refl]. destruct (Rle_dec a b) as [r0|r0]; [|exfalso; exact (r0 L)]. destruct (Rle_dec b b) as [r1|r1]; [|exfalso; apply r1, Rle_refl].
  rewrite RiemannInt_P9, (RiemannInt_P5 p (FTC_P1 L (fun x (_ : a <= x <= b) => C x) r0 r1)). ring.
Qed.
Lemma simpson_exact a b : exact_on simpson (fun w => w) a b /\ exact_on simpson (moment (fun w => w)) a b.
Proof.
  split; intros x y _ L _.
  - replace (simpson (fun w => w) x y) with (y ^ 2 / 2 - x ^ 2 / 2) by (unfold simpson; field). apply (integral_primitive (fun t => t ^ 2 / 2) (fun t => t)); [exact L| |intros; reg].
    intros t. replace t with ((INR 2 * t ^ pred 2) * / 2) at 2 by (cbn; field).
    apply derivable_pt_lim_scal_right. apply derivable_pt_lim_pow.
  - replace (simpson (moment (fun w => w)) x y) with (y ^ 3 / 3 - x ^ 3 / 3) by (unfold simpson, moment; field). apply (integral_primitive (fun t => t ^ 3 / 3) (moment (fun t => t))); [exact L| |intros; unfold moment; reg].
    intros t. replace (moment (fun t => t) t) with ((INR 3 * t ^ pred 3) * / 3) by (unfold moment; cbn; field). apply derivable_pt_lim_scal_right. apply derivable_pt_lim_pow.
Qed.
Example C92_modes_ex : linear_discretization simpson (fun w => w) 2 2 0 = Ok [(2 / 3, Some (sqrt (1 / 2))); (14 / 9, Some (sqrt (3 / 2)))] /\
  exact_on simpson (fun w => w) 0 2 /\ exact_on simpson (moment (fun w => w)) 0 2 /\ integral (fun w => w) 0 2 (sqrt (1 / 2) ^ 2 + sqrt (3 / 2) ^ 2).
Proof.
  split; [|split; [apply simpson_exact|split; [apply simpson_exact|]]].
  - change (linear_discretization simpson (fun w => w) 2 2 0) with (linear_discretization simpson (fun w => w) 2 (Z.of_nat 2) 0). rewrite disc_eq. cbn [seq map map2].
    replace (cut 0 2 2 0) with 0 by (unfold cut; cbn; field). replace (cut 0 2 2 1) with 1 by (unfold cut; cbn; field). replace (cut 0 2 2 2) with 2 by (unfold cut; cbn; field).
    unfold direct_quad. replace (simpson (fun w => w) 0 1) with (1 / 2) by (unfold simpson; field). replace (simpson (fun w => w) 1 2) with (3 / 2) by (unfold simpson; field).
    replace (simpson (fun x => x * x) 0 1) with (1 / 3) by (unfold simpson; field). replace (simpson (fun x => x * x) 1 2) with (7 / 3) by (unfold simpson; field).
    destruct (Req_EM_T (1 / 2) 0); [lra|]. destruct (Req_EM_T (3 / 2) 0); [lra|]. cbn [bind]. unfold np_sqrt. destruct (Rlt_dec (1 / 2) 0); [lra|]. destruct (Rlt_dec (3 / 2) 0); [lra|].
    replace (1 / 3 / (1 / 2)) with (2 / 3) by field. replace (7 / 3 / (3 / 2)) with (14 / 9) by field. reflexivity.
  - rewrite !pow2_sqrt by lra. replace (1 / 2 + 3 / 2) with (simpson (fun w => w) 0 2) by (unfold simpson; field). apply simpson_exact with (a := 0) (b := 2); lra.
Qed.
(** No density beyond 1, so the second of two bins between 0 and 2 is empty. *)
Example C92_plain_ex : exists q, exact_on q (plain 1 1) 0 2 /\ exact_on q (moment (plain 1 1)) 0 2 /\ 1 <= 2 - 2 / INR 2 /\ linear_discretization q (plain 1 1) 2 2 0 = Raise ZeroDivisionError.
Proof.
  assert (In1 : forall x, 0 < x < 1 -> plain 1 1 x = 1) by (intros x Hx; unfold plain; destruct (Rlt_dec 0 x); [|lra]; destruct (Rlt_dec x 1); lra).
  assert (Out : forall x, x < 0 \/ 1 < x -> plain 1 1 x = 0) by (intros x Hx; unfold plain; destruct (Rlt_dec 0 x); [|reflexivity]; destruct (Rlt_dec x 1); lra).
  destruct (exact_exists (plain 1 1) (1 / 2)) as (q & E).
  - apply (integrable_window (plain 1 1) (fun _ => 1)); [intros x; apply continuity_pt_const; intros ? ?; reflexivity|exact In1|exact Out].
  - apply (integrable_window (moment (plain 1 1)) (fun x => x)); [intros; reg|intros x Hx; unfold moment; rewrite In1 by exact Hx; ring|intros x Hx; unfold moment; rewrite Out by exact Hx; ring].
  - rewrite In1; lra.
  - lra.
  - destruct (E 0 2) as (E1 & E2). assert (H : 1 <= 2 - 2 / INR 2) by (cbn; lra). exists q. split; [exact E1|]. split; [exact E2|]. split; [exact H|].
    apply (C92_plain_refuted q 1 1 2 2); auto; try lra.
Qed.
(** One inner mode is fine without a bath, and with one it is not. *)
Example C92_bath_ex : let p := mkSpin 0 1 (1 / 2) [1] [1] [2%nat] None None (fun _ => None) in let o := Some (mkOuter 10 4 5 1 1 1 1) in
  (exists r, construct simpson bath_names false o p = Ok r) /\ construct simpson bath_names true o p = Raise AttributeError /\ construct_rot simpson bath_names true o p = Raise AttributeError.
Proof. cbv zeta. split; [eexists; vm_compute; reflexivity|]. split; reflexivity. Qed.
