(** C52: Fourier transforms between conjugate grids. *)
From Coq Require Import List Arith Bool Lia Reals Lra ZArith.
From Verif Require Import Py Alg Cplx ListX Grid_Model Grid_Spec Grid_Proof PoDvr_Proof.
Import ListNotations.
Local Open Scope star_scope.
Add Ring Cgp : (r_theory C_star).

(** The empty heap is paired, and a new grid keeps it so *)
Theorem C52_fresh : paired [] /\ forall h k a b n hb, paired h ->
  paired (h ++ [new_grid k a b n hb]) /\ ((2 <= n)%nat -> (0 < hb)%R -> a <> b -> proper (gget (h ++ [new_grid k a b n hb]) (length h))).
Proof.
  split; [intros i Hi; cbn in Hi; lia|]. intros h k a b n hb HP. split.
  - intros i Hi. rewrite app_length in Hi. cbn [length] in Hi. destruct (Nat.eq_dec i (length h)) as [->|N]; [rewrite gget_new; exact I|]. rewrite gget_app_l by lia. pose proof (HP i ltac:(lia)) as X. destruct (g_conj (gget h i)) as [j|]; [|exact I]. destruct X as (A & B & C). rewrite gget_app_l by auto. rewrite app_length. split; [lia|]. auto.
  - intros Hn Hb Hab. rewrite gget_new. unfold proper. split; [cbn [g_space new_grid]; rewrite length_linspace; exact Hn|]. split; [exact Hb|]. exists (b - a)%R. split; [exact (width_new k a b n hb 0 Hn)|lra].
Qed.
Print Assumptions C52_fresh.

(** The conjugate grid is made once, the grid is the conjugate one of it, and the points of no grid change *)
Theorem C52_conj : forall h i, paired h -> (i < length h)%nat -> proper (gget h i) ->
  exists h' j, conj_of h i = Ok (h', j) /\ paired h' /\ conjugate (gget h' i) (gget h' j) /\ conj_of h' j = Ok (h', i) /\ conj_of h' i = Ok (h', j) /\
    forall k, (k < length h)%nat -> same_points (gget h k) (gget h' k).
Proof.
  intros h i HP Hi Hp. destruct (conj_ok h i HP Hi Hp) as (h' & j & E & P' & Hj & Hl & C1 & C2 & CC & SP). exists h', j. split; [exact E|]. split; [exact P'|]. split; [exact CC|]. unfold conj_of. rewrite C1, C2. auto.
Qed.
Print Assumptions C52_conj.

Lemma ft_vec_points g g' w v : same_points g g' -> ft_vec g' w v = ft_vec g w v.
Proof. intros (A & B & C). unfold ft_vec. rewrite A, B, C. reflexivity. Qed.
Lemma proper_points g g' : same_points g g' -> proper g -> proper g'.
Proof. intros (A & B & C) (H1 & H2 & w & H3 & H4). unfold proper, width in *. rewrite B, C. split; [auto|]. split; [auto|]. exists w. auto. Qed.
Lemma conjugate_proper g g' : conjugate g g' -> proper g -> proper g'.
Proof.
  intros (A & B & C & w & w' & E & E' & M) (H1 & H2 & x & H3 & H4). unfold proper. rewrite B, C. split; [auto|]. split; [auto|]. exists w'. split; [exact E'|]. intros ->. rewrite Rmult_0_r in M. pose proof PI_RGT_0. assert (0 < INR (length (g_space g)))%R by (apply lt_0_INR; lia). assert (0 < 2 * PI * g_hbar g * INR (length (g_space g)))%R by (apply Rmult_lt_0_compat; [apply Rmult_lt_0_compat; lra|lra]). lra.
Qed.

(** A transform is a Fourier sum about the middle; an empty vector is refused *)
Theorem C52_transform : forall h i, paired h -> (i < length h)%nat -> proper (gget h i) ->
  exists h' j w, conj_of h i = Ok (h', j) /\ width (gget h' j) = Ok w /\ ft h i (One []) = Raise ValueError /\
    forall v, v <> [] -> exists u, ft h i (One v) = Ok (h', One u) /\ length u = length v /\
      forall k, (k < length v)%nat -> nth k u 0 =
        match g_kind (gget h i) with
        | Coordinate => RtoC (sqrt (2 * PI * g_hbar (gget h i)) / w) * centred (-1) (length v) (fun m => nth m v 0) k
        | Momentum => RtoC (sqrt (2 * PI * g_hbar (gget h i)) / w * (INR (length (g_space (gget h i))) / INR (length v))) * centred 1 (length v) (fun m => nth m v 0) k
        end.
Proof.
  intros h i HP Hi Hp. destruct (conj_ok h i HP Hi Hp) as (h' & j & E & P' & Hj & Hl & C1 & C2 & CC & SP). pose proof CC as (_ & _ & _ & w0 & w & _ & Ew & _). exists h', j, w. split; [exact E|]. split; [exact Ew|]. split.
  - unfold ft. rewrite E. cbn [bind fst snd]. rewrite Ew. cbn [bind]. unfold ft_vec. destruct (g_kind (gget h i)); reflexivity.
  - intros v Hv. destruct (ft_vec_ok (gget h i) w v Hv) as (u & Eu & Lu & Gu). exists u. split; [unfold ft; rewrite E; cbn [bind fst snd]; rewrite Ew; cbn [bind]; rewrite Eu; reflexivity|]. split; [exact Lu|]. intros k Hk. rewrite Gu by auto. unfold factor, sign_of. destruct (g_kind (gget h i)); [reflexivity|]. do 2 f_equal. unfold Rdiv. ring.
Qed.
Print Assumptions C52_transform.

(** There and back is the identity, in both directions, for vectors of any length and for lists of them *)
Theorem C52_roundtrip : forall h i, paired h -> (i < length h)%nat -> proper (gget h i) ->
  exists h' j, conj_of h i = Ok (h', j) /\
    (forall v, v <> [] -> exists u, ft h i (One v) = Ok (h', One u) /\ ft h' j (One u) = Ok (h', One v)) /\
    (forall vs, Forall (fun v => v <> []) vs -> exists us, ft h i (Many vs) = Ok (h', Many us) /\ ft h' j (Many us) = Ok (h', Many vs)).
Proof.
  intros h i HP Hi Hp. destruct (conj_ok h i HP Hi Hp) as (h' & j & E & P' & Hj & Hl & C1 & C2 & CC & SP). pose proof CC as (_ & _ & _ & w0 & w & Ew0 & Ew & _). pose proof (proper_points _ _ (SP i Hi) Hp) as (Hn & Hb & _). exists h', j. split; [exact E|].
  assert (E2 : conj_of h' j = Ok (h', i)) by (unfold conj_of; rewrite C2; reflexivity).
  assert (B : forall v, v <> [] -> exists u, ft_vec (gget h i) w v = Ok u /\ ft_vec (gget h' j) w0 u = Ok v).
  { intros v Hv. destruct (ft_vec_back _ _ w0 w v CC Hb Hn Ew0 Ew Hv) as (u & Eu & Ev). exists u. rewrite <- (ft_vec_points _ _ w v (SP i Hi)). auto. }
  split.
  - intros v Hv. destruct (B v Hv) as (u & Eu & Ev). exists u. unfold ft. rewrite E, E2. cbn [bind fst snd]. rewrite Ew, Ew0. cbn [bind]. rewrite Eu, Ev. auto.
  - intros vs Hvs. destruct (mapM_rows (ft_vec (gget h i) w) (fun v u => ft_vec (gget h' j) w0 u = Ok v) vs) as (us & Eus & F); [intros v Hv; apply B; rewrite Forall_forall in Hvs; apply Hvs; exact Hv|].
    exists us. unfold ft. rewrite E, E2. cbn [bind fst snd]. rewrite Ew, Ew0. cbn [bind]. rewrite Eus. cbn [bind]. split; [reflexivity|].
    assert (M : mapM (ft_vec (gget h' j) w0) us = Ok vs). { clear - F. induction F as [|v u vs us H F IH]; [reflexivity|]. cbn [mapM]. rewrite H. cbn [bind]. rewrite IH. reflexivity. } rewrite M. reflexivity.
Qed.
Print Assumptions C52_roundtrip.

(** Parseval: width times sum of squares is the same on both sides *)
Theorem C52_norm : forall h i v, paired h -> (i < length h)%nat -> proper (gget h i) -> length v = length (g_space (gget h i)) ->
  exists h' j w w' u, conj_of h i = Ok (h', j) /\ width (gget h i) = Ok w /\ width (gget h' j) = Ok w' /\ ft h i (One v) = Ok (h', One u) /\ length u = length v /\
    RtoC w' * sumn (length u) (fun k => rconj (nth k u 0) * nth k u 0) = RtoC w * sumn (length v) (fun k => rconj (nth k v 0) * nth k v 0).
Proof.
  intros h i v HP Hi Hp Lv. destruct (conj_ok h i HP Hi Hp) as (h' & j & E & P' & Hj & Hl & C1 & C2 & CC & SP). pose proof CC as (_ & _ & _ & w & w' & Ew & Ew' & M). pose proof Hp as (Hn & Hb & _). destruct (SP i Hi) as (Q1 & Q2 & Q3). rewrite Q2, Q3 in M. assert (Ew1 : width (gget h i) = Ok w) by (unfold width in *; rewrite <- Q2; exact Ew).
  assert (Hv : v <> []) by (intros ->; cbn in Lv; rewrite <- Lv in Hn; inversion Hn). destruct (ft_vec_ok (gget h i) w' v Hv) as (u & Eu & Lu & Gu). exists h', j, w, w', u. split; [exact E|]. split; [exact Ew1|]. split; [exact Ew'|]. split; [unfold ft; rewrite E; cbn [bind fst snd]; rewrite Ew'; cbn [bind]; rewrite Eu; reflexivity|]. split; [exact Lu|].
  assert (L0 : INR (length v) <> 0%R) by (rewrite Lv; apply not_0_INR; lia). set (f := factor (gget h i) w' (length v)) in *. set (c := centred (sign_of (g_kind (gget h i))) (length v) (fun m => nth m v 0)) in *.
  assert (X : sumn (length u) (fun k => rconj (nth k u 0) * nth k u 0) = RtoC (f * f) * sumn (length v) (fun k => rconj (c k) * c k)).
  { rewrite Lu, <- sumn_scal_l. apply sumn_ext. intros k Hk. rewrite Gu by auto. rewrite rconj_mul, RtoC_conj, RtoC_mul. ring. }
  rewrite X. unfold c. rewrite centred_norm by (destruct (g_kind (gget h i)); [right|left]; reflexivity). transitivity (RtoC (w' * (f * f) * INR (length v)) * sumn (length v) (fun k => rconj (nth k v 0) * nth k v 0)); [rewrite !RtoC_mul; ring|]. do 2 f_equal.
  pose proof PI_RGT_0. assert (P2 : (0 < 2 * PI * g_hbar (gget h i))%R) by (apply Rmult_lt_0_compat; lra). assert (SQ : (sqrt (2 * PI * g_hbar (gget h i)) * sqrt (2 * PI * g_hbar (gget h i)) = 2 * PI * g_hbar (gget h i))%R) by (apply sqrt_sqrt; lra).
  assert (W' : w' <> 0%R) by (intros ->; rewrite Rmult_0_r in M; rewrite <- Lv in M; symmetry in M; apply Rmult_integral in M as [M|M]; [lra|contradiction]).
  unfold f, factor. rewrite <- Lv in *. set (s := sqrt (2 * PI * g_hbar (gget h i))) in *. rewrite <- SQ in M. assert (M2 : (w = s * s * INR (length v) / w')%R) by (rewrite <- M; field; exact W'). rewrite M2. destruct (g_kind (gget h i)); field; auto.
Qed.
Print Assumptions C52_norm.

(** The points of the conjugate grid of a new one, of [n] points: zero momentum is the middle point of the transform;
    the product of the spacings is [2 pi hbar n / (n - 1)^2] and not the one of the transform, [2 pi hbar / n];
    the conjugate grid of an even number of momenta does not contain zero, which the transform takes for the middle *)
Theorem C52_spacing_refuted : forall a b n hb, (2 <= n)%nat -> (0 < hb)%R -> a <> b ->
  (exists h j, conj_of [new_grid Coordinate a b n hb] 0 = Ok (h, j) /\ nth (n / 2) (g_space (gget h j)) 0%R = 0%R /\
    (forall k, (S k < n)%nat ->
      let dx := (nth (S k) (g_space (gget h 0)) 0 - nth k (g_space (gget h 0)) 0)%R in
      let dp := (nth (S k) (g_space (gget h j)) 0 - nth k (g_space (gget h j)) 0)%R in
      (dx * dp = 2 * PI * hb * INR n / (INR (n - 1) * INR (n - 1)) /\ dx * dp <> 2 * PI * hb / INR n)%R)) /\
  (exists h j, conj_of [new_grid Momentum a b n hb] 0 = Ok (h, j) /\ if Nat.even n then ~ In 0%R (g_space (gget h j)) else nth (n / 2) (g_space (gget h j)) 0%R = 0%R).
Proof.
  intros a b n hb Hn Hb Hab. pose proof PI_RGT_0 as Hpi. assert (N1 : INR (n - 1) <> 0%R) by (apply not_0_INR; lia). assert (N0 : (0 < INR n)%R) by (apply lt_0_INR; lia). assert (D : (b - a)%R <> 0%R) by lra. assert (EN : INR (n - 1) = (INR n - 1)%R) by (rewrite minus_INR by lia; reflexivity).
  assert (P2 : (0 < 2 * PI * hb)%R) by (apply Rmult_lt_0_compat; lra).
  split.
  - unfold conj_of. assert (G0 : gget [new_grid Coordinate a b n hb] 0 = new_grid Coordinate a b n hb) by reflexivity. rewrite G0. cbn [g_conj new_grid]. change (mkGrid Coordinate (linspace a b n) hb None) with (new_grid Coordinate a b n hb).
    rewrite (width_new Coordinate a b n hb 0 Hn : width (new_grid Coordinate a b n hb) = Ok (b - a)%R). cbn [bind g_kind new_grid g_space g_hbar]. rewrite length_linspace. eexists; eexists. split; [reflexivity|]. unfold gget, upd. cbn [Nat.ltb Nat.leb firstn skipn app length nth g_space set_conj new_grid]. split.
    + rewrite nth_linspace by (apply Nat.div_lt; lia). replace 0.5%R with (1 / 2)%R by lra. destruct (Nat.odd n) eqn:Eo.
      * apply Nat.odd_spec in Eo as (q & Eq). assert (n / 2 = q)%nat as -> by (rewrite Eq, Nat.mul_comm, Nat.div_add_l by lia; cbn; lia). assert (Q : INR (n - 1) = (2 * INR q)%R) by (rewrite Eq; replace (2 * q + 1 - 1)%nat with (2 * q)%nat by lia; rewrite mult_INR; reflexivity). rewrite Q in *. field. split; [exact D|]. intros Z. apply N1. rewrite Z. ring.
      * rewrite <- Nat.negb_even in Eo. apply negb_false_iff in Eo. apply Nat.even_spec in Eo as (q & Eq). assert (n / 2 = q)%nat as -> by (rewrite Eq, Nat.mul_comm, Nat.div_mul; lia). assert (Q : INR n = (2 * INR q)%R) by (rewrite Eq, mult_INR; reflexivity). rewrite EN, Q in *. field. split; [exact D|exact N1].
    + intros k Hk. rewrite !nth_linspace by lia. rewrite S_INR. match goal with |- (?x = _ /\ _)%R => assert (X : x = (2 * PI * hb * INR n / (INR (n - 1) * INR (n - 1)))%R) by (destruct (Nat.odd n); field; auto) end.
      split; [exact X|]. rewrite X. intros Z. apply (f_equal (fun t => t * (INR (n - 1) * INR (n - 1)) * INR n / (2 * PI * hb))%R) in Z.
      assert (Z2 : (INR n * INR n = INR (n - 1) * INR (n - 1))%R). { etransitivity; [|etransitivity; [exact Z|]]; field; repeat split; lra. }
      rewrite EN in Z2. assert (INR 2 <= INR n)%R by (apply le_INR; exact Hn). change (INR 2) with 2%R in *. nra.
  - unfold conj_of. assert (G0 : gget [new_grid Momentum a b n hb] 0 = new_grid Momentum a b n hb) by reflexivity. rewrite G0. cbn [g_conj new_grid]. change (mkGrid Momentum (linspace a b n) hb None) with (new_grid Momentum a b n hb).
    rewrite (width_new Momentum a b n hb 0 Hn : width (new_grid Momentum a b n hb) = Ok (b - a)%R). cbn [bind g_kind new_grid g_space g_hbar]. rewrite length_linspace. eexists; eexists. split; [reflexivity|]. unfold gget, upd. cbn [Nat.ltb Nat.leb firstn skipn app length nth g_space set_conj new_grid].
    set (hw := (PI * hb * INR n / (b - a))%R). assert (HW : hw <> 0%R) by (intros Z; assert (Z2 : (hw * (b - a) = PI * hb * INR n)%R) by (unfold hw; field; exact D); rewrite Z, Rmult_0_l in Z2; pose proof (Rmult_lt_0_compat (2 * PI * hb) (INR n) P2 N0); lra).
    destruct (Nat.even n) eqn:Ee.
    + intros I0. apply (In_nth _ _ 0%R) in I0 as (k & Hk & E0). rewrite length_linspace in Hk. rewrite nth_linspace in E0 by auto. assert (Z : (hw * (2 * INR k - INR (n - 1)) = 0)%R) by (transitivity (INR (n - 1) * (- hw + INR k * ((hw - - hw) / INR (n - 1))))%R; [field; exact N1|rewrite E0; ring]).
      apply Rmult_integral in Z as [Z|Z]; [contradiction|]. assert (Z2 : INR (2 * k) = INR (n - 1)) by (rewrite mult_INR; change (INR 2) with 2%R; lra). apply INR_eq in Z2. apply Nat.even_spec in Ee as (q & ->). lia.
    + rewrite nth_linspace by (apply Nat.div_lt; lia). rewrite <- Nat.negb_odd in Ee. apply negb_false_iff in Ee. apply Nat.odd_spec in Ee as (q & Eq). assert (n / 2 = q)%nat as -> by (rewrite Eq, Nat.mul_comm, Nat.div_add_l by lia; cbn; lia). assert (Q : INR (n - 1) = (2 * INR q)%R) by (rewrite Eq; replace (2 * q + 1 - 1)%nat with (2 * q)%nat by lia; rewrite mult_INR; reflexivity). rewrite Q in *. field. intros Z. apply N1. rewrite Z. ring.
Qed.
Print Assumptions C52_spacing_refuted.

(** A heap of two grids, three coordinates from -1 to 1 and four momenta from 0 to 5 *)
Definition two_grids : gheap := ([] ++ [new_grid Coordinate (-1) 1 3 1]) ++ [new_grid Momentum 0 5 4 (1 / 2)].
Example two_grids_ok : paired two_grids /\ proper (gget two_grids 0) /\ proper (gget two_grids 1).
Proof.
  destruct C52_fresh as (P0 & F). destruct (F [] Coordinate (-1)%R 1%R 3%nat 1%R P0) as (P1 & Q1). destruct (F _ Momentum 0%R 5%R 4%nat (1 / 2)%R P1) as (P2 & Q2).
  split; [exact P2|]. split; [apply Q1; [lia|lra|lra]|apply Q2; [lia|lra|lra]].
Qed.
Example C52_roundtrip_example : exists h u, ft two_grids 1 (One [C_i; 1; RtoC 2]) = Ok (h, One u) /\ ft h 2 (One u) = Ok (h, One [C_i; 1; RtoC 2]).
Proof.
  destruct two_grids_ok as (P & _ & Q). destruct (C52_roundtrip two_grids 1 P ltac:(cbn; lia) Q) as (h & j & E & R1 & _). destruct (R1 [C_i; 1; RtoC 2] ltac:(discriminate)) as (u & E1 & E2). assert (j = 2%nat) as -> by (cbv [conj_of two_grids gget] in E; cbn in E; injection E; auto). exists h, u. auto.
Qed.
(** The constant vector goes to zero momentum *)
Example C52_transform_example : exists h, ft [new_grid Coordinate 0 1 2 1] 0 (One [1; 1]) = Ok (h, One [0; RtoC (sqrt (2 * PI) / (2 * PI))]).
Proof.
  destruct C52_fresh as (P0 & F). destruct (F [] Coordinate 0%R 1%R 2%nat 1%R P0) as (P1 & Q1). cbn [app] in P1, Q1. pose proof (Q1 (le_n 2) Rlt_0_1 ltac:(lra)) as Q. cbn [length] in Q.
  destruct (C52_transform _ 0%nat P1 ltac:(cbn; lia) Q) as (h & j & w & E & Ew & _ & T). destruct (C52_conj _ 0%nat P1 ltac:(cbn; lia) Q) as (h2 & j2 & E2 & _ & CC & _ & _ & SP). rewrite E in E2. injection E2 as <- <-. destruct (SP 0%nat ltac:(cbn; lia)) as (S1 & S2 & S3). destruct CC as (_ & _ & _ & x & x' & Ex & Ex' & M). rewrite Ew in Ex'. injection Ex' as <-.
  assert (Ex1 : width (gget h 0) = Ok (1 - 0)%R) by (unfold width; rewrite S2; exact (width_new Coordinate 0 1 2 1 0 (le_n 2))). rewrite Ex in Ex1. injection Ex1 as Ex1. rewrite Ex1 in M. rewrite S2, S3 in M. cbn in M. assert (Hw : w = (4 * PI)%R) by lra.
  destruct (T [1; 1] ltac:(discriminate)) as (u & Eu & Lu & Gu). exists h. rewrite Eu. do 3 f_equal. pose proof PI_RGT_0. apply (nth_ext _ _ 0 0); [exact Lu|]. intros k Hk. rewrite Lu in Hk. rewrite Gu by exact Hk. cbn [g_kind gget nth new_grid g_hbar]. replace (2 * PI * 1)%R with (2 * PI)%R by ring. rewrite Hw.
  assert (T1 : turn 2 (-1) = (- (1))). { unfold turn. replace (2 * PI * IZR (-1) / INR 2)%R with (- PI)%R by (cbn; field). apply Ceq; cbn; [rewrite cos_neg, cos_PI|rewrite sin_neg, sin_PI]; ring. }
  assert (C0 : forall f, centred (-1) 2 f 0 = f 0%nat * turn 2 (-1) + f 1%nat * turn 2 0) by (intros f; unfold centred; cbn [sumn]; unfold off; cbn - [turn C_star]; ring). assert (C1 : forall f, centred (-1) 2 f 1 = f 0%nat * turn 2 0 + f 1%nat * turn 2 0) by (intros f; unfold centred; cbn [sumn]; unfold off; cbn - [turn C_star]; ring).
  change (length [1; 1]) with 2%nat in *. destruct k as [|[|k]]; [rewrite C0, T1, turn_0; ring|rewrite C1, turn_0|lia].
  transitivity (RtoC (sqrt (2 * PI) / (4 * PI)) * RtoC 2); [apply Ceq; cbn; ring|]. rewrite <- RtoC_mul. f_equal. field. lra.
Qed.
