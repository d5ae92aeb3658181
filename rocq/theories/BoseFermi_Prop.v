(** C72: the Matsubara and Pade decompositions of the Bose and Fermi functions. *)
From Coq Require Import List Arith ZArith Lia Reals Lra Bool.
From Verif Require Import Py CorrX_Spec CorrX_Proof Pade_Spec Pade_Proof PadeSeries_Proof PadeRoots_Proof Matsubara_Proof BoseFermi_Model BoseFermi_Proof Corr_Model.
Import ListNotations.
Local Open Scope R_scope.

(** A routine that can deal with up to three rows *)
Definition small_eig (M : nat) (T : nat -> nat -> R) : list R :=
  match M with
  | 1%nat => [0]
  | 2%nat => [- T 0%nat 1%nat; T 0%nat 1%nat]
  | 3%nat => [0; - sqrt (T 0%nat 1%nat ^ 2 + T 1%nat 2%nat ^ 2); sqrt (T 0%nat 1%nat ^ 2 + T 1%nat 2%nat ^ 2)]
  | _ => []
  end.
Lemma small_finds a M : 0 < a -> (M <= 3)%nat -> finds small_eig a M.
Proof.
  intros Ha HM T HT. destruct M as [|[|[|[|M]]]]; [| | | |lia]; cbn [small_eig].
  - split; [reflexivity|]. exists (fun _ _ => 0). split; intros; lia.
  - apply spectrum_1. reflexivity.
  - rewrite HT by lia. apply (spectrum_perm 2 (beside a) [beside a 0 1; - beside a 0 1]); [apply Permutation.perm_swap|]. apply spectrum_2; reflexivity.
  - rewrite !HT by lia. set (s := sqrt (beside a 0 1 ^ 2 + beside a 1 2 ^ 2)). apply (spectrum_perm 3 (beside a) [s; 0; - s]).
    + apply (Permutation.Permutation_sym). apply (Permutation.Permutation_trans (l' := [0; s; - s])); [apply Permutation.perm_skip, Permutation.perm_swap|apply Permutation.perm_swap].
    + apply (spectrum_3 (beside a)); try reflexivity. cbn. apply Rdiv_lt_0_compat; [lra|]. apply sqrt_lt_R0. apply Rmult_lt_0_compat; lra.
Qed.

Theorem C72_pade_bose (eig : nat -> (nat -> nat -> R) -> list R) (N : nat) : (1 <= N)%nat -> finds eig 3 (2 * N) -> finds eig 5 (2 * N - 1) ->
  exists xi eta, psd eig (Z.of_nat N) 1 1 = Ok (xi, eta, 0, 0) /\ pole_list N xi eta /\
    forall x, x <> 0 -> Rabs (bose x - (1 / x + 1 / 2 + pole_sum xi eta x)) <= cut 3 (2 * N) x.
Proof.
  intros HN F3 F5. replace 5 with (3 + 2) in F5 by lra. destruct (psd_1 eig 1 3 N (or_introl (conj eq_refl eq_refl)) HN F3 F5) as (xi & eta & E & L & V). exists xi, eta. split; [exact E|split; [exact L|]].
  intros x Hx. rewrite V. apply bose_error. exact Hx.
Qed.
Print Assumptions C72_pade_bose.
Theorem C72_pade_bose_2 (eig : nat -> (nat -> nat -> R) -> list R) (N : nat) : finds eig 3 (2 * N + 1) -> finds eig 5 (2 * N) ->
  exists xi eta rn, psd eig (Z.of_nat N) 1 2 = Ok (xi, eta, rn, 0) /\ pole_list N xi eta /\
    forall x, x <> 0 -> Rabs (bose x - (1 / x + 1 / 2 + rn * x + pole_sum xi eta x)) <= cut 3 (2 * N + 1) x.
Proof.
  intros F3 F5. replace 5 with (3 + 2) in F5 by lra. replace (2 * N + 1)%nat with (S (2 * N)) in * by lia. destruct (psd_2 eig 1 3 N (or_introl (conj eq_refl eq_refl)) F3 F5) as (xi & eta & E & L & V).
  exists xi, eta. eexists. split; [exact E|split; [exact L|]]. intros x Hx. cbv beta iota. change (1 =? 1)%Z with true. cbv iota. rewrite (Rplus_assoc (1 / x + 1 / 2)), (Rplus_comm (_ * x)), V. apply bose_error. exact Hx.
Qed.
Print Assumptions C72_pade_bose_2.
Theorem C72_pade_fermi (eig : nat -> (nat -> nat -> R) -> list R) (N : nat) : (1 <= N)%nat -> finds eig 1 (2 * N) -> finds eig 3 (2 * N - 1) ->
  exists xi eta, psd eig (Z.of_nat N) 2 1 = Ok (xi, eta, 0, 0) /\ pole_list N xi eta /\
    forall x, Rabs (fermi x - (1 / 2 - pole_sum xi eta x)) <= cut 1 (2 * N) x.
Proof.
  intros HN F1 F3. replace 3 with (1 + 2) in F3 by lra. destruct (psd_1 eig 2 1 N (or_intror (conj eq_refl eq_refl)) HN F1 F3) as (xi & eta & E & L & V). exists xi, eta. split; [exact E|split; [exact L|]].
  intros x. rewrite V. apply fermi_error.
Qed.
Print Assumptions C72_pade_fermi.

(** With [pade = 2] the linear term of the Fermi function is missing: for no [N] is the bound kept, and the missing term is
    the one which restores it. *)
Lemma odds_prod_ge a M : 1 <= a -> 1 <= odds a M * odds a (S M).
Proof. intros Ha. pose proof (odds_ge1 a M Ha). pose proof (odds_ge1 a (S M) Ha). nra. Qed.
Lemma cut_small M x : 0 < x <= 1 -> cut 1 (S M) x <= x / 4 * (x ^ 2 / 4).
Proof.
  intros [P U]. unfold cut. rewrite Rabs_right by lra. assert (T : 0 < x ^ 2 / 4 <= 1) by (assert (0 < x ^ 2) by (apply pow_lt; exact P); nra). pose proof (odds_prod_ge 1 (S M) (Rle_refl 1)) as O.
  assert (PW : (x ^ 2 / 4) ^ S M <= x ^ 2 / 4). { rewrite <- tech_pow_Rmult. assert (0 < (x ^ 2 / 4) ^ M) by (apply pow_lt; lra). assert ((x ^ 2 / 4) ^ M <= 1) by (rewrite <- (pow1 M); apply pow_incr; lra). set (t := x ^ 2 / 4) in *. nra. }
  set (t := (x ^ 2 / 4) ^ S M) in *. set (d := odds 1 (S M) * odds 1 (S (S M))) in *. assert (0 < t) by (apply pow_lt; lra).
  apply Rle_trans with (x / 4 * t); [|apply Rmult_le_compat_l; lra]. apply Rmult_le_reg_r with d; [lra|]. unfold Rdiv at 1. rewrite Rmult_assoc, Rinv_l by lra. assert (0 < x / 4 * t) by (apply Rmult_lt_0_compat; lra). nra.
Qed.
Theorem C72_fermi_2_refuted (eig : nat -> (nat -> nat -> R) -> list R) (N : nat) : finds eig 1 (2 * N + 1) -> finds eig 3 (2 * N) ->
  exists xi eta rn, psd eig (Z.of_nat N) 2 2 = Ok (xi, eta, rn, 0) /\ pole_list N xi eta /\
    (exists x, 0 < x /\ Rabs (fermi x - (1 / 2 - (rn * x + pole_sum xi eta x))) > cut 1 (2 * N + 1) x) /\
    (forall x, Rabs (fermi x - (1 / 2 - (x / (4 * (INR N + 1) * (2 * INR N + 1)) + pole_sum xi eta x))) <= cut 1 (2 * N + 1) x).
Proof.
  intros F1 F3. replace 3 with (1 + 2) in F3 by lra. replace (2 * N + 1)%nat with (S (2 * N)) in * by lia. destruct (psd_2 eig 2 1 N (or_intror (conj eq_refl eq_refl)) F1 F3) as (xi & eta & E & L & V).
  exists xi, eta. eexists. split; [exact E|split; [exact L|]]. change (2 =? 1)%Z with false. cbv iota. pose proof (pos_INR N) as HN.
  assert (B : forall x, Rabs (fermi x - (1 / 2 - (x / (4 * (INR N + 1) * (2 * INR N + 1)) + pole_sum xi eta x))) <= cut 1 (S (2 * N)) x).
  { intros x. replace (x / (4 * (INR N + 1) * (2 * INR N + 1)) + pole_sum xi eta x) with (x / 4 * frac 1 (S (2 * N)) (x ^ 2 / 4)) by (rewrite <- V; unfold Rdiv; ring). apply fermi_error. }
  split; [|exact B]. set (k := (INR N + 1) * (2 * INR N + 1)). assert (Hk : 1 <= k) by (unfold k; nra). assert (Hi : 0 < / k <= 1). { split; [apply Rinv_0_lt_compat; lra|]. rewrite <- Rinv_1. apply Rinv_le_contravar; lra. }
  exists (/ k). split; [lra|]. specialize (B (/ k)). replace (/ k / (4 * (INR N + 1) * (2 * INR N + 1))) with (/ k / 4 * / k) in B by (unfold k; field; split; lra).
  pose proof (cut_small (2 * N) (/ k) Hi) as C. set (f := fermi (/ k)) in *. set (s := pole_sum xi eta (/ k)) in *. set (c := cut 1 (S (2 * N)) (/ k)) in *. set (y := / k) in *.
  assert (Q : y / 4 * (y ^ 2 / 4) <= y / 4 * y / 4) by (assert (0 <= y * y) by nra; assert (y * y * y <= y * y) by nra; nra).
  assert (0 < y / 4 * y) by (apply Rmult_lt_0_compat; lra). apply Rabs_le_between in B || (apply Rabs_def2b in B) || idtac.
  unfold Rabs in *. destruct (Rcase_abs (f - (1 / 2 - (0 * y + s)))); destruct (Rcase_abs (f - (1 / 2 - (y / 4 * y + s)))); lra.
Qed.
Print Assumptions C72_fermi_2_refuted.

Theorem C72_pade_drude (eig : list R -> list R) (N : nat) : (1 <= N)%nat -> finds_falling eig 3 (2 * N) -> finds_falling eig 5 (2 * N - 1) ->
  pole_list N (fst (pade eig N)) (snd (pade eig N)) /\
  forall x, x <> 0 -> Rabs (bose x - (1 / x + 1 / 2 + pole_sum (fst (pade eig N)) (snd (pade eig N)) x)) <= cut 3 (2 * N) x.
Proof.
  intros HN F3 F5. pose proof (corr_pade eig N HN F3 F5) as H. destruct (pade eig N) as (xi, eta). destruct H as (L & V). split; [exact L|]. intros x Hx. cbn [fst snd]. rewrite V. apply bose_error. exact Hx.
Qed.
Print Assumptions C72_pade_drude.

(** More poles bring the sums as near as one likes. *)
Theorem C72_pade_converges (x eps : R) : x <> 0 -> 0 < eps ->
  exists N0, forall N, (N0 <= N)%nat -> (1 <= N)%nat ->
    (forall eig, finds_falling eig 3 (2 * N) -> finds_falling eig 5 (2 * N - 1) ->
       Rabs (bose x - (1 / x + 1 / 2 + pole_sum (fst (pade eig N)) (snd (pade eig N)) x)) < eps) /\
    (forall eig, finds eig 1 (2 * N) -> finds eig 3 (2 * N - 1) ->
       exists xi eta, psd eig (Z.of_nat N) 2 1 = Ok (xi, eta, 0, 0) /\ Rabs (fermi x - (1 / 2 - pole_sum xi eta x)) < eps).
Proof.
  intros Hx He. destruct (cut_limit 3 x ltac:(lra) eps He) as (N3 & H3). destruct (cut_limit 1 x ltac:(lra) eps He) as (N1 & H1). exists (N3 + N1)%nat. intros N HN HN1. split.
  - intros eig F3 F5. destruct (C72_pade_drude eig N HN1 F3 F5) as (_ & B). apply Rle_lt_trans with (1 := B x Hx). specialize (H3 (2 * N)%nat ltac:(lia)). unfold R_dist in H3. rewrite Rminus_0_r in H3. apply Rle_lt_trans with (2 := H3). apply Rle_abs.
  - intros eig F1 F3. destruct (C72_pade_fermi eig N HN1 F1 F3) as (xi & eta & E & _ & B). exists xi, eta. split; [exact E|]. apply Rle_lt_trans with (1 := B x). specialize (H1 (2 * N)%nat ltac:(lia)). unfold R_dist in H1. rewrite Rminus_0_r in H1. apply Rle_lt_trans with (2 := H1). apply Rle_abs.
Qed.
Print Assumptions C72_pade_converges.

Theorem C72_matsubara (eig : nat -> (nat -> nat -> R) -> list R) (N : nat) (bf : Z) (s : R) : (bf = 1%Z /\ s = 1 \/ bf = 2%Z /\ s = -1) ->
  exists xi eta, psd eig (Z.of_nat N) bf 0 = Ok (xi, eta, 0, 0) /\ msd (Z.of_nat N) bf = Ok (xi, eta, 0, 0) /\ pole_list N xi eta /\
    (bf = 1%Z -> matsubara N = (xi, eta)) /\ (forall y, In y eta -> y = 1) /\
    (forall w, 0 < w <= 2 * INR N * PI -> (unit_root s w <-> In w xi)).
Proof.
  intros B. assert (E : psd eig (Z.of_nat N) bf 0 = msd (Z.of_nat N) bf).
  { unfold psd. change (0 =? 0)%Z with true. cbn [orb]. rewrite andb_true_r. unfold msd. destruct (negb ((0 <=? Z.of_nat N)%Z && ((bf =? 1)%Z || (bf =? 2)%Z))); reflexivity. }
  rewrite E. unfold msd. rewrite Nat2Z.id. replace (0 <=? Z.of_nat N)%Z with true by (symmetry; apply Z.leb_le; lia).
  destruct B as [(-> & ->)|(-> & ->)]; cbn [Z.eqb Pos.eqb andb orb negb]; do 2 eexists; (split; [reflexivity|split; [reflexivity|]]).
  - split; [apply even_list|]. split; [intros _; unfold matsubara; f_equal; apply map_ext; intros; rewrite plus_INR; reflexivity|]. split; [intros y Hy; apply (repeat_spec N 1); exact Hy|intros; apply even_roots; assumption].
  - split; [apply odd_list|]. split; [discriminate|]. split; [intros y Hy; apply (repeat_spec N 1); exact Hy|intros; apply odd_roots; assumption].
Qed.
Print Assumptions C72_matsubara.

(** Their sums come as near to the Bose and Fermi functions as [x / N]. *)
Theorem C72_matsubara_error (N : nat) : (1 <= N)%nat ->
  (exists xi eta, msd (Z.of_nat N) 1 = Ok (xi, eta, 0, 0) /\ matsubara N = (xi, eta) /\
     forall x, x <> 0 -> Rabs (bose x - (1 / x + 1 / 2 + pole_sum xi eta x)) <= Rabs x / (2 * INR N)) /\
  (exists xi eta, msd (Z.of_nat N) 2 = Ok (xi, eta, 0, 0) /\
     forall x, Rabs (fermi x - (1 / 2 - pole_sum xi eta x)) <= 3 * Rabs x / (2 * INR N)).
Proof.
  intros HN. unfold msd. rewrite Nat2Z.id. replace (0 <=? Z.of_nat N)%Z with true by (symmetry; apply Z.leb_le; lia). cbn [Z.eqb Pos.eqb andb orb negb].
  assert (P : forall (f : nat -> R) x, pole_sum (map f (seq 0 N)) (repeat 1 N) x = Rsum N (fun j => 2 * x / (x ^ 2 + f j ^ 2))).
  { intros f x. unfold pole_sum. rewrite map_length, seq_length. apply Rsum_ext. intros j Hj. replace (nth j (map f (seq 0 N)) 0) with (f j) by (rewrite (nth_indep _ 0 (f 0%nat)) by (rewrite map_length, seq_length; exact Hj); rewrite map_nth, seq_nth by exact Hj; reflexivity).
    rewrite (nth_indep _ 0 1) by (rewrite repeat_length; exact Hj). rewrite nth_repeat. f_equal. ring. }
  split; do 2 eexists; (split; [reflexivity|]).
  - split; [unfold matsubara; f_equal; apply map_ext; intros; rewrite plus_INR; reflexivity|]. intros x Hx. rewrite P. apply bose_matsubara; assumption.
  - intros x. rewrite P. apply fermi_matsubara. exact HN.
Qed.
Print Assumptions C72_matsubara_error.
(** One hundred poles and [x = 1]: off by at most 1/200 *)
Example C72_matsubara_error_ex : exists xi eta, msd 100 1 = Ok (xi, eta, 0, 0) /\ Rabs (bose 1 - (1 / 1 + 1 / 2 + pole_sum xi eta 1)) <= 1 / 200.
Proof.
  destruct (C72_matsubara_error 100 ltac:(lia)) as ((xi & eta & E & _ & B) & _). exists xi, eta. split; [exact E|]. apply Rle_trans with (1 := B 1 ltac:(lra)). rewrite Rabs_R1. replace (INR 100) with 100 by (rewrite INR_IZR_INZ; reflexivity). lra.
Qed.

Theorem C72_arguments (eig : nat -> (nat -> nat -> R) -> list R) (N bf p : Z) : (p <> 3)%Z ->
  (psd eig N bf p = Raise AssertionError <-> ~ ((0 <= N)%Z /\ (bf = 1 \/ bf = 2)%Z /\ (0 <= p <= 2)%Z)) /\
  (forall e, psd eig N bf p = Raise e -> e = AssertionError).
Proof.
  intros Hp. unfold psd, msd.
  destruct (Z.leb_spec 0 N) as [HN|HN], (Z.eqb_spec bf 1) as [B1|B1], (Z.eqb_spec bf 2) as [B2|B2], (Z.eqb_spec p 0) as [P0|P0], (Z.eqb_spec p 1) as [P1|P1], (Z.eqb_spec p 2) as [P2|P2], (Z.eqb_spec p 3) as [P3|P3]; try lia; cbn [negb andb orb];
    repeat match goal with |- context [let '(_, _) := (if ?b then _ else _) in _] => destruct b end; (split; [split; intros HH; try discriminate; try reflexivity; try lia|intros e HH; try discriminate; try congruence]).
Qed.
Print Assumptions C72_arguments.

(** ** Examples *)
Definition small_sub (sub : list R) : list R := match sub with [] => [0] | [p] => [p; - p] | _ => [] end.
Lemma small_sub_finds a M : 0 < a -> (1 <= M <= 2)%nat -> finds_falling small_sub a M.
Proof.
  intros Ha HM sub L H. destruct M as [|[|[|M]]]; try lia.
  - destruct sub; [|discriminate]. split; [apply spectrum_1; reflexivity|]. intros i j Hij. cbn in Hij. lia.
  - destruct sub as [|p [|? ?]]; try discriminate. specialize (H 0%nat ltac:(lia)). cbn [nth] in H. assert (P : 0 < p). { rewrite H. cbn. apply Rdiv_lt_0_compat; [lra|]. apply sqrt_lt_R0. apply Rmult_lt_0_compat; lra. }
    cbn [small_sub]. rewrite H. split; [apply spectrum_2; reflexivity|]. intros i j Hij. cbn [length] in Hij. assert (i = 0%nat) as -> by lia. assert (j = 1%nat) as -> by lia. cbn [nth]. lra.
Qed.
(** One pole already gives [1 / (1 - 1/e)] with an error below 10^-5 ... *)
Example C72_pade_drude_ex : let (xi, eta) := pade small_sub 1 in
  xi = [2 / (1 / sqrt 15)] /\ eta = [5 / 2] /\ Rabs (bose 1 - (1 / 1 + 1 / 2 + 5 / 61)) <= / 100800.
Proof.
  assert (E : pade small_sub 1 = ([2 / (1 / sqrt 15)], [5 / 2])).
  { unfold pade, poles_of. cbn -[sqrt INR]. unfold residue. cbn -[sqrt INR]. replace (INR 15) with 15 by (cbn; lra). f_equal. f_equal. cbn. lra. }
  destruct (C72_pade_drude small_sub 1 (le_n 1) (small_sub_finds 3 2 ltac:(lra) ltac:(lia)) (small_sub_finds 5 1 ltac:(lra) ltac:(lia))) as (_ & B). rewrite E in *. split; [reflexivity|split; [reflexivity|]].
  specialize (B 1 ltac:(lra)). cbn [fst snd] in B. replace (pole_sum [2 / (1 / sqrt 15)] [5 / 2] 1) with (5 / 61) in B.
  2: { unfold pole_sum. cbn [length Rsum nth]. replace (2 / (1 / sqrt 15)) with (2 * sqrt 15) by (field; apply Rgt_not_eq, sqrt_lt_R0; lra). replace ((2 * sqrt 15) ^ 2) with (4 * (sqrt 15 * sqrt 15)) by ring. rewrite sqrt_sqrt by lra. lra. }
  replace (cut 3 (2 * 1) 1) with (/ 100800) in B; [exact B|]. unfold cut, odds. rewrite Rabs_R1. cbn. field.
Qed.
Example C72_pade_bose_ex : exists xi eta, psd small_eig 1 1 1 = Ok (xi, eta, 0, 0) /\ pole_list 1 xi eta /\ Rabs (bose 2 - (1 / 2 + 1 / 2 + pole_sum xi eta 2)) <= / 3150.
Proof.
  destruct (C72_pade_bose small_eig 1 (le_n 1) (small_finds 3 2 ltac:(lra) ltac:(lia)) (small_finds 5 1 ltac:(lra) ltac:(lia))) as (xi & eta & E & L & B). exists xi, eta. split; [exact E|split; [exact L|]].
  specialize (B 2 ltac:(lra)). replace (cut 3 (2 * 1) 2) with (/ 3150) in B; [exact B|]. unfold cut, odds. rewrite Rabs_right by lra. cbn. field.
Qed.
Example C72_pade_bose_2_ex : exists xi eta rn, psd small_eig 1 1 2 = Ok (xi, eta, rn, 0) /\ pole_list 1 xi eta /\ Rabs (bose 2 - (1 / 2 + 1 / 2 + rn * 2 + pole_sum xi eta 2)) <= / 198450.
Proof.
  destruct (C72_pade_bose_2 small_eig 1 (small_finds 3 3 ltac:(lra) ltac:(lia)) (small_finds 5 2 ltac:(lra) ltac:(lia))) as (xi & eta & rn & E & L & B). exists xi, eta, rn. split; [exact E|split; [exact L|]].
  specialize (B 2 ltac:(lra)). replace (cut 3 (2 * 1 + 1) 2) with (/ 198450) in B; [exact B|]. unfold cut, odds. rewrite Rabs_right by lra. cbn. field.
Qed.
Example C72_pade_fermi_ex : exists xi eta, psd small_eig 1 2 1 = Ok (xi, eta, 0, 0) /\ pole_list 1 xi eta /\ Rabs (fermi 2 - (1 / 2 - pole_sum xi eta 2)) <= / 90.
Proof.
  destruct (C72_pade_fermi small_eig 1 (le_n 1) (small_finds 1 2 ltac:(lra) ltac:(lia)) (small_finds 3 1 ltac:(lra) ltac:(lia))) as (xi & eta & E & L & B). exists xi, eta. split; [exact E|split; [exact L|]].
  specialize (B 2). replace (cut 1 (2 * 1) 2) with (/ 90) in B; [exact B|]. unfold cut, odds. rewrite Rabs_right by lra. cbn. field.
Qed.
Example C72_fermi_2_refuted_ex : exists xi eta, psd small_eig 1 2 2 = Ok (xi, eta, 0, 0) /\ length xi = 1%nat /\ exists x, 0 < x /\ Rabs (fermi x - (1 / 2 - pole_sum xi eta x)) > cut 1 3 x.
Proof.
  destruct (C72_fermi_2_refuted small_eig 1 (small_finds 1 3 ltac:(lra) ltac:(lia)) (small_finds 3 2 ltac:(lra) ltac:(lia))) as (xi & eta & rn & E & L & (x & P & B) & _). exists xi, eta.
  assert (rn = 0) as ->. { revert E. change (Z.of_nat 1) with 1%Z. unfold psd. cbn -[inverses resi_at INR]. intros E. congruence. }
  split; [exact E|]. split; [apply L|]. exists x. split; [exact P|]. rewrite Rmult_0_l, Rplus_0_l in B. exact B.
Qed.
Example C72_pade_converges_ex : finds_falling small_sub 3 (2 * 1) /\ finds_falling small_sub 5 (2 * 1 - 1) /\ finds small_eig 1 (2 * 1) /\ finds small_eig 3 (2 * 1 - 1).
Proof. split; [apply small_sub_finds; [lra|lia]|split; [apply small_sub_finds; [lra|lia]|split; apply small_finds; (lra || lia)]]. Qed.
Example C72_matsubara_ex : exists xi eta, psd small_eig 2 2 0 = Ok (xi, eta, 0, 0) /\ In (3 * PI) xi /\ ~ In (2 * PI) xi.
Proof.
  destruct (C72_matsubara small_eig 2 2 (-1) (or_intror (conj eq_refl eq_refl))) as (xi & eta & E & _ & _ & _ & _ & H). exists xi, eta. split; [exact E|]. pose proof PI_RGT_0. cbn [INR] in H. split.
  - apply H; [lra|]. replace (3 * PI) with (PI + 2 * INR 1 * PI) by (cbn; ring). split; [rewrite cos_period; apply cos_PI|rewrite sin_period; apply sin_PI].
  - intros I. apply H in I; [|lra]. destruct I as (C & _). rewrite cos_2PI in C. lra.
Qed.
Example C72_arguments_ex : psd small_eig 2 3 1 = Raise AssertionError /\ psd small_eig (-1) 1 1 = Raise AssertionError /\ psd small_eig 2 1 4 = Raise AssertionError.
Proof. repeat split. Qed.
