(** Properties C42 and C59: bath correlation functions. *)
From Coq Require Import List Arith ZArith Lia Reals Lra.
From Verif Require Import Py Alg Cplx Corr_Model Corr_Spec Corr_Proof Heom_Model NdArray_Model.
Import ListNotations.
Local Open Scope Z_scope.

(** ** C42 *)

(** Drude, for any decomposition with as many poles and residues as asked for; Matsubara and
    Pade are two of these. *)
Theorem C42_drude gamma lambda k beta decomp :
  (forall n, length (fst (decomp n)) = n /\ length (snd (decomp n)) = n) ->
  (k < 0 -> drude gamma lambda k beta decomp = Raise AssertionError) /\
  (0 <= k -> exists c cc g, drude gamma lambda k beta decomp = Ok (mkCorr (Some k) beta (Some c) (Some cc) (Some g)) /\
     conjugate_data c cc g /\ Z.of_nat (length c) = k).
Proof. intros H. split; [apply drude_negative|]. intros Hk. apply drude_ok; auto. Qed.
Print Assumptions C42_drude.
Theorem C42_decompositions eig n : (forall l, length (eig l) = S (length l)) ->
  (length (fst (matsubara n)) = n /\ length (snd (matsubara n)) = n) /\ (length (fst (pade eig n)) = n /\ length (snd (pade eig n)) = n).
Proof. intros H. split; [apply matsubara_sizes|apply pade_sizes; auto]. Qed.
Print Assumptions C42_decompositions.

(** Brownian: the data are consistent, but the attribute [k_max] is the number of exponents
    only if the argument is 0. *)
Theorem C42_brownian lambda omega gamma k beta : (gamma ^ 2 < omega ^ 2)%R ->
  exists c cc g, brownian lambda omega gamma k beta = mkCorr (Some (k + 2)) beta (Some c) (Some cc) (Some g) /\
    conjugate_data c cc g /\ Z.of_nat (length c) = match beta with None => 2 | Some _ => Z.max 2 (k + 1) end /\
    (k + 2 = Z.of_nat (length c) <-> k = 0).
Proof.
  intros _. destruct (brownian_ok lambda omega gamma k beta) as (c & cc & g & E & H & L). exists c, cc, g. split; [exact E|]. split; [exact H|]. split; [exact L|].
  rewrite L. destruct beta; lia.
Qed.
Print Assumptions C42_brownian.

(** Discrete modes with an optional bath: the function is the sum of those of the modes and
    of the bath. *)
Theorem C42_modes ph bath beta c cc g :
  match bath with None => c = [] /\ cc = [] /\ g = [] | Some b => c_coeff b = Some c /\ c_conj_coeff b = Some cc /\ c_derivative b = Some g end ->
  conjugate_data c cc g ->
  exists c' cc' g', generate_BCF ph bath beta = Ok (mkCorr (Some (Z.of_nat (length c'))) beta (Some c') (Some cc') (Some g')) /\
    conjugate_data c' cc' g' /\ length c' = (2 * length ph + length c)%nat /\
    forall t, exp_sum c' g' t = radd (sumL ph (fun p => mode_function (temp_factor beta (fst p)) (fst p) (snd p) t)) (exp_sum c g t).
Proof. apply bcf_ok. Qed.
Print Assumptions C42_modes.

(** The generator of hierachy.py needs [k_max] exponents: it exists for Drude and raises
    IndexError for Brownian with [k_max >= 1]. *)
Theorem C42_generator_drude gamma lambda k beta decomp K im sq dims (h op : arr K) (f : C_star -> K) scale iscale :
  (forall n, length (fst (decomp n)) = n /\ length (snd (decomp n)) = n) -> 0 <= k -> Z.of_nat (length dims) = k ->
  exists c cc g l, drude gamma lambda k beta decomp = Ok (mkCorr (Some k) beta (Some c) (Some cc) (Some g)) /\
    diff3 K im sq dims h op (map f g) (map f c) (map f cc) scale iscale = Ok l.
Proof.
  intros Hd Hk Hl. destruct (drude_ok gamma lambda k beta decomp Hk Hd) as (c & cc & g & E & (L1 & L2 & _) & L). exists c, cc, g.
  destruct (diff3_defined K im sq dims h op (map f g) (map f c) (map f cc) scale iscale) as (l & El); rewrite ?map_length; try lia. exists l. auto.
Qed.
Print Assumptions C42_generator_drude.
Theorem C42_generator_brownian_refuted lambda omega gamma k beta K im sq dims (h op : arr K) (f : C_star -> K) scale iscale :
  (gamma ^ 2 < omega ^ 2)%R -> 1 <= k -> Z.of_nat (length dims) = k + 2 ->
  exists c cc g, brownian lambda omega gamma k beta = mkCorr (Some (k + 2)) beta (Some c) (Some cc) (Some g) /\
    diff3 K im sq dims h op (map f g) (map f c) (map f cc) scale iscale = Raise IndexError.
Proof.
  intros _ Hk Hl. destruct (brownian_ok lambda omega gamma k beta) as (c & cc & g & E & (L1 & L2 & _) & L). exists c, cc, g. split; [exact E|].
  apply diff3_raises; rewrite ?map_length; try lia. destruct beta; lia.
Qed.
Print Assumptions C42_generator_brownian_refuted.

(** ** C59: the Drude classes of corr.py (Matsubara) and noise.py *)

(** The first exponent and its coefficient agree. *)
Theorem C59_first_term lambda gamma beta : sin (beta * gamma / 2) <> 0%R -> cos (beta * gamma / 2) <> 0%R -> forall k, 1 <= k ->
  exists c cc g, drude gamma lambda k (Some beta) matsubara = Ok (mkCorr (Some k) (Some beta) (Some c) (Some cc) (Some g)) /\
    nth 0 c r0 = noise_coeff lambda gamma beta 0 /\ nth 0 g r0 = RtoC (- noise_exp gamma beta 0).
Proof.
  intros Hs Hc k Hk. unfold drude. rewrite (proj2 (Z.ltb_ge k 0)) by lia. rewrite (proj2 (Z.eqb_neq k 0)) by lia.
  destruct (matsubara (Z.to_nat (k - 1))) as [ps rs]. do 3 eexists. split; [reflexivity|]. cbn [fst snd nth]. split; [apply first_term; auto|reflexivity].
Qed.
Print Assumptions C59_first_term.
(** The other exponents agree, the coefficients differ unless they vanish. *)
Theorem C59_later_terms_refuted lambda gamma beta k i : beta <> 0%R -> (1 <= i < Z.to_nat k)%nat ->
  (gamma ^ 2 <> (2 * INR i * PI / beta) ^ 2)%R ->
  exists c cc g, drude gamma lambda k (Some beta) matsubara = Ok (mkCorr (Some k) (Some beta) (Some c) (Some cc) (Some g)) /\
    nth i g r0 = RtoC (- noise_exp gamma beta i) /\
    (nth i c r0 = noise_coeff lambda gamma beta i <-> lambda = 0%R \/ gamma = 0%R).
Proof.
  intros Hb Hi Hv. unfold drude. rewrite (proj2 (Z.ltb_ge k 0)) by lia. rewrite (proj2 (Z.eqb_neq k 0)) by lia.
  unfold matsubara. do 3 eexists. split; [reflexivity|]. cbn [fst snd]. destruct i as [|i]; [lia|]. cbn [nth].
  set (n := Z.to_nat (k - 1)). assert (Hn : (i < n)%nat) by (unfold n; lia).
  assert (E : forall {B} (f : R * R -> B) (b : B), nth i (map f (combine (map (fun i => (2 * (INR i + 1) * PI)%R) (seq 0 n)) (repeat 1%R n))) b = f ((2 * (INR i + 1) * PI)%R, 1%R)).
  { intros B f b. rewrite (nth_indep _ b (f (0%R, 1%R))) by (rewrite map_length, combine_length, map_length, seq_length, repeat_length; lia). rewrite map_nth, combine_nth by (rewrite map_length, seq_length, repeat_length; reflexivity). do 2 f_equal.
    - set (h := fun i => (2 * (INR i + 1) * PI)%R). rewrite (nth_indep _ _ (h 0%nat)) by (rewrite map_length, seq_length; auto). rewrite map_nth, seq_nth by auto. reflexivity.
    - apply nth_repeat. }
  rewrite !E. cbn [fst snd]. split.
  - f_equal. unfold noise_exp. rewrite S_INR. field. auto.
  - apply later_terms; auto. rewrite S_INR in Hv. exact Hv.
Qed.
Print Assumptions C59_later_terms_refuted.

(** ** Examples *)
Example C42_drude_ex : exists c cc g, drude 2 3 4 (Some 1%R) matsubara = Ok (mkCorr (Some 4) (Some 1%R) (Some c) (Some cc) (Some g)) /\ conjugate_data c cc g /\ length c = 4%nat.
Proof.
  destruct (proj2 (C42_drude 2 3 4 (Some 1%R) matsubara matsubara_sizes)) as (c & cc & g & E & H & L); [lia|]. exists c, cc, g. split; [exact E|]. split; [exact H|lia].
Qed.
Example C42_drude_ex2 : drude 2 3 (-1) None matsubara = Raise AssertionError.
Proof. apply (proj1 (C42_drude 2 3 (-1) None matsubara matsubara_sizes)). lia. Qed.
Example C42_decompositions_ex : length (snd (pade (fun l => map (fun x => x) (1%R :: l)) 3)) = 3%nat.
Proof. apply (C42_decompositions (fun l => map (fun x => x) (1%R :: l)) 3). intros l. rewrite map_length. reflexivity. Qed.
Example C42_brownian_ex : exists c cc g, brownian 1 2 1 3 (Some 1%R) = mkCorr (Some 5) (Some 1%R) (Some c) (Some cc) (Some g) /\ conjugate_data c cc g /\ length c = 4%nat.
Proof. destruct (C42_brownian 1 2 1 3 (Some 1%R)) as (c & cc & g & E & H & L & _); [lra|]. exists c, cc, g. split; [exact E|]. split; [exact H|lia]. Qed.
Example C42_modes_ex : exists c cc g, generate_BCF [(1, 2); (3, 4)]%R (Some (brownian 1 2 1 3 (Some 1%R))) (Some 1%R) = Ok (mkCorr (Some 8) (Some 1%R) (Some c) (Some cc) (Some g)) /\ conjugate_data c cc g.
Proof.
  destruct C42_brownian_ex as (c & cc & g & E & H & L). rewrite E.
  destruct (C42_modes [(1, 2); (3, 4)]%R (Some (mkCorr (Some 5) (Some 1%R) (Some c) (Some cc) (Some g))) (Some 1%R) c cc g) as (c' & cc' & g' & E' & H' & L' & _); [repeat split|exact H|].
  exists c', cc', g'. rewrite E'. cbn [length] in L'. rewrite L', L. split; [reflexivity|exact H'].
Qed.
Example C42_modes_none_ex : generate_BCF [(1, 2)]%R (Some (mkCorr None None None None None)) None = Raise TypeError.
Proof. reflexivity. Qed.
Example C42_generator_drude_ex : exists c cc g l, drude 2 3 2 (Some 1%R) matsubara = Ok (mkCorr (Some 2) (Some 1%R) (Some c) (Some cc) (Some g)) /\
  diff3 C_star C_i (fun n => RtoC (sqrt (INR n))) [3; 4]%nat (eye 2 2) (eye 2 2) (map (fun x => x) g) (map (fun x => x) c) (map (fun x => x) cc) r1 r1 = Ok l.
Proof. apply (C42_generator_drude 2 3 2 (Some 1%R) matsubara C_star C_i (fun n => RtoC (sqrt (INR n))) [3; 4]%nat (eye 2 2) (eye 2 2) (fun x => x) r1 r1 matsubara_sizes); [lia|reflexivity]. Qed.
Example C42_generator_brownian_refuted_ex : exists c cc g, brownian 1 2 1 1 None = mkCorr (Some 3) None (Some c) (Some cc) (Some g) /\
  diff3 C_star C_i (fun n => RtoC (sqrt (INR n))) [3; 4; 2]%nat (eye 2 2) (eye 2 2) (map (fun x => x) g) (map (fun x => x) c) (map (fun x => x) cc) r1 r1 = Raise IndexError.
Proof. apply (C42_generator_brownian_refuted 1 2 1 1 None C_star C_i (fun n => RtoC (sqrt (INR n))) [3; 4; 2]%nat (eye 2 2) (eye 2 2) (fun x => x) r1 r1); [lra|lia|reflexivity]. Qed.
(** beta gamma / 2 = pi / 4 *)
Lemma sc_pi4 : sin (1 * (PI / 2) / 2) <> 0%R /\ cos (1 * (PI / 2) / 2) <> 0%R.
Proof.
  replace (1 * (PI / 2) / 2)%R with (PI / 4)%R by field. rewrite sin_PI4, cos_PI4. assert (0 < 1 / sqrt 2)%R; [|split; lra].
  apply Rdiv_lt_0_compat; [lra|apply sqrt_lt_R0; lra].
Qed.
Example C59_first_term_ex : exists c cc g, drude (PI / 2) 3 2 (Some 1%R) matsubara = Ok (mkCorr (Some 2) (Some 1%R) (Some c) (Some cc) (Some g)) /\
  nth 0 c r0 = noise_coeff 3 (PI / 2) 1 0 /\ nth 0 g r0 = RtoC (- noise_exp (PI / 2) 1 0).
Proof. apply C59_first_term; [apply sc_pi4|apply sc_pi4|lia]. Qed.
Example C59_later_terms_refuted_ex : exists c cc g, drude (PI / 2) 3 2 (Some 1%R) matsubara = Ok (mkCorr (Some 2) (Some 1%R) (Some c) (Some cc) (Some g)) /\
  nth 1 c r0 <> noise_coeff 3 (PI / 2) 1 1.
Proof.
  pose proof PI_RGT_0. destruct (C59_later_terms_refuted 3 (PI / 2) 1 2 1) as (c & cc & g & E & _ & H1); [lra|lia| |].
  - intros E. assert (X : (PI ^ 2 * (15 / 4) = 0)%R) by (cbn [INR] in E; lra). apply Rmult_integral in X as [X|X]; [|lra]. apply pow_nonzero in X; auto. lra.
  - exists c, cc, g. split; [exact E|]. intros Z. apply H1 in Z. lra.
Qed.
