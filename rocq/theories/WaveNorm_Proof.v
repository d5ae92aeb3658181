(** Norm, reversal and scaling of the split steps; the two exponentials. *)
From Coq Require Import List Arith Bool Lia Reals Lra ZArith.
From Verif Require Import Py Alg Cplx ListX NdArray_Model Grid_Model Grid_Spec Grid_Proof Wave_Model Wave_Spec Wave_Proof.
Import ListNotations.
Notation length := Datatypes.length.
Local Open Scope nat_scope.
Local Open Scope star_scope.
Add Ring Cwn : (r_theory C_star).

Notation agree s n psi phi := (forall a k, a < s -> k < n -> psi a k = phi a k).
(** ** Isometries *)
Lemma sum_delta n (f : nat -> C_star) b : b < n -> sumn n (fun c => f c * delta c b) = f b.
Proof. intros H. rewrite <- (sumn_delta C_star n b f H). apply sumn_ext. intros. ring. Qed.
Lemma iso_norm s M (x : nat -> C_star) : isometry s M -> sumn s (fun a => rconj (sumn s (fun b => M a b * x b)) * sumn s (fun b => M a b * x b)) = sumn s (fun b => rconj (x b) * x b).
Proof.
  intros H. transitivity (sumn s (fun a => sumn s (fun b => sumn s (fun c => rconj (x b) * x c * (rconj (M a b) * M a c))))).
  - apply sumn_ext. intros a _. rewrite rconj_sumn, <- sumn_scal_r. apply sumn_ext. intros b _. rewrite <- sumn_scal_l. apply sumn_ext. intros c _. rewrite rconj_mul. ring.
  - rewrite sumn_swap. apply sumn_ext. intros b Hb. rewrite sumn_swap. transitivity (sumn s (fun c => rconj (x b) * x c * delta c b)).
    + apply sumn_ext. intros c Hc. rewrite sumn_scal_l. rewrite (H b c Hb Hc). f_equal. unfold delta. rewrite Nat.eqb_sym. reflexivity.
    + rewrite (sum_delta s (fun c => rconj (x b) * x c)) by auto. reflexivity.
Qed.
Lemma total_at_points s n M psi : (forall k, k < n -> isometry s (M k)) -> total s n (at_points s M psi) = total s n psi.
Proof.
  intros H. unfold total. rewrite sumn_swap. rewrite (sumn_swap C_star s n). apply sumn_ext. intros k Hk. unfold at_points. apply (iso_norm s (M k) (fun b => psi b k)). auto.
Qed.
Lemma total_ext s n psi phi : agree s n psi phi -> total s n psi = total s n phi.
Proof. intros H. unfold total. apply sumn_ext. intros a Ha. apply sumn_ext. intros k Hk. rewrite H by auto. reflexivity. Qed.
Lemma total_centred sg s n psi : (sg = 1 \/ sg = -1)%Z -> total s n (fun a k => centred sg n (psi a) k) = RtoC (INR n) * total s n psi.
Proof. intros H. unfold total. rewrite <- sumn_scal_l. apply sumn_ext. intros a _. apply centred_norm. exact H. Qed.
Lemma total_scale s n c psi : total s n (fun a k => c * psi a k) = rconj c * c * total s n psi.
Proof. unfold total. rewrite <- sumn_scal_l. apply sumn_ext. intros a _. rewrite <- sumn_scal_l. apply sumn_ext. intros k _. rewrite rconj_mul. ring. Qed.
Lemma sign_cases k : (ft_sign k = 1 \/ ft_sign k = -1)%Z.
Proof. destruct k; cbn; auto. Qed.
Section Steps.
Variables (kd : kind) (s n : nat).
Hypothesis Hn : 0 < n.
Notation sg := (ft_sign kd).
Notation step := (split_step sg s n). Notation steps := (split_steps sg s n).
Lemma n0 : INR n <> 0%R. Proof. apply not_0_INR. lia. Qed.
Lemma inv_n : RtoC (/ INR n) * RtoC (INR n) = 1.
Proof. rewrite <- RtoC_mul. rewrite Rinv_l by apply n0. reflexivity. Qed.
Lemma step_total P Q psi : (forall k, k < n -> isometry s (P k)) -> (forall k, k < n -> isometry s (Q k)) -> total s n (step P Q psi) = total s n psi.
Proof.
  intros HP HQ. unfold split_step. rewrite total_at_points by auto. rewrite total_scale. rewrite (total_centred (- sg)) by (destruct (sign_cases kd); lia). rewrite total_at_points by auto. rewrite (total_centred sg) by apply sign_cases. rewrite total_at_points by auto.
  rewrite RtoC_conj. transitivity ((RtoC (/ INR n) * RtoC (INR n)) * (RtoC (/ INR n) * RtoC (INR n)) * total s n psi); [ring|]. rewrite inv_n. ring.
Qed.
Lemma steps_total P Q k psi : (forall m k, k < n -> isometry s (P m k)) -> (forall m k, k < n -> isometry s (Q m k)) -> total s n (steps P Q k psi) = total s n psi.
Proof. intros HP HQ. induction k as [|k IH]; [reflexivity|]. cbn [split_steps]. rewrite step_total by auto. exact IH. Qed.
Lemma step_ext P Q psi phi : agree s n psi phi -> agree s n (step P Q psi) (step P Q phi).
Proof.
  intros H a k Ha Hk. unfold split_step. apply at_points_ext. intros b Hb. cbv beta. f_equal. apply centred_ext. intros l Hl. apply at_points_ext. intros c Hc. apply centred_ext. intros m Hm. apply at_points_ext. intros d Hd. apply H; auto.
Qed.
Lemma steps_ext P Q k psi phi : agree s n psi phi -> agree s n (steps P Q k psi) (steps P Q k phi).
Proof. intros H. induction k as [|k IH]; [exact H|]. cbn [split_steps]. apply step_ext. exact IH. Qed.
Lemma step_scale P Q c psi : agree s n (step P Q (fun a k => c * psi a k)) (fun a k => c * step P Q psi a k).
Proof.
  intros a k Ha Hk. unfold split_step. rewrite <- at_points_scale. apply at_points_ext. intros b Hb. cbv beta.
  rewrite (centred_ext _ _ _ (fun l => c * at_points s Q (fun d l => centred sg n (at_points s P psi d) l) b l)).
  - rewrite centred_scale. ring.
  - intros l Hl. rewrite <- at_points_scale. apply at_points_ext. intros d Hd. rewrite <- centred_scale. apply centred_ext. intros m Hm. apply at_points_scale.
Qed.
Lemma centred_back f k : k < n -> centred sg n (fun m => RtoC (/ INR n) * centred (- sg) n f m) k = f k.
Proof.
  intros Hk. rewrite centred_scale. transitivity (RtoC (/ INR n) * (RtoC (INR n) * f k)); [|transitivity (RtoC (/ INR n) * RtoC (INR n) * f k); [ring|rewrite inv_n; ring]].
  f_equal. destruct kd; cbn [ft_sign Z.opp]; [apply centred_inverse'|apply centred_inverse]; exact Hk.
Qed.
Lemma centred_forth f k : k < n -> RtoC (/ INR n) * centred (- sg) n (fun m => centred sg n f m) k = f k.
Proof.
  intros Hk. transitivity (RtoC (/ INR n) * (RtoC (INR n) * f k)); [|transitivity (RtoC (/ INR n) * RtoC (INR n) * f k); [ring|rewrite inv_n; ring]].
  f_equal. destruct kd; cbn [ft_sign Z.opp]; [apply centred_inverse|apply centred_inverse']; exact Hk.
Qed.
(** Matrices that undo one another at every point *)
Definition undoes (P' P : nat -> nat -> nat -> C_star) : Prop := forall k a b, k < n -> a < s -> b < s -> sumn s (fun c => P' k a c * P k c b) = delta a b.
Lemma undo_points P' P psi a k : undoes P' P -> a < s -> k < n -> at_points s P' (at_points s P psi) a k = psi a k.
Proof.
  intros H Ha Hk. unfold at_points. transitivity (sumn s (fun c => psi c k * delta c a)); [|rewrite (sum_delta s (fun c => psi c k)) by auto; reflexivity].
  transitivity (sumn s (fun b => sumn s (fun c => P' k a b * P k b c * psi c k))).
  - apply sumn_ext. intros b _. rewrite <- sumn_scal_l. apply sumn_ext. intros. ring.
  - rewrite sumn_swap. apply sumn_ext. intros c Hc. rewrite sumn_scal_r, (H k a c Hk Ha Hc). unfold delta. rewrite Nat.eqb_sym. ring.
Qed.
Lemma step_undo P Q P' Q' psi : undoes P' P -> undoes Q' Q -> agree s n (step P' Q' (step P Q psi)) psi.
Proof.
  intros HP HQ a k Ha Hk. rewrite <- (undo_points P' P psi a k HP Ha Hk). unfold split_step at 1. apply at_points_ext. intros b Hb. cbv beta.
  rewrite (centred_ext _ _ _ (fun l => centred sg n (at_points s P psi b) l)); [apply centred_forth; exact Hk|].
  intros l Hl. rewrite <- (undo_points Q' Q (fun c l => centred sg n (at_points s P psi c) l) b l HQ Hb Hl). apply at_points_ext. intros c Hc.
  rewrite <- (centred_back (at_points s Q (fun c0 l0 => centred sg n (at_points s P psi c0) l0) c) l Hl). apply centred_ext. intros m Hm. unfold split_step. rewrite (undo_points P' P) by auto. reflexivity.
Qed.
Lemma steps_const P Q k psi : agree s n (steps (fun _ => P) (fun _ => Q) (S k) psi) (steps (fun _ => P) (fun _ => Q) k (step P Q psi)).
Proof. induction k as [|k IH]; [reflexivity|]. intros a m Ha Hm. change (steps (fun _ => P) (fun _ => Q) (S (S k)) psi) with (step P Q (steps (fun _ => P) (fun _ => Q) (S k) psi)). cbn [split_steps]. apply step_ext; auto. Qed.
Lemma steps_undo P Q P' Q' k psi : undoes P' P -> undoes Q' Q -> agree s n (steps (fun _ => P') (fun _ => Q') k (steps (fun _ => P) (fun _ => Q) k psi)) psi.
Proof.
  intros HP HQ. induction k as [|k IH]; [reflexivity|]. intros a m Ha Hm. rewrite steps_const by auto. rewrite <- IH by auto. apply steps_ext; auto. intros b l Hb Hl. cbn [split_steps]. apply step_undo; auto.
Qed.
Lemma steps_scale P Q k c psi : agree s n (steps P Q k (fun a m => c * psi a m)) (fun a m => c * steps P Q k psi a m).
Proof. induction k as [|k IH]; [reflexivity|]. intros a m Ha Hm. cbn [split_steps]. rewrite <- step_scale by auto. apply step_ext; auto. Qed.
End Steps.

(** ** The exponentials *)
Definition one_exp (c z : C_star) (a b : nat) : C_star := Cexp (c * z).
Lemma nth_map_combine {A B D} (f : A * B -> D) l l' k a b d : length l' = length l -> k < length l -> nth k (map f (combine l l')) d = f (nth k l a, nth k l' b).
Proof. intros E H. rewrite (nth_indep _ d (f (a, b))) by (rewrite map_length, combine_length, E; lia). rewrite map_nth, combine_nth by auto. reflexivity. Qed.
Lemma exp_one_acts : acts true 1 exp_one one_exp (fun _ => True).
Proof.
  intros c v xs f psi _ (w & E & F & G). destruct w as [ys|yss]; [|destruct F; discriminate]. destruct F as (_ & _ & L). unfold sampled, exp_one. rewrite E. cbn [bind]. rewrite L, Nat.eqb_refl. eexists. split; [reflexivity|]. split.
  - cbn [fits]. repeat split. rewrite map_length, combine_length, L. lia.
  - intros a k Ha Hk. cbn [val]. rewrite (nth_map_combine _ xs ys k 0%R 0) by auto. cbn [fst snd]. unfold at_points, one_exp. rewrite sumn_S, sumn_0. assert (a = 0%nat) by lia. subst a. rewrite <- (G 0%nat k) by auto. cbn [val]. ring.
Qed.
Lemma phase_unit (r x : R) : rconj (Cexp ((im r) * RtoC x)) * Cexp ((im r) * RtoC x) = 1.
Proof. rewrite <- Cexp_conj, <- Cexp_add. rewrite <- Cexp_0. f_equal. apply Ceq; cbn; ring. Qed.
Lemma one_exp_iso r x : isometry 1 (one_exp (im r) (RtoC x)).
Proof. intros a b Ha Hb. rewrite sumn_S, sumn_0. unfold one_exp. rewrite phase_unit. assert (a = 0%nat) by lia. assert (b = 0%nat) by lia. subst. unfold delta. rewrite Nat.eqb_refl. ring. Qed.
Definition many_exp (eigh : arr C_star -> list R * arr C_star) (s : nat) (c : C_star) (A : arr C_star) (a b : nat) : C_star :=
  sumn s (fun e => get (snd (eigh A)) [a; e] * Cexp (c * RtoC (nth e (fst (eigh A)) 0%R)) * rconj (get (snd (eigh A)) [b; e])).
Lemma rotate_many eigh s c A vec i : rotate c (fst (eigh A)) (snd (eigh A)) s vec i = sumn s (fun b => many_exp eigh s c A i b * vec b).
Proof.
  unfold rotate, many_exp. transitivity (sumn s (fun e => sumn s (fun b => get (snd (eigh A)) [i; e] * Cexp (c * RtoC (nth e (fst (eigh A)) 0%R)) * rconj (get (snd (eigh A)) [b; e]) * vec b))).
  - apply sumn_ext. intros e _. transitivity (get (snd (eigh A)) [i; e] * Cexp (c * RtoC (nth e (fst (eigh A)) 0%R)) * sumn s (fun j => rconj (get (snd (eigh A)) [j; e]) * vec j)); [ring|]. rewrite <- sumn_scal_l. apply sumn_ext. intros. ring.
  - rewrite sumn_swap. apply sumn_ext. intros b _. rewrite sumn_scal_r. reflexivity.
Qed.
Lemma nth_map_seq {A} (f : nat -> A) n k d : k < n -> nth k (map f (seq 0 n)) d = f k.
Proof. intros H. rewrite (nth_indep _ d (f 0%nat)) by (rewrite map_length, seq_length; auto). rewrite map_nth, seq_nth by auto. reflexivity. Qed.
Lemma exp_many_acts eigh s : acts false s (exp_many eigh) (many_exp eigh s) (fun A => shape A = [s; s]).
Proof.
  intros c v xs f psi HV (w & E & F & G). destruct w as [ys|yss]; [destruct F; discriminate|]. destruct F as (_ & Ls & L). unfold sampled, exp_many. rewrite E. cbn [bind]. rewrite Ls.
  assert (B1 : forallb (fun ys : list C_star => (length ys =? length xs)%nat) yss = true) by (apply forallb_forall; intros ys I; rewrite Forall_forall in L; apply Nat.eqb_eq; auto).
  assert (B2 : forallb (fun x => if list_eq_dec Nat.eq_dec (shape (v x)) [s; s] then true else false) xs = true).
  { apply forallb_forall. intros x I. destruct (list_eq_dec _ _ _) as [_|N]; [reflexivity|]. destruct N. apply HV. exact I. }
  rewrite B1, B2. cbn [andb]. eexists. split; [reflexivity|]. split.
  - cbn [fits]. split; [reflexivity|]. split; [rewrite map_length; apply seq_length|]. apply Forall_forall. intros u I. apply in_map_iff in I. destruct I as (a & <- & _). rewrite map_length. apply seq_length.
  - intros a k Ha Hk. cbn [val]. rewrite nth_map_seq by auto. rewrite nth_map_seq by auto. cbv zeta. rewrite rotate_many. unfold at_points. apply sumn_ext. intros b Hb. f_equal. apply (G b k Hb Hk).
Qed.
Section Eigen.
Variables (s : nat) (l : list R) (U : nat -> nat -> C_star).
Hypothesis H1 : forall i j, i < s -> j < s -> sumn s (fun k => rconj (U k i) * U k j) = delta i j.
Hypothesis H2 : forall i j, i < s -> j < s -> sumn s (fun k => U i k * rconj (U j k)) = delta i j.
Notation E c := (fun a b => sumn s (fun e => U a e * Cexp (c * RtoC (nth e l 0%R)) * rconj (U b e))).
Lemma exp_product c d a b : a < s -> b < s -> sumn s (fun m => E c a m * E d m b) = E (c + d) a b.
Proof.
  intros Ha Hb. cbv beta. transitivity (sumn s (fun m => sumn s (fun e => sumn s (fun g => U a e * Cexp (c * RtoC (nth e l 0%R)) * (U m g * rconj (U m e)) * (Cexp (d * RtoC (nth g l 0%R)) * rconj (U b g)))))).
  - apply sumn_ext. intros m _. rewrite <- sumn_scal_r. apply sumn_ext. intros e _. rewrite <- sumn_scal_l. apply sumn_ext. intros. ring.
  - rewrite sumn_swap. apply sumn_ext. intros e He. rewrite sumn_swap. transitivity (sumn s (fun g => U a e * Cexp (c * RtoC (nth e l 0%R)) * (Cexp (d * RtoC (nth g l 0%R)) * rconj (U b g)) * delta g e)).
    + apply sumn_ext. intros g Hg. replace (delta g e) with (delta e g : C_star) by (unfold delta; now rewrite Nat.eqb_sym). rewrite <- (H1 e g He Hg), <- sumn_scal_l. apply sumn_ext. intros. ring.
    + rewrite (sum_delta s (fun g => U a e * Cexp (c * RtoC (nth e l 0%R)) * (Cexp (d * RtoC (nth g l 0%R)) * rconj (U b g)))) by auto. replace ((c + d) * RtoC (nth e l 0%R)) with (c * RtoC (nth e l 0%R) + d * RtoC (nth e l 0%R)) by ring. rewrite Cexp_add. ring.
Qed.
Lemma exp_zero a b : a < s -> b < s -> E 0 a b = delta a b.
Proof. intros Ha Hb. rewrite <- (H2 a b Ha Hb). apply sumn_ext. intros e _. replace (0 * RtoC (nth e l 0%R)) with (0 : C_star) by ring. rewrite Cexp_0. ring. Qed.
Lemma exp_conj c a b : rconj (E c a b) = E (rconj c) b a.
Proof. cbv beta. rewrite rconj_sumn. apply sumn_ext. intros e _. rewrite !rconj_mul, rconj_invol, <- Cexp_conj, rconj_mul, RtoC_conj. ring. Qed.
Lemma exp_iso r : isometry s (E (im r)).
Proof.
  intros a b Ha Hb. rewrite <- (exp_zero a b Ha Hb). replace (0 : C_star) with (rconj (im r) + (im r)) by (apply Ceq; cbn; ring). rewrite <- (exp_product _ _ a b Ha Hb). apply sumn_ext. intros m _. rewrite <- exp_conj. reflexivity.
Qed.
End Eigen.
