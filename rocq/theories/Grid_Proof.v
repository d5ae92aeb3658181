(** Proofs about grids and Fourier transforms. *)
From Coq Require Import List Arith Bool Lia Reals Lra ZArith.
From Verif Require Import Py Alg Cplx ListX Grid_Model Grid_Spec.
Import ListNotations.
Local Open Scope star_scope.
Add Ring Cgr : (r_theory C_star).

(** ** Roots of one *)
Lemma turn_add n a b : turn n (a + b) = turn n a * turn n b.
Proof.
  unfold turn. replace (2 * PI * IZR (a + b) / INR n)%R with (2 * PI * IZR a / INR n + 2 * PI * IZR b / INR n)%R by (rewrite plus_IZR; unfold Rdiv; ring).
  apply Ceq; cbn; [rewrite cos_plus|rewrite sin_plus]; ring.
Qed.
Lemma turn_0 n : turn n 0 = 1.
Proof. unfold turn. replace (2 * PI * IZR 0 / INR n)%R with 0%R by (unfold Rdiv; ring). rewrite cos_0, sin_0. reflexivity. Qed.
Lemma turn_conj n a : rconj (turn n a) = turn n (- a).
Proof. unfold turn. replace (2 * PI * IZR (- a) / INR n)%R with (- (2 * PI * IZR a / INR n))%R by (rewrite opp_IZR; unfold Rdiv; ring). rewrite cos_neg, sin_neg. reflexivity. Qed.
Lemma turn_full n q : (0 < n)%nat -> turn n (Z.of_nat n * q) = 1.
Proof.
  intros H. assert (N0 : INR n <> 0%R) by (apply not_0_INR; lia).
  assert (P : forall k, turn n (Z.of_nat n * Z.of_nat k) = 1).
  { intros k. unfold turn. replace (2 * PI * IZR (Z.of_nat n * Z.of_nat k) / INR n)%R with (0 + 2 * INR k * PI)%R by (rewrite mult_IZR, <- !INR_IZR_INZ; field; auto). rewrite cos_period, sin_period, cos_0, sin_0. reflexivity. }
  destruct (Z.le_gt_cases 0 q) as [Hq|Hq]; [rewrite <- (Z2Nat.id q) by auto; apply P|].
  replace (Z.of_nat n * q)%Z with (- (Z.of_nat n * Z.of_nat (Z.to_nat (- q))))%Z by (rewrite Z2Nat.id by lia; ring). rewrite <- turn_conj, P, rconj_1. reflexivity.
Qed.
Lemma turn_cong n a b q : (0 < n)%nat -> a = (b + Z.of_nat n * q)%Z -> turn n a = turn n b.
Proof. intros H ->. rewrite turn_add, turn_full by auto. ring. Qed.
Lemma turn_ne n d : (0 < Z.abs d < Z.of_nat n)%Z -> turn n d - 1 <> 0.
Proof.
  assert (P : forall d, (0 < d < Z.of_nat n)%Z -> turn n d - 1 <> 0).
  { intros e He E. apply (f_equal fst) in E. cbn in E. assert (N0 : (0 < INR n)%R) by (apply lt_0_INR; lia).
    replace (2 * PI * IZR e / INR n)%R with (2 * (PI * (IZR e / INR n)))%R in E by (unfold Rdiv; ring). rewrite cos_2a_sin in E.
    assert (0 < IZR e / INR n)%R by (apply Rdiv_lt_0_compat; [apply (IZR_lt 0); lia|auto]).
    assert (IZR e / INR n < 1)%R by (apply Rmult_lt_reg_r with (INR n); [auto|]; unfold Rdiv; rewrite Rmult_assoc, Rinv_l, Rmult_1_r, Rmult_1_l by lra; rewrite INR_IZR_INZ; apply IZR_lt; lia).
    pose proof PI_RGT_0. assert (0 < sin (PI * (IZR e / INR n)))%R by (apply sin_gt_0; nra). nra. }
  intros H. destruct (Z.le_gt_cases 0 d); [apply P; lia|]. intros E. apply (P (- d)%Z); [lia|]. rewrite <- turn_conj. apply (f_equal rconj) in E. rewrite rconj_sub, rconj_1, rconj_0 in E. exact E.
Qed.
Lemma geometric n d m : sumn m (fun j => turn n (Z.of_nat j * d)) * (turn n d - 1) = turn n (Z.of_nat m * d) - 1.
Proof.
  induction m as [|m IH].
  - rewrite sumn_0. cbn [Z.of_nat Z.mul]. rewrite turn_0. ring.
  - rewrite sumn_S. transitivity (sumn m (fun j => turn n (Z.of_nat j * d)) * (turn n d - 1) + turn n (Z.of_nat m * d) * (turn n d - 1)); [ring|]. rewrite IH.
    replace (Z.of_nat (S m) * d)%Z with (Z.of_nat m * d + d)%Z by lia. rewrite turn_add. ring.
Qed.
Lemma sum_one n : sumn n (fun _ => 1 : C_star) = RtoC (INR n).
Proof. induction n as [|n IH]; [reflexivity|]. rewrite sumn_S, IH, S_INR, RtoC_add. reflexivity. Qed.
Lemma turns_orth n a b : (a < n)%nat -> (b < n)%nat -> sumn n (fun j => turn n (off n j * (Z.of_nat a - Z.of_nat b))) = RtoC (INR n) * delta a b.
Proof.
  intros Ha Hb. set (d := (Z.of_nat a - Z.of_nat b)%Z).
  transitivity (turn n (- (Z.of_nat (n / 2) * d)) * sumn n (fun j => turn n (Z.of_nat j * d))).
  { rewrite <- sumn_scal_l. apply sumn_ext. intros j _. rewrite <- turn_add. f_equal. unfold off. ring. }
  unfold delta. destruct (Nat.eqb_spec a b) as [->|Hn].
  - unfold d. rewrite Z.sub_diag, Z.mul_0_r. cbn [Z.opp]. rewrite turn_0, (sumn_ext _ n _ (fun _ => 1)) by (intros j _; rewrite Z.mul_0_r; apply turn_0). rewrite sum_one. ring.
  - assert (E : sumn n (fun j => turn n (Z.of_nat j * d)) = 0).
    { apply (C_int (turn n d - 1)); [|apply turn_ne; unfold d; lia]. transitivity (sumn n (fun j => turn n (Z.of_nat j * d)) * (turn n d - 1)); [ring|]. rewrite geometric, turn_full by lia. ring. }
    rewrite E. ring.
Qed.

(** ** Shifts *)
Lemma nth_skipn_add {A} n : forall (l : list A) k d, nth k (skipn n l) d = nth (n + k) l d.
Proof. induction n as [|n IH]; intros [|x l] k d; cbn; auto. destruct k; reflexivity. Qed.
Lemma nth_firstn_lt {A} n : forall (l : list A) k d, (k < n)%nat -> nth k (firstn n l) d = nth k l d.
Proof. induction n as [|n IH]; intros [|x l] [|k] d H; cbn; auto; try lia. apply IH. lia. Qed.
Lemma length_roll s v : length (roll s v) = length v.
Proof. unfold roll. rewrite app_length, skipn_length, firstn_length. lia. Qed.
Lemma nth_roll s v i : (s <= length v)%nat -> (i < length v)%nat -> nth i (roll s v) 0 = nth ((i + s) mod length v) v 0.
Proof.
  intros Hs Hi. unfold roll. destruct (Nat.lt_ge_cases i (length v - s)) as [H|H].
  - rewrite app_nth1 by (rewrite skipn_length; auto). rewrite nth_skipn_add. rewrite Nat.mod_small by lia. f_equal. lia.
  - rewrite app_nth2 by (rewrite skipn_length; auto). rewrite skipn_length. replace ((i + s) mod length v)%nat with (i - (length v - s))%nat.
    + rewrite nth_firstn_lt by lia. reflexivity.
    + replace (i + s)%nat with (i - (length v - s) + 1 * length v)%nat by lia. rewrite Nat.mod_add by lia. symmetry. apply Nat.mod_small. lia.
Qed.
Lemma sumn_split a b (f : nat -> C_star) : sumn (a + b) f = sumn a f + sumn b (fun j => f (a + j)%nat).
Proof. induction b as [|b IH]; [rewrite Nat.add_0_r, sumn_0; ring|]. rewrite Nat.add_succ_r, !sumn_S, IH. ring. Qed.
Lemma sum_roll n s (f : nat -> C_star) : (s <= n)%nat -> sumn n (fun m => f ((m + s) mod n)%nat) = sumn n f.
Proof.
  intros H. replace n with ((n - s) + s)%nat at 1 by lia. rewrite sumn_split. transitivity (sumn (n - s) (fun j => f (s + j)%nat) + sumn s f).
  - f_equal; apply sumn_ext; intros j Hj; f_equal.
    + rewrite Nat.mod_small by lia. lia.
    + replace (n - s + j + s)%nat with (j + 1 * n)%nat by lia. rewrite Nat.mod_add by lia. apply Nat.mod_small. lia.
  - replace n with (s + (n - s))%nat at 2 by lia. rewrite sumn_split. ring.
Qed.
Lemma half_le n : (n / 2 <= n)%nat.
Proof. apply Nat.div_le_upper_bound; lia. Qed.

(** ** The shifted transforms are the centred sums *)
Lemma length_dft s v : length (dft s v) = length v.
Proof. unfold dft. rewrite map_length, seq_length. reflexivity. Qed.
Lemma nth_dft (s : Z) v k : (k < length v)%nat -> nth k (dft (IZR s) v) 0 = sumn (length v) (fun m => nth m v 0 * turn (length v) (s * (Z.of_nat k * Z.of_nat m))).
Proof.
  intros H. unfold dft. set (g := fun k => sumn (length v) _). rewrite (nth_indep _ 0 (g 0%nat)) by (rewrite map_length, seq_length; auto). rewrite map_nth, seq_nth by auto. unfold g. apply sumn_ext. intros m _. f_equal.
  unfold Cexp, turn. cbn [fst snd]. rewrite exp_0. rewrite !mult_IZR, <- !INR_IZR_INZ. replace (2 * PI * (IZR s * (INR k * INR m)) / INR (length v))%R with (IZR s * (2 * PI * (INR k * INR m) / INR (length v)))%R by (unfold Rdiv; ring). rewrite !Rmult_1_l. reflexivity.
Qed.
Lemma shifted (s : Z) v k : (k < length v)%nat -> nth k (fftshift (dft (IZR s) (ifftshift v))) 0 = centred s (length v) (fun m => nth m v 0) k.
Proof.
  intros H. set (n := length v) in *. pose proof (half_le n) as Hh. unfold fftshift. assert (L : length (dft (IZR s) (ifftshift v)) = n) by (rewrite length_dft; unfold ifftshift; apply length_roll). rewrite L.
  rewrite nth_roll by (rewrite L; lia). rewrite L. assert (L2 : length (ifftshift v) = n) by (unfold ifftshift; apply length_roll). rewrite nth_dft by (rewrite L2; apply Nat.mod_upper_bound; lia). rewrite L2. unfold centred.
  symmetry. rewrite <- (sum_roll n (n / 2) _ Hh). symmetry. apply sumn_ext. intros m Hm. unfold ifftshift. fold n. rewrite (nth_roll (n / 2) v m Hh Hm). fold n. f_equal. unfold off.
  set (p := (n / 2)%nat) in *. pose proof (Nat.div_mod (k + (n - p)) n ltac:(lia)) as D2. pose proof (Nat.div_mod (m + p) n ltac:(lia)) as D1.
  set (k2 := ((k + (n - p)) mod n)%nat) in *. set (d2 := ((k + (n - p)) / n)%nat) in *. set (m2 := ((m + p) mod n)%nat) in *. set (d1 := ((m + p) / n)%nat) in *.
  apply (turn_cong n _ _ (s * ((1 - Z.of_nat d2) * Z.of_nat m + (Z.of_nat k - Z.of_nat p) * Z.of_nat d1))); [lia|].
  apply (f_equal Z.of_nat) in D1, D2. rewrite !Nat2Z.inj_add, Nat2Z.inj_mul in D1, D2. rewrite Nat2Z.inj_sub in D2 by auto.
  replace (Z.of_nat k2) with (Z.of_nat k - Z.of_nat p + Z.of_nat n * (1 - Z.of_nat d2))%Z by lia. replace (Z.of_nat m2) with (Z.of_nat m + Z.of_nat p - Z.of_nat n * Z.of_nat d1)%Z by lia. ring.
Qed.

(** ** The transform and its inverse *)
Lemma centred_inverse n v k : (k < n)%nat -> centred 1 n (centred (-1) n v) k = RtoC (INR n) * v k.
Proof.
  intros H. unfold centred. transitivity (sumn n (fun m => sumn n (fun j => v m * turn n (off n j * (Z.of_nat k - Z.of_nat m))))).
  - rewrite sumn_swap. apply sumn_ext. intros j _. rewrite <- sumn_scal_r. apply sumn_ext. intros m _. transitivity (v m * (turn n (-1 * (off n j * off n m)) * turn n (1 * (off n k * off n j)))); [ring|]. rewrite <- turn_add. do 2 f_equal. unfold off. ring.
  - transitivity (sumn n (fun m => delta m k * (RtoC (INR n) * v m))); [|rewrite sumn_delta by auto; reflexivity]. apply sumn_ext. intros m Hm. rewrite sumn_scal_l, turns_orth, (delta_sym C_star k m) by auto. ring.
Qed.
Lemma centred_inverse' n v k : (k < n)%nat -> centred (-1) n (centred 1 n v) k = RtoC (INR n) * v k.
Proof.
  intros H. unfold centred. transitivity (sumn n (fun m => sumn n (fun j => v m * turn n (off n j * (Z.of_nat m - Z.of_nat k))))).
  - rewrite sumn_swap. apply sumn_ext. intros j _. rewrite <- sumn_scal_r. apply sumn_ext. intros m _. transitivity (v m * (turn n (1 * (off n j * off n m)) * turn n (-1 * (off n k * off n j)))); [ring|]. rewrite <- turn_add. do 2 f_equal. unfold off. ring.
  - transitivity (sumn n (fun m => delta m k * (RtoC (INR n) * v m))); [|rewrite sumn_delta by auto; reflexivity]. apply sumn_ext. intros m Hm. rewrite sumn_scal_l, turns_orth by auto. ring.
Qed.
Lemma centred_norm s n v : (s = 1 \/ s = -1)%Z -> sumn n (fun k => rconj (centred s n v k) * centred s n v k) = RtoC (INR n) * sumn n (fun m => rconj (v m) * v m).
Proof.
  intros Hs. transitivity (sumn n (fun a => sumn n (fun b => rconj (v a) * v b * sumn n (fun k => turn n (off n k * (s * (Z.of_nat b - Z.of_nat a))))))).
  - transitivity (sumn n (fun k => sumn n (fun a => sumn n (fun b => rconj (v a) * v b * turn n (off n k * (s * (Z.of_nat b - Z.of_nat a))))))).
    + apply sumn_ext. intros k _. unfold centred. rewrite rconj_sumn, <- sumn_scal_r. apply sumn_ext. intros a _. rewrite <- sumn_scal_l. apply sumn_ext. intros b _. rewrite rconj_mul, turn_conj.
      transitivity (rconj (v a) * v b * (turn n (- (s * (off n k * off n a))) * turn n (s * (off n k * off n b)))); [ring|]. rewrite <- turn_add. do 2 f_equal. unfold off. ring.
    + rewrite sumn_swap. apply sumn_ext. intros a _. rewrite sumn_swap. apply sumn_ext. intros b _. rewrite sumn_scal_l. reflexivity.
  - rewrite <- sumn_scal_l. apply sumn_ext. intros a Ha. transitivity (sumn n (fun b => delta b a * (RtoC (INR n) * (rconj (v a) * v b)))); [|rewrite sumn_delta by auto; ring].
    apply sumn_ext. intros b Hb. destruct Hs as [->| ->].
    + rewrite (sumn_ext _ n _ (fun k => turn n (off n k * (Z.of_nat b - Z.of_nat a)))) by (intros; f_equal; ring). rewrite turns_orth by auto. ring.
    + rewrite (sumn_ext _ n _ (fun k => turn n (off n k * (Z.of_nat a - Z.of_nat b)))) by (intros; f_equal; ring). rewrite turns_orth, delta_sym by auto. ring.
Qed.
Lemma centred_ext s n u v k : (forall m, (m < n)%nat -> u m = v m) -> centred s n u k = centred s n v k.
Proof. intros H. unfold centred. apply sumn_ext. intros m Hm. rewrite H by auto. reflexivity. Qed.
Lemma centred_scale s n c v k : centred s n (fun m => c * v m) k = c * centred s n v k.
Proof. unfold centred. rewrite <- sumn_scal_l. apply sumn_ext. intros. ring. Qed.

(** ** Grids *)
Lemma last_nth {A} (l : list A) d : last l d = nth (length l - 1) l d.
Proof. induction l as [|a l IH]; [reflexivity|]. destruct l as [|b l]; [reflexivity|]. change (last (a :: b :: l) d) with (last (b :: l) d). rewrite IH. cbn [length]. replace (S (S (length l)) - 1)%nat with (S (S (length l) - 1)) by lia. reflexivity. Qed.
Lemma length_linspace a b n : length (linspace a b n) = n.
Proof. unfold linspace. rewrite map_length, seq_length. reflexivity. Qed.
Lemma nth_linspace a b n k : (k < n)%nat -> nth k (linspace a b n) 0%R = (a + INR k * ((b - a) / INR (n - 1)))%R.
Proof. intros H. unfold linspace. set (g := fun k => (a + INR k * ((b - a) / INR (n - 1)))%R). rewrite (nth_indep _ 0%R (g 0%nat)) by (rewrite map_length, seq_length; auto). rewrite map_nth, seq_nth by auto. reflexivity. Qed.
Lemma width_nth g : g_space g <> [] -> width g = Ok (nth (length (g_space g) - 1) (g_space g) 0 - nth 0 (g_space g) 0)%R.
Proof. intros H. unfold width. rewrite last_nth. destruct (g_space g); [congruence|reflexivity]. Qed.
Lemma width_new k a b n hb c : (2 <= n)%nat -> width (set_conj c (new_grid k a b n hb)) = Ok (b - a)%R.
Proof.
  intros H. assert (E : g_space (set_conj c (new_grid k a b n hb)) = linspace a b n) by reflexivity. rewrite width_nth; rewrite E.
  - rewrite length_linspace, !nth_linspace by lia. cbn [INR]. f_equal. field. apply not_0_INR. lia.
  - intros Z. apply (f_equal (@length R)) in Z. rewrite length_linspace in Z. cbn in Z. lia.
Qed.
Lemma gget_app_l h l i : (i < length h)%nat -> gget (h ++ l) i = gget h i.
Proof. intros H. unfold gget. apply app_nth1. exact H. Qed.
Lemma gget_new h g : gget (h ++ [g]) (length h) = g.
Proof. unfold gget. rewrite app_nth2, Nat.sub_diag by lia. reflexivity. Qed.
(** The widths of a new pair *)
Lemma conj_new h i : proper (gget h i) -> (i < length h)%nat -> g_conj (gget h i) = None ->
  exists co, conj_of h i = Ok (upd i (set_conj (length h) (gget h i)) h ++ [set_conj i co], length h) /\ conjugate (set_conj (length h) (gget h i)) (set_conj i co).
Proof.
  intros (Hn & Hb & w & Ew & Hw) Hi Hc. unfold conj_of. rewrite Hc, Ew. cbn [bind]. assert (I0 : INR (length (g_space (gget h i)) - 1) <> 0%R) by (apply not_0_INR; lia).
  destruct (g_kind (gget h i)) eqn:Ek; eexists; (split; [reflexivity|]); (split; [cbn [g_kind set_conj new_grid]; congruence|]); (split; [reflexivity|]); (split; [cbn [g_space set_conj new_grid]; apply length_linspace|]).
  - exists w. eexists. split; [exact Ew|]. split; [apply width_new; exact Hn|]. cbn [g_hbar g_space set_conj]. destruct (Nat.odd _); field; auto.
  - exists w. eexists. split; [exact Ew|]. split; [apply width_new; exact Hn|]. cbn [g_hbar g_space set_conj]. field; auto.
Qed.
Lemma gget_upd h i g j : (i < length h)%nat -> gget (upd i g h) j = if (j =? i)%nat then g else gget h j.
Proof. intros H. unfold gget. destruct (Nat.eqb_spec j i) as [->|N]; [apply nth_upd_eq; exact H|apply nth_upd_neq; auto]. Qed.
Lemma conjugate_points g1 g2 g1' g2' : same_points g1 g1' -> same_points g2 g2' -> conjugate g1 g2 -> conjugate g1' g2'.
Proof.
  intros (K1 & S1 & B1) (K2 & S2 & B2) (A & B & C & w & w' & D & E & F). unfold conjugate. rewrite K1, K2, B1, B2, S1, S2. split; [exact A|]. split; [exact B|]. split; [exact C|]. exists w, w'. unfold width in *. rewrite S1, S2. auto.
Qed.
Lemma conj_ok h i : paired h -> (i < length h)%nat -> proper (gget h i) ->
  exists h' j, conj_of h i = Ok (h', j) /\ paired h' /\ (j < length h')%nat /\ (length h <= length h')%nat /\ g_conj (gget h' i) = Some j /\ g_conj (gget h' j) = Some i /\
    conjugate (gget h' i) (gget h' j) /\ forall k, (k < length h)%nat -> same_points (gget h k) (gget h' k).
Proof.
  intros HP Hi Hp. destruct (g_conj (gget h i)) as [j|] eqn:Ec.
  - exists h, j. pose proof (HP i Hi) as X. rewrite Ec in X. destruct X as (Hj & Cj & Lj). unfold conj_of. rewrite Ec. split; [reflexivity|]. split; [exact HP|]. split; [exact Hj|]. split; [lia|]. split; [reflexivity|]. split; [exact Lj|]. split; [exact Cj|]. intros k _. repeat split.
  - destruct (conj_new h i Hp Hi Ec) as (co & E & C). eexists; eexists. split; [exact E|]. set (h1 := upd i (set_conj (length h) (gget h i)) h).
    assert (L1 : length h1 = length h) by apply length_upd. assert (G : forall k, (k < length h)%nat -> gget (h1 ++ [set_conj i co]) k = if (k =? i)%nat then set_conj (length h) (gget h i) else gget h k) by (intros k Hk; rewrite gget_app_l by lia; unfold h1; apply gget_upd; auto).
    assert (Gn : gget (h1 ++ [set_conj i co]) (length h) = set_conj i co) by (rewrite <- L1; apply gget_new). assert (SP : forall k, (k < length h)%nat -> same_points (gget h k) (gget (h1 ++ [set_conj i co]) k)) by (intros k Hk; rewrite G by auto; destruct (Nat.eqb_spec k i) as [->|]; repeat split).
    assert (Gi : gget (h1 ++ [set_conj i co]) i = set_conj (length h) (gget h i)) by (rewrite G, Nat.eqb_refl by auto; reflexivity).
    assert (L2 : length (h1 ++ [set_conj i co]) = S (length h)) by (rewrite app_length, L1; cbn; lia).
    split.
    + intros k Hk. rewrite L2 in *. destruct (Nat.eq_dec k (length h)) as [->|Nk].
      * rewrite Gn. cbn [g_conj set_conj]. split; [lia|]. rewrite Gi. split; [|reflexivity]. destruct C as (A & B & D & w & w' & F & F' & M). split; [congruence|]. split; [congruence|]. split; [congruence|]. exists w', w. split; [exact F'|]. split; [exact F|]. rewrite B, D. rewrite Rmult_comm. exact M.
      * rewrite G by lia. destruct (Nat.eqb_spec k i) as [->|Ni]; [cbn [g_conj set_conj]; split; [lia|]; rewrite Gn; auto|]. pose proof (HP k ltac:(lia)) as X. destruct (g_conj (gget h k)) as [j|] eqn:Ek; [|exact I]. destruct X as (Hj & Cj & Lj). split; [lia|].
        assert (j <> i) by (intros ->; congruence). rewrite G by auto. destruct (Nat.eqb_spec j i); [contradiction|]. auto.
    + split; [rewrite L2; lia|]. split; [rewrite L2; lia|]. rewrite Gi, Gn. cbn [g_conj set_conj]. split; [reflexivity|]. split; [reflexivity|]. split; [exact C|exact SP].
Qed.

(** ** The transform of one vector *)
Definition sign_of (k : kind) : Z := match k with Coordinate => -1 | Momentum => 1 end.
Definition factor (g : grid) (w : R) (m : nat) : R := match g_kind g with Coordinate => sqrt (2 * PI * g_hbar g) / w | Momentum => sqrt (2 * PI * g_hbar g) / w * INR (length (g_space g)) / INR m end.
Lemma length_fftshift v : length (fftshift v) = length v. Proof. apply length_roll. Qed.
Lemma length_ifftshift v : length (ifftshift v) = length v. Proof. apply length_roll. Qed.
Lemma nth_map0 (c : C_star) v k : nth k (map (rmul c) v) 0 = c * nth k v 0.
Proof. replace 0 with (c * 0) at 1 by ring. apply map_nth. Qed.
Lemma roll_map s c v : roll s (map (rmul c) v) = map (rmul c) (roll s v).
Proof. unfold roll. rewrite map_app, skipn_map, firstn_map. reflexivity. Qed.
Lemma fftshift_map c v : fftshift (map (rmul c) v) = map (rmul c) (fftshift v).
Proof. unfold fftshift. rewrite map_length, roll_map. reflexivity. Qed.
Lemma ft_vec_ok g w v : v <> [] -> exists u, ft_vec g w v = Ok u /\ length u = length v /\
  forall k, (k < length v)%nat -> nth k u 0 = RtoC (factor g w (length v)) * centred (sign_of (g_kind g)) (length v) (fun m => nth m v 0) k.
Proof.
  intros Hv. assert (Hl : length v <> 0%nat) by (intros E; apply length_zero_iff_nil in E; auto). unfold ft_vec, factor. destruct (g_kind g).
  - unfold fft. destruct (ifftshift v) as [|x l] eqn:E; [apply (f_equal (@length C_star)) in E; rewrite length_ifftshift in E; destruct (Hl E)|]. rewrite <- E. cbn [bind]. eexists. split; [reflexivity|]. split; [rewrite map_length, length_fftshift, length_dft; apply length_ifftshift|].
    intros k Hk. rewrite nth_map0. f_equal. apply (shifted (-1)). exact Hk.
  - unfold ifft. destruct (ifftshift v) as [|x l] eqn:E; [apply (f_equal (@length C_star)) in E; rewrite length_ifftshift in E; destruct (Hl E)|]. rewrite <- E. cbn [bind]. eexists. split; [reflexivity|]. split; [rewrite map_length, length_fftshift, map_length, length_dft; apply length_ifftshift|].
    intros k Hk. change (map (fun x0 => RtoC (/ INR (length (ifftshift v))) * x0)) with (map (rmul (RtoC (/ INR (length (ifftshift v)))))). rewrite nth_map0, fftshift_map, nth_map0. rewrite (shifted 1 v k Hk). rewrite length_ifftshift.
    unfold Rdiv at 2. rewrite (RtoC_mul _ (/ INR (length v))). cbn [sign_of]. ring.
Qed.
Lemma ft_vec_back g g' w w' v : conjugate g g' -> (0 < g_hbar g)%R -> (2 <= length (g_space g))%nat -> width g = Ok w -> width g' = Ok w' -> v <> [] -> exists u, ft_vec g w' v = Ok u /\ ft_vec g' w u = Ok v.
Proof.
  intros (Ck & Cb & Cl & x & x' & Ex & Ex' & M) Hb Hn Ew Ew' Hv. rewrite Ew in Ex. rewrite Ew' in Ex'. injection Ex as <-. injection Ex' as <-.
  assert (Hl : length v <> 0%nat) by (intros E; apply length_zero_iff_nil in E; auto). assert (L0 : INR (length v) <> 0%R) by (apply not_0_INR; auto). assert (N0 : INR (length (g_space g)) <> 0%R) by (apply not_0_INR; lia).
  pose proof PI_RGT_0. assert (P2 : (0 < 2 * PI * g_hbar g)%R) by (apply Rmult_lt_0_compat; lra).
  assert (W0 : w <> 0%R /\ w' <> 0%R). { split; intros ->; rewrite ?Rmult_0_l, ?Rmult_0_r in M; symmetry in M; apply Rmult_integral in M as [M|M]; auto; lra. } destruct W0 as (W0 & W0').
  destruct (ft_vec_ok g w' v Hv) as (u & Eu & Lu & Gu). exists u. split; [exact Eu|]. assert (Hu : u <> []) by (intros ->; apply Hl; symmetry; exact Lu).
  destruct (ft_vec_ok g' w u Hu) as (v2 & E2 & L2 & G2). rewrite E2. f_equal. apply (nth_ext _ _ 0 0); [rewrite L2; exact Lu|]. intros k Hk. rewrite L2, Lu in Hk. rewrite G2 by (rewrite Lu; exact Hk). rewrite Lu.
  rewrite (centred_ext _ _ _ (fun m => RtoC (factor g w' (length v)) * centred (sign_of (g_kind g)) (length v) (fun m => nth m v 0) m)) by (intros m Hm; apply Gu; auto). rewrite centred_scale.
  assert (SQ : (sqrt (2 * PI * g_hbar g) * sqrt (2 * PI * g_hbar g) = 2 * PI * g_hbar g)%R) by (apply sqrt_sqrt; lra).
  assert (FF : (factor g' w (length v) * factor g w' (length v) * INR (length v) = 1)%R).
  { unfold factor. rewrite Cb, Cl. set (s := sqrt (2 * PI * g_hbar g)) in *. set (nn := INR (length (g_space g))) in *. assert (X : (s * s * nn / (w * w') = 1)%R) by (rewrite M, SQ; field; split; [auto|split; lra]).
    destruct (g_kind g), (g_kind g'); try congruence; etransitivity; [|exact X| |exact X]; field; auto. }
  assert (Q : centred (sign_of (g_kind g')) (length v) (centred (sign_of (g_kind g)) (length v) (fun m => nth m v 0)) k = RtoC (INR (length v)) * nth k v 0) by (destruct (g_kind g), (g_kind g'); try congruence; [apply centred_inverse|apply centred_inverse']; auto).
  rewrite Q. transitivity (RtoC (factor g' w (length v) * factor g w' (length v) * INR (length v)) * nth k v 0); [rewrite !RtoC_mul; ring|]. rewrite FF. change (RtoC 1) with (1 : C_star). ring.
Qed.
