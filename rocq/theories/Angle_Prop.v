(** C93: the angle between two networks of the same form. *)
From Coq Require Import String List Arith Bool Lia Reals Lra.
From Verif Require Import Py Alg ListX Cplx NdArray_Model NdArray_Proof Net_Model Net_Spec Trav_Proof Acyc_Proof Link_Spec Link_Proof Env_Spec Env_Proof TEnv_Proof EnvThm_Proof
  Angle_Model Angle_Spec Angle_Proof.
Import ListNotations.
Local Open Scope nat_scope.
Local Open Scope list_scope.

(** The second network has an object [f n] where the first has [n]; they may share objects.  The
    quotient <2|1> / (|1| |2|) is formed from the two states before any of the inputs is
    overwritten, its modulus is at most one, and only [aux] is changed: afterwards each network
    holds the conjugates of its own arrays there. *)
Theorem C93_angle carccos (h : heap C_star) t f fuel A :
  let t2 := relabel f t in let ds := ldims A None 0 t in let u1 := dense A t in let u2 := dense A t2 in
  hangs h None t -> hangs h None t2 -> no_self_slot h -> oaxis (hget h (top t)) = None -> oaxis (hget h (top t2)) = None -> height t <= fuel -> height t2 <= fuel ->
  fits A None 0 t -> fits A None 0 t2 -> ldims A None 0 t2 = ds ->
  (forall n, In n (nids t ++ nids t2) -> oarr (hget h n) = Some (A n)) ->
  exists h', but_aux h h' /\ (forall n, In n (nids t ++ nids t2) -> oaux (hget h' n) = Some (arr_conj (A n))) /\
    ((length_of ds u1 = 0%R \/ length_of ds u2 = 0%R) -> hilbert_angle carccos fuel h (top t) (top t2) = Ok (None, h')) /\
    (length_of ds u1 <> 0%R -> length_of ds u2 <> 0%R -> exists z, hilbert_angle carccos fuel h (top t) (top t2) = Ok (Some (degrees (carccos z)), h') /\
       rmul z (RtoC (length_of ds u1 * length_of ds u2)) = braket ds u2 u1 /\ (Cnorm2 z <= 1)%R).
Proof.
  intros t2 ds u1 u2 H1 H2 NS X1 X2 F1 F2 FA1 FA2 ED AR.
  assert (V1 : visitor fuel h (top t) (oaxis (hget h (top t))) false = Ok (nids t)) by (rewrite X1; exact (visitor_hangs _ h t None fuel false H1 F1)).
  assert (V2 : visitor fuel h (top t2) (oaxis (hget h (top t2))) false = Ok (map f (nids t))) by (rewrite X2; rewrite <- relabel_nids; exact (visitor_hangs _ h t2 None fuel false H2 F2)).
  assert (AR1 : forall n, In n (nids t) -> oarr (hget h n) = Some (A n)) by (intros n Hn; apply AR, in_or_app; now left).
  assert (AR2 : forall n, In n (nids t2) -> oarr (hget h n) = Some (A n)) by (intros n Hn; apply AR, in_or_app; now right).
  assert (CB : forall l : list id, combine l (map f l) = map (fun n => (n, f n)) l) by (induction l as [|x l IH]; [reflexivity|cbn; now rewrite IH]).
  pose proof (nids_nodup _ h t NS H1) as NN.
  destruct (pair_aux_ok A (combine (nids t) (map f (nids t)))) with (h := h) as (ha & Ea & Ba & Xa & _).
  { rewrite CB, map_map. cbn [fst]. rewrite map_id. exact NN. }
  { intros p Hp. rewrite CB in Hp. apply in_map_iff in Hp as (n & <- & Hn). cbn [fst snd]. split; [apply (hangs_lt _ h None t H1), nids_ids, Hn|]. apply AR2. unfold t2. rewrite relabel_nids. now apply in_map. }
  assert (Xa' : forall n, In n (nids t) -> oaux (hget ha n) = Some (arr_conj (A (f n)))) by (intros n Hn; apply (Xa (n, f n)); rewrite CB; now apply (in_map (fun n => (n, f n)))).
  set (B := fun n => arr_conj (A (f n))).
  assert (FB : fits B None 0 t) by (apply (fits_conj C_star (fun n => A (f n))), relabel_fits, FA2).
  assert (DB : ldims A None 0 t = ldims B None 0 t). { unfold B. rewrite (ldims_conj C_star (fun n => A (f n))), <- (relabel_ldims f A t). symmetry. exact ED. }
  assert (Aa : forall n, In n (nids t) -> oarr (hget ha n) = Some (A n) /\ oaux (hget ha n) = Some (B n)) by (intros n Hn; split; [destruct Ba as (_ & Q); destruct (Q n) as (_ & -> & _); auto|apply Xa', Hn]).
  assert (KX : forall h' m, but_aux h h' -> oaxis (hget h m) = None -> oaxis (hget h' m) = None) by (intros h' m (_ & Q) E; destruct (Q m) as (_ & _ & -> & _); exact E).
  assert (KA : forall h' n, but_aux h h' -> oarr (hget h n) = Some (A n) -> oarr (hget h' n) = Some (A n)) by (intros h' n (_ & Q) E; destruct (Q n) as (_ & -> & _); exact E).
  pose proof (but_hangs _ _ _ _ Ba H1) as Ha. destruct (inner_product_ok C_star ha t fuel A B Ha (but_self _ _ Ba NS) (KX _ _ Ba X1) F1 FA1 FB DB Aa) as (c & hb & Eb & _ & Gb).
  destruct (inner_but ha t fuel _ hb Ha (KX _ _ Ba X1) F1 Eb) as (Bb' & _). pose proof (but_trans _ _ _ Ba Bb') as Bb. clear Bb'.
  pose proof (but_hangs _ _ _ _ Bb H1) as Hb. destruct (global_square_ok C_star hb t fuel A Hb (but_self _ _ Bb NS) (KX _ _ Bb X1) F1 FA1 (fun n Hn => KA _ _ Bb (AR1 n Hn))) as (c1 & hc & Ec & _ & Gc).
  destruct (square_but hb t fuel A _ hc Hb (KX _ _ Bb X1) F1 (fun n Hn => KA _ _ Bb (AR1 n Hn)) Ec) as (Bc' & Xc & _). pose proof (but_trans _ _ _ Bb Bc') as Bc. clear Bc'.
  pose proof (but_hangs _ _ _ _ Bc H2) as Hc. destruct (global_square_ok C_star hc t2 fuel A Hc (but_self _ _ Bc NS) (KX _ _ Bc X2) F2 FA2 (fun n Hn => KA _ _ Bc (AR2 n Hn))) as (c2 & hd & Ed & _ & Gd).
  destruct (square_but hc t2 fuel A _ hd Hc (KX _ _ Bc X2) F2 (fun n Hn => KA _ _ Bc (AR2 n Hn)) Ed) as (Bd' & Xd & Yd). pose proof (but_trans _ _ _ Bc Bd') as Bd.
  assert (NL2 : NoDup (lids t2)) by (apply (lids_nodup _ h t2 None H2), (nids_nodup _ h t2 NS H2)).
  assert (G1 : get c [] = braket ds u2 u1).
  { rewrite Gb. unfold braket. apply sumL_ext. intros v. unfold u1, u2, t2. rewrite (relabel_dense f A t v NL2). unfold dense at 2. unfold B. rewrite (amp_conj C_star (fun n => A (f n))). apply (Rmul_comm (r_theory C_star)). }
  assert (G2 : get c1 [] = RtoC (fst (braket ds u1 u1))).
  { rewrite Gc. etransitivity; [|apply braket_self]. unfold braket. apply sumL_ext. intros v. apply (Rmul_comm (r_theory C_star)). }
  assert (G3 : get c2 [] = RtoC (fst (braket ds u2 u2))).
  { rewrite Gd, ED. etransitivity; [|apply braket_self]. unfold braket. apply sumL_ext. intros v. apply (Rmul_comm (r_theory C_star)). }
  assert (EQ : hilbert_angle carccos fuel h (top t) (top t2) =
    Ok (if Req_EM_T (Cnorm2 (RtoC (length_of ds u1 * length_of ds u2))) 0 then None else Some (degrees (carccos (rmul (braket ds u2 u1) (Cinv (RtoC (length_of ds u1 * length_of ds u2)))))), hd)).
  { unfold hilbert_angle. rewrite V1. cbn [bind]. rewrite V2. cbn [bind]. rewrite Ea. cbn [bind]. rewrite Eb. cbn [bind fst snd]. rewrite Ec. cbn [bind fst snd]. rewrite Ed. cbn [bind fst snd number].
    rewrite G1, G2, G3, !Csqrt_pos by apply braket_self. rewrite <- RtoC_mul. reflexivity. }
  assert (CN : forall r, Cnorm2 (RtoC r) = (r * r)%R) by (intros r; unfold Cnorm2, RtoC; cbn [fst snd]; ring).
  exists hd. split; [exact Bd|]. split.
  { intros n Hn. destruct (in_dec Nat.eq_dec n (nids t2)) as [I|I]; [apply Xd, I|]. apply in_app_or in Hn as [Hn|Hn]; [|contradiction].
    rewrite Yd; [apply Xc, Hn|]. intros C.
    assert (S : forall t x, In x (ids t) -> In x (nids t) \/ In x (lids t)).
    { clear. induction t as [n|n ks IH] using tree_ind'; intros x Hx; [right; exact Hx|]. cbn [ids nids lids] in *. destruct Hx as [->|Hx]; [left; now left|]. apply in_flat_map in Hx as (k & Hk & Hx). rewrite Forall_forall in IH. destruct (IH k Hk x Hx) as [G|G]; [left; right|right]; apply in_flat_map; exists k; auto. }
    destruct (S t2 n C) as [G|G]; [contradiction|]. pose proof (nids_inner _ h t None H1 n Hn). pose proof (lids_leaf _ h t2 None H2 n G). congruence. }
  split.
  - intros Z. rewrite EQ. rewrite CN. assert (E : (length_of ds u1 * length_of ds u2 = 0)%R) by (destruct Z as [-> | ->]; ring). rewrite E. destruct (Req_EM_T (0 * 0) 0) as [_|C]; [reflexivity|]. exfalso. apply C. ring.
  - intros Z1 Z2. set (L := (length_of ds u1 * length_of ds u2)%R) in *. assert (ZL : L <> 0%R) by (apply Rmult_integral_contrapositive; auto). exists (rmul (braket ds u2 u1) (Cinv (RtoC L))). split; [|split].
    + rewrite EQ, CN. destruct (Req_EM_T (L * L) 0) as [C|_]; [|reflexivity]. exfalso. apply Rmult_integral in C. tauto.
    + rewrite Cinv_R by exact ZL. generalize (braket ds u2 u1). intros [a b]. apply Ceq; cbn; field; exact ZL.
    + pose proof (schwarz ds u2 u1) as S. rewrite Cinv_R by exact ZL.
      assert (SQ : forall u, (length_of ds u * length_of ds u = fst (braket ds u u))%R) by (intros u; unfold length_of; apply sqrt_sqrt, braket_self).
      replace (Cnorm2 (rmul (braket ds u2 u1) (RtoC (/ L)))) with (Cnorm2 (braket ds u2 u1) / (L * L))%R by (generalize (braket ds u2 u1); intros [a b]; unfold Cnorm2; cbn; field; exact ZL).
      assert (P : (0 < L * L)%R) by (apply Rsqr_pos_lt in ZL; exact ZL). apply Rmult_le_reg_r with (L * L)%R; [exact P|]. unfold Rdiv. rewrite Rmult_assoc, Rinv_l by lra. rewrite Rmult_1_l, Rmult_1_r.
      replace (L * L)%R with (length_of ds u2 * length_of ds u2 * (length_of ds u1 * length_of ds u1))%R by (unfold L; ring). rewrite !SQ. exact S.
Qed.
Print Assumptions C93_angle.
(** A missing array in the second network is a TypeError. *)
Theorem C93_missing carccos (h : heap C_star) t f fuel n :
  let t2 := relabel f t in
  hangs h None t -> hangs h None t2 -> oaxis (hget h (top t)) = None -> oaxis (hget h (top t2)) = None -> height t <= fuel -> height t2 <= fuel ->
  In n (nids t2) -> oarr (hget h n) = None -> hilbert_angle carccos fuel h (top t) (top t2) = Raise TypeError.
Proof.
  intros t2 H1 H2 X1 X2 F1 F2 Hn E. unfold hilbert_angle.
  assert (V1 : visitor fuel h (top t) (oaxis (hget h (top t))) false = Ok (nids t)) by (rewrite X1; exact (visitor_hangs _ h t None fuel false H1 F1)).
  assert (V2 : visitor fuel h (top t2) (oaxis (hget h (top t2))) false = Ok (nids t2)) by (rewrite X2; exact (visitor_hangs _ h t2 None fuel false H2 F2)).
  rewrite V1, V2. cbn [bind]. unfold t2 in Hn |- *. rewrite relabel_nids in Hn |- *. apply in_map_iff in Hn as (m & <- & Hm).
  rewrite (pair_aux_missing (combine (nids t) (map f (nids t))) h m (f m)); auto. clear - Hm. induction (nids t) as [|x l IH]; [destruct Hm|]. cbn. destruct Hm as [->|Hm]; auto.
Qed.
Print Assumptions C93_missing.

(** What is to be shown about the result, from the quotient alone. *)
Lemma real_quotient ds u1 u2 z : rmul z (RtoC (length_of ds u1 * length_of ds u2)) = braket ds u2 u1 -> length_of ds u1 <> 0%R -> length_of ds u2 <> 0%R ->
  (Cnorm2 z <= 1)%R -> snd (braket ds u2 u1) = 0%R -> z = RtoC (fst z) /\ (-1 <= fst z <= 1)%R /\ (fst z * (length_of ds u1 * length_of ds u2) = fst (braket ds u2 u1))%R.
Proof.
  intros E Z1 Z2 N S. set (L := (length_of ds u1 * length_of ds u2)%R) in *. assert (ZL : L <> 0%R) by (apply Rmult_integral_contrapositive; auto).
  rewrite <- E in S |- *. destruct z as [a b]. cbn in S. cbn [fst snd]. assert (b = 0%R) by (apply Rmult_eq_reg_r with L; [lra|exact ZL]). subst b. unfold Cnorm2 in N. cbn [fst snd] in N. split; [reflexivity|]. split; [|cbn; ring]. split; nra.
Qed.

(** If <2|1> is real, the result is a real angle between 0 and 180 degrees with the cosine <2|1> / (|1| |2|). *)
Theorem C93_real_angle carccos (h : heap C_star) t f fuel A :
  let t2 := relabel f t in let ds := ldims A None 0 t in let u1 := dense A t in let u2 := dense A t2 in
  arccos_like carccos ->
  hangs h None t -> hangs h None t2 -> no_self_slot h -> oaxis (hget h (top t)) = None -> oaxis (hget h (top t2)) = None -> height t <= fuel -> height t2 <= fuel ->
  fits A None 0 t -> fits A None 0 t2 -> ldims A None 0 t2 = ds ->
  (forall n, In n (nids t ++ nids t2) -> oarr (hget h n) = Some (A n)) ->
  length_of ds u1 <> 0%R -> length_of ds u2 <> 0%R -> snd (braket ds u2 u1) = 0%R ->
  exists h' a, hilbert_angle carccos fuel h (top t) (top t2) = Ok (Some (RtoC a), h') /\ (0 <= a <= 180)%R /\
    (cos (a * PI / 180) * (length_of ds u1 * length_of ds u2) = fst (braket ds u2 u1))%R /\
    (forall k, (forall x, In x (indices ds) -> u2 x = rmul (RtoC k) (u1 x)) -> a = (if Rle_dec 0 k then 0 else 180)%R).
Proof.
  intros t2 ds u1 u2 (AC & _) H1 H2 NS X1 X2 F1 F2 FA1 FA2 ED AR Z1 Z2 S. destruct (C93_angle carccos h t f fuel A H1 H2 NS X1 X2 F1 F2 FA1 FA2 ED AR) as (h' & _ & _ & _ & Q).
  destruct (Q Z1 Z2) as (z & E & M & N). fold ds t2 in M, E. fold u1 u2 in M. destruct (real_quotient ds u1 u2 z M Z1 Z2 N S) as (Ez & Bz & Mz). set (x := fst z) in *. rewrite Ez, AC in E by exact Bz.
  pose proof PI_RGT_0 as HP. exists h', (acos x / PI * 180)%R. split; [|split; [|split]].
  - rewrite E. do 3 f_equal. unfold degrees. apply Ceq; cbn; field; lra.
  - destruct (acos_bound x) as (L & U). split; [apply Rmult_le_pos; [|lra]; apply Rmult_le_pos; [exact L|left; now apply Rinv_0_lt_compat]|].
    apply Rmult_le_reg_r with (PI / 180)%R; [lra|]. replace (acos x / PI * 180 * (PI / 180))%R with (acos x) by (field; lra). lra.
  - replace (acos x / PI * 180 * PI / 180)%R with (acos x) by (field; lra). rewrite cos_acos by exact Bz. exact Mz.
  - intros k Hk.
    assert (E1 : braket ds u2 u1 = rmul (RtoC k) (braket ds u1 u1)).
    { unfold braket. rewrite <- sumL_scal_l. apply sumL_ext_in. intros v Hv. rewrite Hk by exact Hv. destruct (u1 v) as [p q]. apply Ceq; cbn; ring. }
    assert (E2 : braket ds u2 u2 = rmul (RtoC (k * k)) (braket ds u1 u1)).
    { unfold braket. rewrite <- sumL_scal_l. apply sumL_ext_in. intros v Hv. rewrite Hk by exact Hv. destruct (u1 v) as [p q]. apply Ceq; cbn; ring. }
    destruct (braket_self ds u1) as (B1 & B2). rewrite B1 in E1, E2. rewrite <- RtoC_mul in E1, E2. set (n := fst (braket ds u1 u1)) in *. 
    assert (L1 : length_of ds u1 = sqrt n) by reflexivity. assert (L2 : length_of ds u2 = (Rabs k * sqrt n)%R).
    { unfold length_of. rewrite E2. cbn [fst RtoC]. rewrite sqrt_mult; [|apply Rle_0_sqr|exact B2]. f_equal. apply sqrt_Rsqr_abs. }
    rewrite E1 in Mz. cbn [fst RtoC] in Mz. rewrite L1, L2 in Mz. rewrite L1 in Z1. rewrite L2 in Z2.
    assert (SN : (sqrt n * sqrt n = n)%R) by (apply sqrt_sqrt; exact B2). assert (Nn : n <> 0%R) by (intros C; apply Z1; rewrite C; apply sqrt_0).
    assert (Kx : (x * Rabs k = k)%R). { apply Rmult_eq_reg_r with n; [|exact Nn]. rewrite <- SN at 1. rewrite <- Mz. ring. }
    assert (Kn : k <> 0%R) by (intros C; apply Z2; rewrite C, Rabs_R0; ring).
    destruct (Rle_dec 0 k) as [P|P].
    + rewrite Rabs_right in Kx by lra. assert (x = 1%R) as -> by (apply Rmult_eq_reg_r with k; [lra|exact Kn]). rewrite acos_1. field. lra.
    + rewrite Rabs_left in Kx by lra. assert (x = (- (1))%R) as -> by (apply Rmult_eq_reg_r with k; [lra|exact Kn]). rewrite acos_opp, acos_1. field. lra.
Qed.
Print Assumptions C93_real_angle.

(** The result depends on the phase: if <2|1> is not real, it is no real number, so a state and
    i times this state have no angle between them. *)
Theorem C93_phase_refuted carccos (h : heap C_star) t f fuel A :
  let t2 := relabel f t in let ds := ldims A None 0 t in let u1 := dense A t in let u2 := dense A t2 in
  arccos_like carccos ->
  hangs h None t -> hangs h None t2 -> no_self_slot h -> oaxis (hget h (top t)) = None -> oaxis (hget h (top t2)) = None -> height t <= fuel -> height t2 <= fuel ->
  fits A None 0 t -> fits A None 0 t2 -> ldims A None 0 t2 = ds ->
  (forall n, In n (nids t ++ nids t2) -> oarr (hget h n) = Some (A n)) ->
  length_of ds u1 <> 0%R -> length_of ds u2 <> 0%R ->
  (snd (braket ds u2 u1) <> 0%R \/ (forall x, In x (indices ds) -> u2 x = rmul C_i (u1 x))) ->
  forall h' a, hilbert_angle carccos fuel h (top t) (top t2) <> Ok (Some (RtoC a), h').
Proof.
  intros t2 ds u1 u2 (_ & AC) H1 H2 NS X1 X2 F1 F2 FA1 FA2 ED AR Z1 Z2 S0 h' a C. destruct (C93_angle carccos h t f fuel A H1 H2 NS X1 X2 F1 F2 FA1 FA2 ED AR) as (h'' & _ & _ & _ & Q).
  destruct (Q Z1 Z2) as (z & E & M & _). fold ds t2 in M, E. fold u1 u2 in M. rewrite C in E. assert (E' : RtoC a = degrees (carccos z)) by congruence. clear E. rename E' into E.
  assert (S : snd (braket ds u2 u1) <> 0%R).
  { destruct S0 as [S|S]; [exact S|]. assert (E1 : braket ds u2 u1 = rmul (ropp C_i) (braket ds u1 u1)).
    { unfold braket. rewrite <- sumL_scal_l. apply sumL_ext_in. intros v Hv. rewrite S by exact Hv. destruct (u1 v) as [p q]. apply Ceq; cbn; ring. }
    rewrite E1. destruct (braket_self ds u1) as (B1 & B2). rewrite B1. intros G. apply Z1. unfold length_of. replace (fst (braket ds u1 u1)) with 0%R; [apply sqrt_0|]. revert G. generalize (fst (braket ds u1 u1)). intros r G. cbn in G. lra. }
  pose proof PI_RGT_0 as HP. assert (R : carccos z = RtoC (a / 180 * PI)).
  { unfold degrees in E. destruct (carccos z) as [p q]. pose proof (f_equal (fun w : C_star => fst w) E) as E1. pose proof (f_equal (fun w : C_star => snd w) E) as E2. cbn in E1, E2. unfold RtoC. apply Ceq; cbn.
    - rewrite E1. field. lra.
    - assert (G : (q * / PI * 180 = 0)%R) by lra. apply Rmult_integral in G as [G|G]; [|lra]. apply Rmult_integral in G as [G|G]; [exact G|]. exfalso. assert (/ PI > 0)%R by (now apply Rinv_0_lt_compat). lra. }
  apply AC in R. apply S. rewrite <- M, R, <- RtoC_mul. reflexivity.
Qed.
Print Assumptions C93_phase_refuted.

(** ** Example *)
(** Two networks of two tensors each, with the matrices diag(1, 0) and diag(1, sqrt 3) at the roots. *)
Definition ex_arr (n : nat) : arr C_star :=
  match n with
  | 0 => mkArr [2; 2] [RtoC 1; RtoC 0; RtoC 0; RtoC 0]
  | 4 => mkArr [2; 2] [RtoC 1; RtoC 0; RtoC 0; RtoC (sqrt 3)]
  | _ => mkArr [2; 2] [RtoC 1; RtoC 0; RtoC 0; RtoC 1]
  end.
Definition ex_net (b : nat) : heap C_star :=
  [mkObj (Some "r"%string) false (Some (ex_arr b)) None None false [(0, (b + 1, 0)); (1, (b + 3, 0))] [];
   mkObj (Some "n"%string) false (Some (ex_arr (b + 1))) None (Some 0) false [(0, (b, 0)); (1, (b + 2, 0))] [];
   mkObj (Some "l"%string) true None None None false [(0, (b + 1, 1))] [];
   mkObj (Some "m"%string) true None None None false [(0, (b, 1))] []].
Definition ex_nets : heap C_star := ex_net 0 ++ ex_net 4.
Definition ex_tree (b : nat) : tree := Nd b [(0, Nd (b + 1) [(1, Lf (b + 2), 0)], 0); (1, Lf (b + 3), 0)].
Lemma ex_hangs b : b = 0 \/ b = 4 -> hangs ex_nets None (ex_tree b).
Proof.
  intros Hb. assert (H : hangs ex_nets (Some (0, (b, 0))) (Nd (b + 1) [(1, Lf (b + 2), 0)])).
  { apply (hangs_node _ _ (b + 1) 0 (b, 0) [] [(1, Lf (b + 2), 0)]); destruct Hb as [-> | ->]; try reflexivity; [|repeat constructor| |repeat constructor]; cbn; repeat constructor; cbn; intuition discriminate. }
  apply hangs_root; [destruct Hb as [-> | ->]; reflexivity..| |].
  - destruct Hb as [-> | ->]; cbn; repeat constructor; cbn; intuition discriminate.
  - constructor; [exact H|]. destruct Hb as [-> | ->]; repeat constructor.
Qed.
Lemma ex_self : no_self_slot ex_nets.
Proof. intros n i H. do 8 (destruct n as [|n]; [cbn in H; repeat (destruct H as [H|H]; [inversion H|]); exact H|]). destruct n; exact H. Qed.
Lemma ex_fits b : b = 0 \/ b = 4 -> fits ex_arr None 0 (ex_tree b).
Proof.
  intros Hb. assert (H : fits ex_arr (Some 0) 2 (Nd (b + 1) [(1, Lf (b + 2), 0)])) by (destruct Hb as [-> | ->]; constructor; [reflexivity|repeat constructor|cbn; lia|reflexivity|repeat constructor|reflexivity|repeat constructor|cbn; lia|reflexivity|repeat constructor]).
  destruct Hb as [-> | ->]; constructor; try reflexivity; try (repeat constructor; fail); constructor; try exact H; repeat constructor.
Qed.
Lemma ex_dense b v : b = 0 \/ b = 4 -> In v (indices [2; 2]) ->
  dense ex_arr (ex_tree b) v = match v with [0; 0] => RtoC 1 | [1; 1] => if b =? 0 then RtoC 0 else RtoC (sqrt 3) | _ => RtoC 0 end.
Proof. intros Hb [<-|[<-|[<-|[<-|[]]]]]; destruct Hb as [-> | ->]; apply Ceq; cbn; ring. Qed.
Definition ex_carccos (z : C_star) : C_star :=
  if Req_EM_T (snd z) 0 then if Rle_dec (-1) (fst z) then if Rle_dec (fst z) 1 then RtoC (acos (fst z)) else C_i else C_i else C_i.
Lemma ex_arccos : arccos_like ex_carccos.
Proof.
  split.
  - intros x Hx. unfold ex_carccos, RtoC. cbn [fst snd]. destruct (Req_EM_T 0 0); [|lra]. destruct (Rle_dec (-1) x); [|lra]. destruct (Rle_dec x 1); [reflexivity|lra].
  - intros [p q] x E. assert (N : forall y, RtoC y <> C_i) by (intros y C; apply (f_equal (fun w : C_star => snd w)) in C; cbn in C; lra). unfold ex_carccos in E. cbn [fst snd] in E.
    destruct (Req_EM_T q 0) as [->|]; [|symmetry in E; now apply N in E]. destruct (Rle_dec (-1) p); [|symmetry in E; now apply N in E]. destruct (Rle_dec p 1); [|symmetry in E; now apply N in E].
    apply RtoC_inj in E. subst x. rewrite cos_acos by lra. reflexivity.
Qed.
Example C93_example : relabel (fun n => n + 4) (ex_tree 0) = ex_tree 4 /\ exists h', hilbert_angle ex_carccos 3 ex_nets 0 4 = Ok (Some (RtoC 60), h').
Proof.
  split; [reflexivity|]. set (ds := [2; 2]).
  assert (S3 : (sqrt 3 * sqrt 3 = 3)%R) by (apply sqrt_sqrt; lra).
  assert (D1 : forall v, In v (indices ds) -> dense ex_arr (ex_tree 0) v = match v with [0; 0] => RtoC 1 | _ => RtoC 0 end) by (intros v Hv; rewrite (ex_dense 0 v) by auto; destruct Hv as [<-|[<-|[<-|[<-|[]]]]]; reflexivity).
  assert (D2 : forall v, In v (indices ds) -> dense ex_arr (ex_tree 4) v = match v with [0; 0] => RtoC 1 | [1; 1] => RtoC (sqrt 3) | _ => RtoC 0 end) by (intros v Hv; rewrite (ex_dense 4 v) by auto; destruct Hv as [<-|[<-|[<-|[<-|[]]]]]; reflexivity).
  assert (B : forall b c u w, (forall v, In v (indices ds) -> dense ex_arr (ex_tree b) v = u v) -> (forall v, In v (indices ds) -> dense ex_arr (ex_tree c) v = w v) -> braket ds (dense ex_arr (ex_tree b)) (dense ex_arr (ex_tree c)) = braket ds u w) by (intros b c u w Hu Hw; unfold braket; apply sumL_ext_in; intros v Hv; now rewrite Hu, Hw by exact Hv).
  pose proof (B 0 0 _ _ D1 D1) as B11. pose proof (B 4 4 _ _ D2 D2) as B22. pose proof (B 4 0 _ _ D2 D1) as B21. clear B.
  assert (L1 : length_of ds (dense ex_arr (ex_tree 0)) = 1%R) by (unfold length_of; rewrite B11; cbn; match goal with |- sqrt ?e = _ => replace e with 1%R by ring end; apply sqrt_1).
  assert (L2 : length_of ds (dense ex_arr (ex_tree 4)) = 2%R) by (unfold length_of; rewrite B22; cbn; match goal with |- sqrt ?e = _ => replace e with (2 * 2)%R by (ring_simplify; lra) end; apply sqrt_square; lra).
  assert (O : braket ds (dense ex_arr (ex_tree 4)) (dense ex_arr (ex_tree 0)) = RtoC 1) by (rewrite B21; apply Ceq; cbn; ring).
  destruct (C93_real_angle ex_carccos ex_nets (ex_tree 0) (fun n => n + 4) 3 ex_arr ex_arccos) as (h' & a & E & Ba & Ca & _).
  - apply ex_hangs. now left.
  - apply (ex_hangs 4). now right.
  - exact ex_self.
  - reflexivity.
  - reflexivity.
  - cbn. lia.
  - cbn. lia.
  - apply ex_fits. now left.
  - apply (ex_fits 4). now right.
  - reflexivity.
  - intros n Hn. cbn in Hn. repeat (destruct Hn as [<-|Hn]; [reflexivity|]). destruct Hn.
  - change (ldims ex_arr None 0 (ex_tree 0)) with ds. rewrite L1. lra.
  - change (ldims ex_arr None 0 (ex_tree 0)) with ds. change (relabel (fun n => n + 4) (ex_tree 0)) with (ex_tree 4). rewrite L2. lra.
  - change (ldims ex_arr None 0 (ex_tree 0)) with ds. change (relabel (fun n => n + 4) (ex_tree 0)) with (ex_tree 4). rewrite O. reflexivity.
  - change (ldims ex_arr None 0 (ex_tree 0)) with ds in Ca. change (relabel (fun n => n + 4) (ex_tree 0)) with (ex_tree 4) in Ca. rewrite L1, L2, O in Ca. cbn [fst RtoC] in Ca.
    exists h'. replace 60%R with a; [exact E|]. pose proof PI_RGT_0 as HP.
    assert (cos (a * PI / 180) = cos (PI / 3))%R as C by (rewrite cos_PI3; lra).
    assert (a * PI / 180 = PI / 3)%R as A3. { rewrite <- (acos_cos (a * PI / 180)), <- (acos_cos (PI / 3)), C; [reflexivity|lra|]. split; [|]; nra. }
    apply Rmult_eq_reg_r with (PI / 180)%R; [|lra]. transitivity (PI / 3)%R; [rewrite <- A3; field|field].
Qed.
