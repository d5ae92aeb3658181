(** Proofs about propagation on a grid. *)
From Coq Require Import List Arith Bool Lia Reals Lra ZArith Sorting.Sorted Permutation.
From Verif Require Import Py Alg Cplx ListX NdArray_Model Grid_Model Grid_Spec Grid_Proof Wave_Model Wave_Spec.
Import ListNotations.
Notation length := Datatypes.length.
Local Open Scope nat_scope.
Local Open Scope star_scope.
Add Ring Cwv : (r_theory C_star).

(** ** Linear interpolation at its own points *)
Notation key_lt := (fun p q : knot => (fst p < fst q)%R).
Lemma insert_perm p l : Permutation (insert p l) (p :: l).
Proof. induction l as [|q l IH]; cbn [insert]; [reflexivity|]. destruct (Rle_dec _ _); [reflexivity|]. rewrite IH. apply perm_swap. Qed.
Lemma sort_perm l : Permutation (sort l) l.
Proof. induction l as [|p l IH]; cbn [sort fold_right]; [reflexivity|]. rewrite insert_perm. fold (sort l). now rewrite IH. Qed.
Lemma insert_sorted p l : ~ In (fst p) (map fst l) -> StronglySorted key_lt l -> StronglySorted key_lt (insert p l).
Proof.
  intros N. induction l as [|q l IH]; intros HS; cbn [insert]; [repeat constructor|]. inversion HS as [|? ? H1 H2]; subst. cbn [map In] in N. destruct (Rle_dec (fst p) (fst q)) as [L|L].
  - assert (L' : (fst p < fst q)%R) by (destruct L as [L|L]; [exact L|destruct N; left; now symmetry]). constructor; [exact HS|]. constructor; [exact L'|]. eapply Forall_impl; [|exact H2]. cbv beta. intros a Ha. lra.
  - constructor; [apply IH; auto|]. apply (Permutation_Forall (Permutation_sym (insert_perm p l))). constructor; [lra|exact H2].
Qed.
Lemma sort_sorted l : NoDup (map fst l) -> StronglySorted key_lt (sort l).
Proof.
  induction l as [|p l IH]; intros N; cbn [sort fold_right]; [constructor|]. inversion N as [|? ? N1 N2]; subst. apply insert_sorted; [|apply IH; auto].
  intros I. apply N1. apply (Permutation_in _ (Permutation_map fst (sort_perm l))). exact I.
Qed.
Lemma sorted_split l1 p l2 : StronglySorted key_lt (l1 ++ p :: l2) -> Forall (fun q => (fst q < fst p)%R) l1 /\ Forall (fun q => (fst p < fst q)%R) l2.
Proof.
  induction l1 as [|q l1 IH]; cbn [app]; intros H; inversion H as [|? ? H1 H2]; subst; [split; [constructor|exact H2]|]. destruct (IH H1) as (A & B). split; [|exact B]. constructor; [|exact A]. rewrite Forall_forall in H2. apply H2. apply in_or_app. right. now left.
Qed.
Lemma below_split l1 p l2 : StronglySorted key_lt (l1 ++ p :: l2) -> below (fst p) (l1 ++ p :: l2) = length l1.
Proof.
  intros H. destruct (sorted_split _ _ _ H) as (A & B). unfold below. rewrite filter_app, app_length. cbn [filter]. destruct (Rlt_dec (fst p) (fst p)) as [X|_]; [lra|].
  assert (E1 : filter (fun q : knot => if Rlt_dec (fst q) (fst p) then true else false) l1 = l1).
  { clear -A. induction A as [|q l Hq _ IH]; [reflexivity|]. cbn [filter]. destruct (Rlt_dec _ _); [now rewrite IH|contradiction]. }
  assert (E2 : filter (fun q : knot => if Rlt_dec (fst q) (fst p) then true else false) l2 = []).
  { clear -B. induction B as [|q l Hq _ IH]; [reflexivity|]. cbn [filter]. destruct (Rlt_dec _ _); [lra|exact IH]. }
  rewrite E1, E2. cbn [length]. lia.
Qed.
Lemma interp_knot l x y : 2 <= length l -> StronglySorted key_lt l -> In (x, y) l -> interp_at l x = Ok y.
Proof.
  intros Hl HS I. apply in_split in I. destruct I as (l1 & l2 & ->). pose proof (below_split l1 (x, y) l2 HS) as Eb. destruct (sorted_split _ _ _ HS) as (A & B). cbn [fst] in *.
  assert (Lo : forall d, (fst (nth 0 (l1 ++ (x, y) :: l2) d) <= x)%R).
  { intros d. destruct l1 as [|q l1]; cbn [app nth fst]; [lra|]. inversion A; subst. lra. }
  assert (Hi : forall d, (x <= fst (last (l1 ++ (x, y) :: l2) d))%R).
  { intros d. destruct l2 as [|q l2]; [rewrite last_last; cbn [fst]; lra|]. assert (In (last (l1 ++ (x, y) :: q :: l2) d) (q :: l2)).
    { clear. change (l1 ++ (x, y) :: q :: l2) with (l1 ++ [(x, y)] ++ q :: l2). rewrite app_assoc. rewrite (app_removelast_last (l := q :: l2) d) at 1 by discriminate. rewrite app_assoc, last_last. destruct (@exists_last _ (q :: l2) ltac:(discriminate)) as (u & z & ->). rewrite last_last. apply in_or_app. right. now left. }
    rewrite Forall_forall in B. specialize (B _ H). cbn [fst] in B. lra. }
  unfold interp_at. rewrite Eb. set (l := l1 ++ (x, y) :: l2) in *. destruct l as [|d l'] eqn:El; [cbn [length] in Hl; lia|]. rewrite <- El in *.
  assert (Hd : nth 0 l d = d) by now rewrite El. specialize (Lo d). specialize (Hi d). rewrite Hd in Lo.
  destruct (Rlt_dec x (fst d)) as [X|_]; [lra|]. destruct (Rlt_dec (fst (last l d)) x) as [X|_]; [lra|]. cbv zeta. f_equal.
  assert (En : forall d, nth (length l1) l d = (x, y)) by (intros d'; unfold l; rewrite app_nth2, Nat.sub_diag by lia; reflexivity).
  assert (Ll : length l = (length l1 + S (length l2))%nat) by (unfold l; rewrite app_length; reflexivity).
  destruct l1 as [|q l1].
  - cbn [length] in *. replace (Nat.min (Nat.max 0 1) (length l - 1))%nat with 1%nat by lia. rewrite Nat.sub_diag, En. cbn [fst snd]. replace (x - x)%R with 0%R by ring. change (RtoC 0) with (0 : C_star). ring.
  - cbn [length] in *. replace (Nat.min (Nat.max (S (length l1)) 1) (length l - 1))%nat with (S (length l1)) by lia. rewrite En. cbn [fst snd]. replace (S (length l1) - 1)%nat with (length l1) by lia. set (p := nth (length l1) l d).
    assert (Hp : (fst p < x)%R). { rewrite Forall_forall in A. apply A. unfold p, l. rewrite app_nth1 by (cbn [length]; lia). apply nth_In. cbn [length]. lia. }
    transitivity ((y - snd p) * (RtoC (/ (x - fst p)) * RtoC (x - fst p)) + snd p); [ring|]. rewrite <- RtoC_mul. replace (/ (x - fst p) * (x - fst p))%R with 1%R by (field; lra). change (RtoC 1) with (1 : C_star). ring.
Qed.
Lemma mapM_Forall2 {A B} (f : A -> res B) l l' : Forall2 (fun x y => f x = Ok y) l l' -> mapM f l = Ok l'.
Proof. induction 1 as [|x y l l' E _ IH]; [reflexivity|]. cbn [mapM]. rewrite E. cbn [bind]. now rewrite IH. Qed.
Lemma fst_combine {A B} (l : list A) : forall l' : list B, length l' = length l -> map fst (combine l l') = l.
Proof. induction l as [|x l IH]; intros [|y l'] H; try discriminate; cbn; auto. f_equal. apply IH. cbn [length] in H. lia. Qed.
Lemma interp_row_own xs ys : NoDup xs -> 2 <= length xs -> length ys = length xs -> interp_row xs ys xs = Ok ys.
Proof.
  intros N Hl E. unfold interp_row. apply mapM_Forall2. set (l := sort (combine xs ys)).
  assert (HS : StronglySorted key_lt l) by (apply sort_sorted; rewrite fst_combine; auto).
  assert (Ll : 2 <= length l) by (unfold l; rewrite (Permutation_length (sort_perm _)), combine_length, E; lia).
  assert (H : forall p, In p (combine xs ys) -> interp_at l (fst p) = Ok (snd p)).
  { intros p I. apply interp_knot; auto. apply (Permutation_in _ (Permutation_sym (sort_perm _))). destruct p; exact I. }
  clearbody l. clear N Hl HS Ll. revert ys E H. induction xs as [|x xs IH]; intros [|y ys] E H; try discriminate; constructor; [apply (H (x, y)); now left|]. apply IH; [cbn [length] in E; lia|]. intros p I. apply H. now right.
Qed.
Lemma interp_own one s xs w : NoDup xs -> 2 <= length xs -> fits one s (length xs) w -> exists g, interp1d xs w = Ok g /\ g xs = Ok w.
Proof.
  intros N Hl F. destruct w as [v|vs]; cbn [fits] in F; destruct F as (_ & Es & F); cbn [interp1d].
  - rewrite F, Nat.eqb_refl. eexists. split; [reflexivity|]. cbv beta. rewrite interp_row_own by auto. reflexivity.
  - replace (forallb _ vs) with true by (symmetry; apply forallb_forall; intros v I; rewrite Forall_forall in F; apply Nat.eqb_eq; auto). eexists. split; [reflexivity|]. cbv beta.
    rewrite (mapM_Forall2 _ vs vs); [reflexivity|]. clear Es. induction F as [|v vs Hv _ IH]; constructor; auto. apply interp_row_own; auto.
Qed.

(** ** The transform *)
Lemma ft_vec_at g w n v : length v = n -> 2 <= n -> exists u, ft_vec g w v = Ok u /\ length u = n /\ forall k, k < n -> nth k u 0 = RtoC (factor g w n) * centred (sign_of (g_kind g)) n (fun m => nth m v 0) k.
Proof. intros <- H. apply ft_vec_ok. intros ->. cbn [length] in H. lia. Qed.
Lemma ft_many g w n vs : Forall (fun v : list C_star => length v = n) vs -> 2 <= n -> exists us, mapM (ft_vec g w) vs = Ok us /\ length us = length vs /\ Forall (fun v => length v = n) us /\
  forall a k, a < length vs -> k < n -> nth k (nth a us []) 0 = RtoC (factor g w n) * centred (sign_of (g_kind g)) n (fun m => nth m (nth a vs []) 0) k.
Proof.
  intros F Hn. induction F as [|v vs Hv _ (us & E & L & Fu & G)].
  - exists []. repeat split; auto. intros a k Ha. cbn [length] in Ha. lia.
  - destruct (ft_vec_at g w n v Hv Hn) as (u & Eu & Lu & Gu). exists (u :: us). cbn [mapM]. rewrite Eu. cbn [bind]. rewrite E. split; [reflexivity|]. split; [cbn [length]; lia|]. split; [constructor; auto|].
    intros [|a] k Ha Hk; cbn [nth]; [apply Gu; auto|]. apply G; auto. cbn [length] in Ha. lia.
Qed.
Section Ready.
Variables (h : gheap) (i j : nat).
Hypothesis HR : ready h i j.
Notation g := (gget h i). Notation g' := (gget h j). Notation n := (length (g_space g)).
Lemma ready_sym : ready h j i.
Proof. destruct HR as (A & B & C & D & E & F & G & H & I). repeat split; auto; apply E || apply D. Qed.
Lemma ready_conj : conjugate g g'.
Proof. destruct HR as (A & B & C & D & E & F & _). specialize (A i B). rewrite F in A. apply A. Qed.
Lemma ready_len : length (g_space g') = n.
Proof. destruct ready_conj as (_ & _ & H & _). exact H. Qed.
Lemma ready_kind : ft_sign (g_kind g') = (- ft_sign (g_kind g))%Z.
Proof. destruct ready_conj as (H & _). destruct (g_kind g), (g_kind g'); cbn; congruence. Qed.
Lemma ready_ge : 2 <= n.
Proof. destruct HR as (_ & _ & _ & D & _). apply D. Qed.
Lemma ft_sign_of k : ft_sign k = sign_of k.
Proof. now destruct k. Qed.
(** The factors of the two transforms *)
Definition fac (h : gheap) (i j : nat) : R := match width (gget h j) with Ok w => factor (gget h i) w (length (g_space (gget h i))) | Raise _ => 0%R end.
Lemma fac_inverse : (fac h i j * fac h j i * INR n = 1)%R.
Proof.
  destruct ready_conj as (Ck & Cb & Cl & w & w' & Ew & Ew' & M). unfold fac. rewrite Ew, Ew', Cl. pose proof ready_ge as Hn. destruct HR as (_ & _ & _ & (_ & Hb & _) & _).
  assert (N0 : INR n <> 0%R) by (apply not_0_INR; lia). pose proof PI_RGT_0. assert (P2 : (0 < 2 * PI * g_hbar g)%R) by (apply Rmult_lt_0_compat; lra).
  assert (W0 : w <> 0%R /\ w' <> 0%R). { split; intros ->; rewrite ?Rmult_0_l, ?Rmult_0_r in M; symmetry in M; apply Rmult_integral in M as [M|M]; auto; lra. } destruct W0 as (W0 & W0').
  assert (SQ : (sqrt (2 * PI * g_hbar g) * sqrt (2 * PI * g_hbar g) = 2 * PI * g_hbar g)%R) by (apply sqrt_sqrt; lra).
  unfold factor. rewrite Cb, Cl. set (s := sqrt (2 * PI * g_hbar g)) in *. set (nn := INR n) in *. assert (X : (s * s * nn / (w * w') = 1)%R) by (rewrite M, SQ; field; split; [auto|split; lra]).
  destruct (g_kind g), (g_kind g'); try congruence; etransitivity; [|exact X| |exact X]; field; auto.
Qed.
Lemma ft_at one s w : fits one s n w -> exists w', ft h i w = Ok (h, w') /\ fits one s n w' /\ forall a k, a < s -> k < n -> val w' a k = RtoC (fac h i j) * centred (ft_sign (g_kind g)) n (val w a) k.
Proof.
  intros F. destruct ready_conj as (_ & _ & _ & x & x' & _ & Ew & _). unfold ft, conj_of, fac. destruct HR as (_ & _ & _ & _ & _ & Cc & _). rewrite Cc. cbn [bind fst snd]. rewrite Ew. cbn [bind].
  destruct w as [v|vs]; cbn [fits] in F; destruct F as (E1 & Es & F).
  - destruct (ft_vec_at g x' n v F ready_ge) as (u & Eu & Lu & Gu). rewrite Eu. exists (One u). split; [reflexivity|]. split; [cbn [fits]; auto|]. intros a k Ha Hk. cbn [val]. rewrite ft_sign_of. apply Gu. exact Hk.
  - destruct (ft_many g x' n vs F ready_ge) as (us & Eu & Lu & Fu & Gu). rewrite Eu. exists (Many us). split; [reflexivity|]. split; [cbn [fits]; repeat split; auto; congruence|]. intros a k Ha Hk. cbn [val]. rewrite ft_sign_of. apply Gu; auto. congruence.
Qed.
Lemma ft_fun_at one s f w : f (g_space g) = Ok w -> fits one s n w -> exists f' w', ft_fun h i f = Ok (h, f') /\ f' (g_space g') = Ok w' /\ fits one s n w' /\
  forall a k, a < s -> k < n -> val w' a k = RtoC (fac h i j) * centred (ft_sign (g_kind g)) n (val w a) k.
Proof.
  intros E F. destruct (ft_at one s w F) as (w' & E' & F' & G). pose proof HR as (_ & _ & _ & _ & _ & Cc & _ & _ & N).
  assert (F2 : fits one s (length (g_space g')) w') by (rewrite ready_len; exact F').
  destruct (interp_own one s (g_space g') w' N ltac:(rewrite ready_len; apply ready_ge) F2) as (f' & Ei & Eo).
  exists f', w'. split; [|auto]. unfold ft_fun. rewrite E. cbn [bind]. rewrite E'. cbn [bind fst snd]. unfold conj_of. rewrite Cc. cbn [bind fst snd]. rewrite Ei. reflexivity.
Qed.
End Ready.

(** ** A pass of the loop *)
Definition acts {V} (one : bool) (s : nat) (expo : C_star -> (R -> V) -> wave -> wave) (M : C_star -> V -> nat -> nat -> C_star) (ok : V -> Prop) : Prop :=
  forall c v xs f psi, (forall x, In x xs -> ok (v x)) -> sampled one s xs f psi -> sampled one s xs (expo c v f) (at_points s (fun k => M c (v (nth k xs 0%R))) psi).
Lemma at_points_ext s M psi psi' a k : (forall b, b < s -> psi b k = psi' b k) -> at_points s M psi a k = at_points s M psi' a k.
Proof. intros H. unfold at_points. apply sumn_ext. intros b Hb. now rewrite H. Qed.
Lemma ft_sampled h i j one s f psi : ready h i j -> sampled one s (g_space (gget h i)) f psi -> exists f', ft_fun h i f = Ok (h, f') /\
  sampled one s (g_space (gget h j)) f' (fun a k => RtoC (fac h i j) * centred (ft_sign (g_kind (gget h i))) (length (g_space (gget h i))) (psi a) k).
Proof.
  intros HR (w & E & F & G). destruct (ft_fun_at h i j HR one s f w E F) as (f' & w' & E' & Ew & F' & G'). exists f'. split; [exact E'|]. exists w'. split; [exact Ew|]. rewrite (ready_len h i j HR). split; [exact F'|].
  intros a k Ha Hk. rewrite G' by auto. f_equal. apply centred_ext. intros m Hm. apply G; auto.
Qed.
Lemma sampled_ext one s xs f psi psi' : (forall a k, a < s -> k < length xs -> psi a k = psi' a k) -> sampled one s xs f psi -> sampled one s xs f psi'.
Proof. intros H (w & E & F & G). exists w. split; [exact E|]. split; [exact F|]. intros a k Ha Hk. rewrite G by auto. auto. Qed.
Lemma at_points_scale s M c psi a k : at_points s M (fun b l => c * psi b l) a k = c * at_points s M psi a k.
Proof. unfold at_points. rewrite <- sumn_scal_l. apply sumn_ext. intros. ring. Qed.
Section Pass.
Context {V : Type} (one : bool) (s : nat) (expo : C_star -> (R -> V) -> wave -> wave) (M : C_star -> V -> nat -> nat -> C_star) (ok : V -> Prop).
Hypothesis HA : acts one s expo M ok.
Variables (simps : list C_star -> list R -> C_star) (h : gheap) (i j : nat) (v t : pot V).
Hypothesis HR : ready h i j.
Notation xs := (g_space (gget h i)). Notation ps := (g_space (gget h j)). Notation n := (length (g_space (gget h i))). Notation hb := (g_hbar (gget h i)).
Hypothesis OV : forall time x, In x xs -> ok (with_time v time x).
Hypothesis OT : forall time x, In x ps -> ok (with_time t time x).
Definition half_v (time dt : R) (k : nat) : nat -> nat -> C_star := M (0, - (dt / 2 / hb))%R (with_time v time (nth k xs 0%R)).
Definition full_t (time dt : R) (l : nat) : nat -> nat -> C_star := M (0, - (dt / hb))%R (with_time t time (nth l ps 0%R)).
Lemma pass_ok time dt f c psi : sampled one s xs f psi ->
  exists f', prop_step expo simps i j v t time dt false (mkProp h f c) = Ok (mkProp h f' c) /\ sampled one s xs f' (split_step (ft_sign (g_kind (gget h i))) s n (half_v time dt) (full_t time dt) psi).
Proof.
  intros H. unfold prop_step. cbn [p_heap p_wfn p_coeff].
  pose proof (HA (0, - (dt / 2 / hb))%R (with_time v time) xs f psi (OV time) H) as H1. destruct (ft_sampled h i j one s _ _ HR H1) as (f1 & E1 & H2). rewrite E1. cbn [bind fst snd].
  pose proof (HA (0, - (dt / hb))%R (with_time t time) ps f1 _ (OT time) H2) as H3. destruct (ft_sampled h j i one s _ _ (ready_sym h i j HR) H3) as (f2 & E2 & H4). rewrite E2. cbn [bind fst snd].
  pose proof (HA (0, - (dt / 2 / hb))%R (with_time v time) xs f2 _ (OV time) H4) as H5. eexists. split; [reflexivity|]. eapply sampled_ext; [|exact H5].
  intros a k Ha Hk. unfold split_step. apply at_points_ext. intros b Hb. cbv beta. rewrite (ready_kind h i j HR), (ready_len h i j HR).
  rewrite (centred_ext _ _ _ (fun l => RtoC (fac h i j) * at_points s (full_t time dt) (fun c l => centred (ft_sign (g_kind (gget h i))) n (at_points s (half_v time dt) psi c) l) b l)).
  - rewrite centred_scale. pose proof (fac_inverse h i j HR) as FI. assert (N0 : INR n <> 0%R) by (intros Z; rewrite Z, Rmult_0_r in FI; lra). transitivity (RtoC (fac h i j * fac h j i) * centred (- ft_sign (g_kind (gget h i))) n (at_points s (full_t time dt) (fun c l => centred (ft_sign (g_kind (gget h i))) n (at_points s (half_v time dt) psi c) l) b) k); [rewrite RtoC_mul; ring|].
    f_equal. f_equal. apply (Rmult_eq_reg_r (INR n)); [|exact N0]. rewrite FI. field. exact N0.
  - intros l Hl. unfold full_t. rewrite <- at_points_scale. reflexivity.
Qed.
Lemma passes_ok t0 dt k : forall f c psi, sampled one s xs f psi ->
  exists f', passes expo simps i j v t t0 dt false k (mkProp h f c) = Ok (mkProp h f' c) /\
    sampled one s xs f' (split_steps (ft_sign (g_kind (gget h i))) s n (fun m => half_v (t0 + INR m * dt) dt) (fun m => full_t (t0 + INR m * dt) dt) k psi).
Proof.
  induction k as [|k IH]; intros f c psi H; [exists f; split; [reflexivity|exact H]|]. cbn [passes split_steps]. destruct (IH f c psi H) as (f1 & E1 & H1). rewrite E1. cbn [bind]. apply pass_ok. exact H1.
Qed.
End Pass.
