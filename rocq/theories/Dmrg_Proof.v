(** Sweeps. *)
From Coq Require Import String Ascii List Arith Bool Lia Ring.
From Verif Require Import Py Alg Ord ListX NdArray_Model NdArray_Proof Svd_Model Svd_Spec Svd_Proof Mps_Model Mps_Spec Mps_Proof MpsEnv_Proof Dmrg_Spec.
Import ListNotations.
Local Open Scope nat_scope.
Notation length := Datatypes.length.

(** ** Lists *)
Lemma upd_app {X} (l r : list X) x y : upd (length l) x (l ++ y :: r) = l ++ x :: r.
Proof.
  unfold upd. rewrite app_length. cbn [length]. destruct (Nat.ltb_spec (length l) (length l + S (length r))); [|lia].
  rewrite firstn_app, firstn_all, Nat.sub_diag. cbn [firstn]. rewrite app_nil_r. f_equal. f_equal.
  rewrite skipn_app, skipn_all2 by lia. replace (S (length l) - length l) with 1 by lia. reflexivity.
Qed.
Lemma split_at {X} (l : list X) i : i < length l -> exists a x b, l = a ++ x :: b /\ length a = i.
Proof.
  intros H. destruct (nth_error l i) as [x|] eqn:E; [|apply nth_error_None in E; lia].
  apply nth_error_split in E as (a & b & -> & <-). eauto.
Qed.
Lemma split_at2 {X} (l : list X) i : S i < length l -> exists a x y b, l = a ++ x :: y :: b /\ length a = i.
Proof.
  intros H. destruct (split_at l i) as (a & x & b & -> & La); [lia|]. rewrite app_length in H. cbn [length] in H. destruct b as [|y b]; [cbn in H; lia|]. eauto 6.
Qed.
Lemma firstn_pre {X} (a b : list X) q : q <= length a -> firstn q (a ++ b) = firstn q a.
Proof. intros. rewrite firstn_app. replace (q - length a) with 0 by lia. apply app_nil_r. Qed.
Lemma skipn_post {X} (a b : list X) q : length a <= q -> skipn q (a ++ b) = skipn (q - length a) b.
Proof. intros. rewrite skipn_app, skipn_all2 by lia. reflexivity. Qed.
Lemma firstn_S_app {X} (a b : list X) x : firstn (S (length a)) (a ++ x :: b) = a ++ [x].
Proof. rewrite firstn_app, firstn_all2 by lia. replace (S (length a) - length a) with 1 by lia. reflexivity. Qed.
Lemma firstn_app_eq {X} (a b : list X) : firstn (length a) (a ++ b) = a.
Proof. rewrite firstn_app, firstn_all, Nat.sub_diag. apply app_nil_r. Qed.
Lemma skipn_app_eq {X} (a b : list X) : skipn (length a) (a ++ b) = b.
Proof. rewrite skipn_app, skipn_all, Nat.sub_diag. reflexivity. Qed.
Lemma skipn_S_app {X} (a b : list X) x : skipn (S (length a)) (a ++ x :: b) = b.
Proof. rewrite skipn_app, skipn_all2 by lia. replace (S (length a) - length a) with 1 by lia. reflexivity. Qed.

Section Ops.
Variable K : StarRing.
Variable F : OrdRing.
Add Ring Kdm : (r_theory K).
Local Open Scope star_scope.
Variable inj : F -> K.

Lemma size_wf (a : arr K) : wf a -> size a = prod (shape a).
Proof. auto. Qed.

Lemma get_diag' (l : list K) x y : (x < length l)%nat -> (y < length l)%nat -> get (diag l) [x; y] = if (x =? y)%nat then nth x l 0 else 0.
Proof. intros. unfold diag. rewrite get_build by (apply in_range2; auto). reflexivity. Qed.

(** [np.matmul(np.diag(S), V)] and [np.matmul(U, np.diag(S))] *)
Lemma diag_left (s : list F) (V : arr K) m : shape V = [length s; m] ->
  exists c, matmul (diag (map inj s)) V = Ok c /\ wf c /\ shape c = [length s; m] /\
  forall r j, (r < length s)%nat -> (j < m)%nat -> get c [r; j] = inj (nth r s r0) * get V [r; j].
Proof.
  intros SV. eexists. split; [apply (matmul_ok K _ _ (length s) (length s) m); auto; unfold diag; rewrite shape_build, map_length; reflexivity|].
  split; [apply wf_build|]. split; [reflexivity|]. intros r j Hr Hj. rewrite get_build by (apply in_range2; auto). cbn [nth].
  rewrite (sumn_single K _ r); auto.
  - rewrite get_diag' by (rewrite map_length; auto). rewrite Nat.eqb_refl. f_equal. rewrite (nth_indep _ 0 (inj r0)) by (rewrite map_length; auto). apply map_nth.
  - intros k Hk Hne. rewrite get_diag' by (rewrite map_length; auto). rewrite (proj2 (Nat.eqb_neq r k)) by auto. ring.
Qed.
Lemma diag_right (s : list F) (U : arr K) m : shape U = [m; length s] ->
  exists c, matmul U (diag (map inj s)) = Ok c /\ wf c /\ shape c = [m; length s] /\
  forall i r, (i < m)%nat -> (r < length s)%nat -> get c [i; r] = get U [i; r] * inj (nth r s r0).
Proof.
  intros SU. eexists. split; [apply (matmul_ok K _ _ m (length s) (length s)); auto; unfold diag; rewrite shape_build, map_length; reflexivity|].
  split; [apply wf_build|]. split; [reflexivity|]. intros i r Hi Hr. rewrite get_build by (apply in_range2; auto). cbn [nth].
  rewrite (sumn_single K _ r); auto.
  - rewrite get_diag' by (rewrite map_length; auto). rewrite Nat.eqb_refl. f_equal. rewrite (nth_indep _ 0 (inj r0)) by (rewrite map_length; auto). apply map_nth.
  - intros k Hk Hne. rewrite get_diag' by (rewrite map_length; auto). rewrite (proj2 (Nat.eqb_neq k r)) by auto. ring.
Qed.

(** Truncation *)
Lemma compress_shapes (U V : arr K) (s : list F) m k k' : shape U = [k; length s] -> shape V = [length s; k'] ->
  let '(U', s', V', _) := compress_svd U s V m in
  s' = firstn m s /\ length s' = min (length s) m /\ wf U' /\ shape U' = [k; length s'] /\ wf V' /\ shape V' = [length s'; k'] /\
  (forall i r, (i < k)%nat -> (r < length s')%nat -> get U' [i; r] = get U [i; r]) /\ (forall r j, (r < length s')%nat -> (j < k')%nat -> get V' [r; j] = get V [r; j]).
Proof.
  intros SU SV. unfold compress_svd. assert (Ls : length (firstn (min (length s) m) s) = min (length s) m) by (rewrite firstn_length; lia).
  split; [|split; [exact Ls|]].
  { destruct (Nat.le_ge_cases (length s) m); [rewrite Nat.min_l, !firstn_all2 by lia; reflexivity|rewrite Nat.min_r by lia; reflexivity]. }
  unfold take_cols, take_rows. rewrite SU, SV, Ls. cbn [nth]. rewrite Nat.min_l by lia.
  split; [apply wf_build|]. split; [reflexivity|]. split; [apply wf_build|]. split; [reflexivity|].
  split; intros; rewrite get_build by (apply in_range2; auto); reflexivity.
Qed.

Variable svd : arr K -> arr K * list F * arr K.

(** ** Moving the centre *)
Lemma move_right_ok (A N : arr K) s i j t k trunc U sv V :
  wf A -> wf N -> shape A = [s; i; j] -> shape N = [t; j; k] -> (0 < s)%nat -> (0 < i)%nat ->
  svd (mkArr [(s * i)%nat; j] (data A)) = (U, sv, V) -> wf U -> shape U = [(s * i)%nat; length sv] -> shape V = [length sv; j] ->
  let r := min (length sv) trunc in
  exists A' N', move_right inj svd A N trunc = Ok (A', N') /\ wf A' /\ wf N' /\ shape A' = [s; i; r] /\ shape N' = [t; r; k] /\
    (forall s' i' r', (s' < s)%nat -> (i' < i)%nat -> (r' < r)%nat -> get A' [s'; i'; r'] = get U [(s' * i + i')%nat; r']) /\
    (forall t' r' k', (t' < t)%nat -> (r' < r)%nat -> (k' < k)%nat -> get N' [t'; r'; k'] = sumn j (fun j' => inj (nth r' sv r0) * get V [r'; j'] * get N [t'; j'; k'])).
Proof.
  intros WA WN SA SN Hs Hi ES WU SU SV r. unfold move_right. rewrite SA. rewrite (reshape_ok K A) by (auto; rewrite SA; cbn; lia). cbn [bind]. rewrite ES.
  pose proof (compress_shapes U V sv trunc _ _ SU SV) as C. destruct (compress_svd U sv V trunc) as [[[U' s'] V'] e] eqn:EC. destruct C as (Es & Ls & WU' & SU' & WV' & SV' & GU & GV).
  fold r in Ls. rewrite Ls in SU', SV', GU, GV.
  rewrite (reshape_infer_ok K U' [s; i] [] r); [|assumption|rewrite SU'; cbn; lia|cbn; nia]. cbn [bind app].
  destruct (diag_left s' V' j) as (SVm & E1 & W1 & S1 & G1); [rewrite Ls; auto|]. rewrite E1. cbn [bind]. rewrite Ls in S1, G1.
  destruct (es_mj_tjk K SVm N j k r t S1 SN) as (N' & E2 & W2 & S2 & G2). rewrite E2. cbn [bind].
  eexists. exists N'. split; [reflexivity|]. split; [unfold wf in *; cbn [data shape]; rewrite WU', SU'; cbn; lia|].
  split; [exact W2|]. split; [reflexivity|]. split; [exact S2|]. split.
  - intros a b c Ha Hb Hc. rewrite <- GU by (auto; nia). rewrite (arr_eta K U'), SU'. apply get_reshape_data. cbn. lia.
  - intros a b c Ha Hb Hc. rewrite G2 by auto. apply sumn_ext. intros j' Hj. rewrite G1, GV by auto. f_equal. f_equal. f_equal. rewrite Es.
    rewrite <- (firstn_skipn trunc sv) at 2. rewrite app_nth1; [reflexivity|]. rewrite firstn_length. lia.
Qed.

Lemma move_left_ok (A P : arr K) s i j t h trunc U sv V :
  wf A -> wf P -> shape A = [s; i; j] -> shape P = [t; h; i] -> (0 < s)%nat -> (0 < j)%nat ->
  svd (mkArr [i; (s * j)%nat] (data (transpose A [1; 0; 2]%nat))) = (U, sv, V) -> shape U = [i; length sv] -> wf V -> shape V = [length sv; (s * j)%nat] ->
  let r := min (length sv) trunc in
  exists A' P', move_left inj svd A P trunc = Ok (A', P') /\ wf A' /\ wf P' /\ shape A' = [s; r; j] /\ shape P' = [t; h; r] /\
    (forall s' r' j', (s' < s)%nat -> (r' < r)%nat -> (j' < j)%nat -> get A' [s'; r'; j'] = get V [r'; (s' * j + j')%nat]) /\
    (forall t' h' r', (t' < t)%nat -> (h' < h)%nat -> (r' < r)%nat -> get P' [t'; h'; r'] = sumn i (fun i' => get P [t'; h'; i'] * (get U [i'; r'] * inj (nth r' sv r0)))).
Proof.
  intros WA WP SA SP Hs Hj ES SU WV SV r. unfold move_left. rewrite SA.
  assert (WT : wf (transpose A [1; 0; 2]%nat)) by apply wf_build. assert (ST : shape (transpose A [1; 0; 2]%nat) = [i; s; j]) by (unfold transpose; rewrite shape_build, SA; reflexivity).
  rewrite (reshape_ok K (transpose A [1; 0; 2]%nat)) by (auto; rewrite ST; cbn; lia). cbn [bind]. rewrite ES.
  pose proof (compress_shapes U V sv trunc _ _ SU SV) as C. destruct (compress_svd U sv V trunc) as [[[U' s'] V'] e] eqn:EC. destruct C as (Es & Ls & WU' & SU' & WV' & SV' & GU & GV).
  fold r in Ls. rewrite Ls in SU', SV', GU, GV.
  rewrite (reshape_infer_ok K V' [] [s; j] r); [|assumption|rewrite SV'; cbn; lia|cbn; nia]. cbn [bind app].
  destruct (diag_right s' U' i) as (USm & E1 & W1 & S1 & G1); [rewrite Ls; auto|]. rewrite E1. cbn [bind]. rewrite Ls in S1, G1.
  destruct (es_rhi_im K P USm h i r t SP S1) as (N' & E2 & W2 & S2 & G2). rewrite E2. cbn [bind].
  eexists. exists N'. split; [reflexivity|]. split; [apply wf_build|].
  split; [exact W2|]. split; [reflexivity|]. split; [exact S2|]. split.
  - intros a b c Ha Hb Hc. change (get (transpose (mkArr [r; s; j] (data V')) [1; 0; 2]%nat) (gather [b; a; c] [1; 0; 2]%nat) = get V [b; (a * j + c)%nat]).
    rewrite get_transpose; [|cbn; apply Permutation.perm_swap|repeat constructor; auto]. rewrite <- GV by (auto; nia).
    rewrite (arr_eta K V'), SV'. apply get_reshape_data. cbn. lia.
  - intros a b c Ha Hb Hc. rewrite G2 by auto. apply sumn_ext. intros j' Hj'. rewrite G1, GU by auto. f_equal. f_equal. f_equal. rewrite Es.
    rewrite <- (firstn_skipn trunc sv) at 2. rewrite app_nth1; [reflexivity|]. rewrite firstn_length. lia.
Qed.

Lemma fine_ok (C : arr K) d1 d2 i k right trunc U sv V :
  wf C -> shape C = [(d1 * d2)%nat; i; k] -> (0 < d1)%nat -> (0 < d2)%nat -> (0 < i)%nat -> (0 < k)%nat ->
  svd (mkArr [(d1 * i)%nat; (d2 * k)%nat] (data (transpose (mkArr [d1; d2; i; k] (data C)) [0; 2; 1; 3]%nat))) = (U, sv, V) ->
  wf U -> shape U = [(d1 * i)%nat; length sv] -> wf V -> shape V = [length sv; (d2 * k)%nat] ->
  let r := if (trunc =? 0)%nat then length sv else min (length sv) trunc in
  exists A B, fine_grain_mps inj svd C d1 d2 right trunc = Ok (A, B) /\ wf A /\ wf B /\ shape A = [d1; i; r] /\ shape B = [d2; r; k] /\
    (forall s' i' r', (s' < d1)%nat -> (i' < i)%nat -> (r' < r)%nat -> get A [s'; i'; r'] = if right then get U [(s' * i + i')%nat; r'] else get U [(s' * i + i')%nat; r'] * inj (nth r' sv r0)) /\
    (forall t' r' k', (t' < d2)%nat -> (r' < r)%nat -> (k' < k)%nat -> get B [t'; r'; k'] = if right then inj (nth r' sv r0) * get V [r'; (t' * k + k')%nat] else get V [r'; (t' * k + k')%nat]).
Proof.
  intros WC SC H1 H2 Hi Hk ES WU SU WV SV r. unfold fine_grain_mps. rewrite SC.
  rewrite (reshape_ok K C) by (auto; rewrite SC; cbn; lia). cbn [bind].
  set (T := transpose (mkArr [d1; d2; i; k] (data C)) [0; 2; 1; 3]%nat) in *.
  assert (WT : wf T) by apply wf_build. assert (ST : shape T = [d1; i; d2; k]) by (unfold T, transpose; rewrite shape_build; reflexivity).
  rewrite (reshape_ok K T) by (auto; rewrite ST; cbn; lia). cbn [bind]. rewrite ES.
  assert (X : exists U' s' V', (if (trunc =? 0)%nat then (U, sv, V) else let '(U, sv, V, _) := compress_svd U sv V trunc in (U, sv, V)) = (U', s', V') /\
     length s' = r /\ wf U' /\ shape U' = [(d1 * i)%nat; r] /\ wf V' /\ shape V' = [r; (d2 * k)%nat] /\
     (forall x y, (x < d1 * i)%nat -> (y < r)%nat -> get U' [x; y] = get U [x; y]) /\ (forall x y, (x < r)%nat -> (y < d2 * k)%nat -> get V' [x; y] = get V [x; y]) /\
     forall x, (x < r)%nat -> nth x s' r0 = nth x sv r0).
  { unfold r. destruct (Nat.eqb_spec trunc 0) as [Z|Z].
    - exists U, sv, V. do 6 (split; auto).
    - pose proof (compress_shapes U V sv trunc _ _ SU SV) as C0. destruct (compress_svd U sv V trunc) as [[[U' s'] V'] e]. destruct C0 as (Es & Ls & WU' & SU' & WV' & SV' & GU & GV).
      rewrite Ls in SU', SV', GU, GV. exists U', s', V'. do 8 (split; auto). intros x Hx. rewrite Es.
      rewrite <- (firstn_skipn trunc sv) at 2. rewrite app_nth1; [reflexivity|]. rewrite firstn_length. lia. }
  destruct X as (U' & s' & V' & EX & Ls & WU' & SU' & WV' & SV' & GU & GV & Gs). rewrite EX. clear EX.
  assert (X : exists A B, (if (right : bool) then bind (matmul (diag (map inj s')) V') (fun B => Ok (U', B)) else bind (matmul U' (diag (map inj s'))) (fun A => Ok (A, V'))) = Ok (A, B) /\
     wf A /\ wf B /\ shape A = [(d1 * i)%nat; r] /\ shape B = [r; (d2 * k)%nat] /\
     (forall x y, (x < d1 * i)%nat -> (y < r)%nat -> get A [x; y] = if right then get U [x; y] else get U [x; y] * inj (nth y sv r0)) /\
     (forall x y, (x < r)%nat -> (y < d2 * k)%nat -> get B [x; y] = if right then inj (nth x sv r0) * get V [x; y] else get V [x; y])).
  { destruct right.
    - destruct (diag_left s' V' (d2 * k)) as (c & E1 & W1 & S1 & G1); [rewrite Ls; auto|]. rewrite E1. cbn [bind]. rewrite Ls in S1, G1.
      exists U', c. do 6 (split; auto). intros x y Hx Hy. rewrite G1, GV, Gs by auto. reflexivity.
    - destruct (diag_right s' U' (d1 * i)) as (c & E1 & W1 & S1 & G1); [rewrite Ls; auto|]. rewrite E1. cbn [bind]. rewrite Ls in S1, G1.
      exists c, V'. do 5 (split; auto). split; auto. intros x y Hx Hy. rewrite G1, GU, Gs by auto. reflexivity. }
  destruct X as (A & B & EX & WA & WB & SA & SB & GA & GB). rewrite EX. clear EX. cbn [bind fst snd].
  rewrite (reshape_infer_ok K A [d1; i] [] r); [|assumption|rewrite SA; cbn; lia|cbn; nia]. cbn [bind app].
  rewrite (reshape_infer_ok K B [] [d2; k] r); [|assumption|rewrite SB; cbn; lia|cbn; nia]. cbn [bind app].
  eexists. eexists. split; [reflexivity|]. split; [unfold wf in *; cbn [data shape]; rewrite WA, SA; cbn; lia|]. split; [apply wf_build|].
  split; [reflexivity|]. split; [reflexivity|]. split.
  - intros a b c Ha Hb Hc. rewrite <- GA by (auto; nia). rewrite (arr_eta K A), SA. apply get_reshape_data. cbn. lia.
  - intros a b c Ha Hb Hc.
    change (get (transpose (mkArr [r; d2; k] (data B)) [1; 0; 2]%nat) (gather [b; a; c] [1; 0; 2]%nat) = if right then inj (nth b sv r0) * get V [b; (a * k + c)%nat] else get V [b; (a * k + c)%nat]).
    rewrite get_transpose; [|cbn; apply Permutation.perm_swap|repeat constructor; auto]. rewrite <- GB by (auto; nia).
    rewrite (arr_eta K B), SB. apply get_reshape_data. cbn. lia.
Qed.

(** Exact decompositions that are not truncated keep the product of the two matrices. *)
Lemma move_right_exact (A N : arr K) s i j t k trunc U sv V A' N' :
  wf A -> wf N -> shape A = [s; i; j] -> shape N = [t; j; k] -> (0 < s)%nat -> (0 < i)%nat ->
  svd (mkArr [(s * i)%nat; j] (data A)) = (U, sv, V) -> factorises inj (mkArr [(s * i)%nat; j] (data A)) (s * i) j U sv V -> (length sv <= trunc)%nat ->
  move_right inj svd A N trunc = Ok (A', N') ->
  forall s' t' i' k', (s' < s)%nat -> (t' < t)%nat -> (i' < i)%nat -> (k' < k)%nat ->
    sumn (length sv) (fun r => get A' [s'; i'; r] * get N' [t'; r; k']) = sumn j (fun j' => get A [s'; i'; j'] * get N [t'; j'; k']).
Proof.
  intros WA WN SA SN Hs Hi ES (WU & SU & WV & SV & G) Ht E s' t' i' k' Hs' Ht' Hi' Hk'.
  destruct (move_right_ok A N s i j t k trunc U sv V) as (A0 & N0 & E0 & _ & _ & _ & _ & GA & GN); auto. assert (X : A0 = A' /\ N0 = N') by (split; congruence). destruct X. subst A0 N0.
  rewrite Nat.min_l in GA, GN by auto.
  transitivity (sumn (length sv) (fun r => sumn j (fun j' => get U [(s' * i + i')%nat; r] * inj (nth r sv r0) * get V [r; j'] * get N [t'; j'; k']))).
  - apply sumn_ext. intros r Hr. rewrite GA, GN by auto. rewrite <- sumn_scal_l. apply sumn_ext. intros j' Hj'. ring.
  - rewrite sumn_swap. apply sumn_ext. intros j' Hj'. rewrite sumn_scal_r. f_equal. rewrite <- G by (auto; nia). rewrite (arr_eta K A), SA. apply get_reshape_data. cbn. lia.
Qed.
Lemma move_left_exact (A P : arr K) s i j t h trunc U sv V A' P' :
  wf A -> wf P -> shape A = [s; i; j] -> shape P = [t; h; i] -> (0 < s)%nat -> (0 < j)%nat ->
  svd (mkArr [i; (s * j)%nat] (data (transpose A [1; 0; 2]%nat))) = (U, sv, V) -> factorises inj (mkArr [i; (s * j)%nat] (data (transpose A [1; 0; 2]%nat))) i (s * j) U sv V -> (length sv <= trunc)%nat ->
  move_left inj svd A P trunc = Ok (A', P') ->
  forall s' t' h' j', (s' < s)%nat -> (t' < t)%nat -> (h' < h)%nat -> (j' < j)%nat ->
    sumn (length sv) (fun r => get P' [t'; h'; r] * get A' [s'; r; j']) = sumn i (fun i' => get P [t'; h'; i'] * get A [s'; i'; j']).
Proof.
  intros WA WP SA SP Hs Hj ES (WU & SU & WV & SV & G) Ht E s' t' h' j' Hs' Ht' Hh' Hj'.
  destruct (move_left_ok A P s i j t h trunc U sv V) as (A0 & P0 & E0 & _ & _ & _ & _ & GA & GP); auto. assert (X : A0 = A' /\ P0 = P') by (split; congruence). destruct X. subst A0 P0.
  rewrite Nat.min_l in GA, GP by auto.
  transitivity (sumn (length sv) (fun r => sumn i (fun i' => get P [t'; h'; i'] * (get U [i'; r] * inj (nth r sv r0) * get V [r; (s' * j + j')%nat])))).
  - apply sumn_ext. intros r Hr. rewrite GA, GP by auto. rewrite <- sumn_scal_r. apply sumn_ext. intros i' Hi'. ring.
  - rewrite sumn_swap. apply sumn_ext. intros i' Hi'. rewrite sumn_scal_l. f_equal. rewrite <- G by (auto; nia).
    transitivity (get (transpose A [1; 0; 2]%nat) (gather [s'; i'; j'] [1; 0; 2]%nat)).
    + rewrite (arr_eta K (transpose A [1; 0; 2]%nat)) at 2. apply get_reshape_data. unfold transpose. rewrite shape_build, SA. cbn. lia.
    + apply get_transpose; [unfold ndim; rewrite SA; cbn; apply Permutation.perm_swap|rewrite SA; repeat constructor; auto].
Qed.
Lemma fine_exact (C : arr K) d1 d2 i k right trunc U sv V A B :
  wf C -> shape C = [(d1 * d2)%nat; i; k] -> (0 < d1)%nat -> (0 < d2)%nat -> (0 < i)%nat -> (0 < k)%nat ->
  let M := mkArr [(d1 * i)%nat; (d2 * k)%nat] (data (transpose (mkArr [d1; d2; i; k] (data C)) [0; 2; 1; 3]%nat)) in
  svd M = (U, sv, V) -> factorises inj M (d1 * i) (d2 * k) U sv V -> trunc = O \/ (length sv <= trunc)%nat ->
  fine_grain_mps inj svd C d1 d2 right trunc = Ok (A, B) ->
  forall s t i' k', (s < d1)%nat -> (t < d2)%nat -> (i' < i)%nat -> (k' < k)%nat ->
    sumn (length sv) (fun r => get A [s; i'; r] * get B [t; r; k']) = get C [(s * d2 + t)%nat; i'; k'].
Proof.
  intros WC SC H1 H2 Hi Hk M ES (WU & SU & WV & SV & G) Ht E s t i' k' Hs Ht' Hi' Hk'.
  destruct (fine_ok C d1 d2 i k right trunc U sv V) as (A0 & B0 & E0 & _ & _ & _ & _ & GA & GB); auto. assert (X : A0 = A /\ B0 = B) by (split; congruence). destruct X. subst A0 B0.
  assert (R : (if (trunc =? 0)%nat then length sv else min (length sv) trunc) = length sv) by (destruct (Nat.eqb_spec trunc 0); auto; lia).
  rewrite R in GA, GB.
  transitivity (sumn (length sv) (fun r => get U [(s * i + i')%nat; r] * inj (nth r sv r0) * get V [r; (t * k + k')%nat])).
  - apply sumn_ext. intros r Hr. rewrite GA, GB by auto. destruct right; ring.
  - rewrite <- G by nia. set (T := mkArr [d1; d2; i; k] (data C)) in *.
    transitivity (get (transpose T [0; 2; 1; 3]%nat) (gather [s; t; i'; k'] [0; 2; 1; 3]%nat)).
    + unfold M. rewrite (arr_eta K (transpose T [0; 2; 1; 3]%nat)) at 2. apply get_reshape_data. unfold transpose. rewrite shape_build. cbn. lia.
    + rewrite get_transpose; [|cbn; constructor; apply Permutation.perm_swap|repeat constructor; auto].
      unfold T. rewrite (arr_eta K C) at 2. rewrite SC. apply get_reshape_data. cbn. lia.
Qed.
End Ops.
