(** Arrays computed by [split] and [unite]. *)
From Coq Require Import List Arith Bool Lia Permutation Sorting.Sorted.
From Verif Require Import Py Alg ListX NdArray_Model NdArray_Proof Contract_Model Contract_Spec Contract_Proof
  Net_Model Net_Spec Link_Spec Move_Spec.
Import ListNotations.
Local Open Scope nat_scope.
Local Open Scope py_scope.

(** ** Lists of axes *)
Lemma sorted_app_last l i : Sorted lt (l ++ [i]) -> Forall (fun k => k < i) l.
Proof.
  intros H. apply Sorted_StronglySorted in H; [|intros a b c; lia].
  induction l as [|x l IH]; [constructor|]. cbn in H. inversion H as [|? ? H1 H2]; subst. constructor; auto.
  rewrite Forall_forall in H2. apply H2. apply in_app_iff. right. left. auto.
Qed.
Lemma sorted_prefix l l' : Sorted lt (l ++ l') -> Sorted lt l.
Proof.
  intros H. apply Sorted_StronglySorted in H; [|intros a b c; lia]. apply StronglySorted_Sorted.
  induction l as [|x l IH]; [constructor|]. cbn in H. inversion H as [|? ? H1 H2]; subst. constructor; auto.
  rewrite Forall_forall in H2 |- *. intros y Hy. apply H2. apply in_app_iff. auto.
Qed.
Lemma sorted_nodup l : Sorted lt l -> NoDup l.
Proof.
  intros H. apply Sorted_StronglySorted in H; [|intros a b c; lia].
  induction H as [|x l H IH F]; constructor; auto. rewrite Forall_forall in F. intros Hx. apply F in Hx. lia.
Qed.

Lemma existsb_In k l : existsb (Nat.eqb k) l = true <-> In k l.
Proof.
  rewrite existsb_exists. split; [intros (x & H & E); apply Nat.eqb_eq in E; congruence|].
  intros H. exists k. split; auto. apply Nat.eqb_refl.
Qed.
Lemma in_rest n l k : In k (rest n l) <-> k < n /\ ~ In k l.
Proof.
  unfold rest. rewrite filter_In, in_seq, negb_true_iff, <- (existsb_In k l).
  destruct (existsb (Nat.eqb k) l); split; intros (H & H'); split; try lia; congruence.
Qed.
Lemma rest_nodup n l : NoDup (rest n l).
Proof. apply NoDup_filter, seq_NoDup. Qed.
Lemma rest_perm n l : NoDup l -> Forall (fun k => k < n) l -> Permutation (l ++ rest n l) (seq 0 n).
Proof.
  intros D F. apply NoDup_Permutation; [|apply seq_NoDup|].
  - assert (G : forall l2, NoDup l2 -> (forall x, In x l -> ~ In x l2) -> NoDup (l ++ l2)).
    { clear F. induction D as [|x l Hx D IH]; intros l2 D2 X; auto. cbn. constructor.
      - rewrite in_app_iff. intros [H|H]; [tauto|]. apply (X x); [left; auto|auto].
      - apply IH; auto. intros y Hy. apply X. right. auto. }
    apply G; [apply rest_nodup|]. intros x Hx H. apply in_rest in H. tauto.
  - intros x. rewrite in_app_iff, in_rest, in_seq. rewrite Forall_forall in F. split.
    + intros [H|H]; [apply F in H|]; lia.
    + intros H. destruct (in_dec Nat.eq_dec x l); [auto|]. right. split; [lia|auto].
Qed.
Lemma rest_length n l : NoDup l -> Forall (fun k => k < n) l -> length (rest n l) = n - length l.
Proof.
  intros D F. pose proof (Permutation_length (rest_perm n l D F)) as E. rewrite app_length, seq_length in E. lia.
Qed.
Lemma filter_all_id {A} (f : A -> bool) l : (forall x, In x l -> f x = true) -> filter f l = l.
Proof.
  induction l as [|x l IH]; intros H; auto. cbn. rewrite (H x) by (left; auto). f_equal. apply IH. intros; apply H; right; auto.
Qed.

Lemma rest_split n l i : Forall (fun k => k < i) l -> NoDup l -> i < n ->
  rest n l = rest i l ++ i :: seq (S i) (n - S i) /\ rest n (l ++ [i]) = rest i l ++ seq (S i) (n - S i) /\
  length (l ++ rest i l) = i.
Proof.
  intros F D Hi. rewrite Forall_forall in F.
  assert (E : seq 0 n = seq 0 i ++ i :: seq (S i) (n - S i)).
  { replace n with (i + S (n - S i)) at 1 by lia. now rewrite seq_app. }
  split; [|split].
  - unfold rest at 1. rewrite E, filter_app. f_equal. apply filter_all_id. intros x Hx. apply negb_true_iff.
    destruct (existsb (Nat.eqb x) l) eqn:B; auto. apply existsb_In in B. apply F in B.
    destruct Hx as [<-|Hx]; [lia|]. apply in_seq in Hx. lia.
  - unfold rest at 1. rewrite E, filter_app. f_equal.
    + unfold rest. apply filter_ext_in. intros x Hx. f_equal. apply in_seq in Hx. rewrite existsb_app. cbn.
      replace (x =? i) with false by (symmetry; apply Nat.eqb_neq; lia). now rewrite !orb_false_r.
    + cbn [filter]. rewrite existsb_app. cbn [existsb]. rewrite Nat.eqb_refl, !orb_true_r. cbn [negb].
      apply filter_all_id. intros x Hx. apply in_seq in Hx. apply negb_true_iff. rewrite existsb_app. cbn.
      replace (x =? i) with false by (symmetry; apply Nat.eqb_neq; lia). rewrite !orb_false_r.
      destruct (existsb (Nat.eqb x) l) eqn:B; auto. apply existsb_In in B. apply F in B. lia.
  - assert (F' : Forall (fun k => k < i) l) by (apply Forall_forall; auto).
    rewrite app_length, rest_length by auto.
    pose proof (Permutation_length (rest_perm i l D F')) as P. rewrite app_length, seq_length, rest_length in P by auto. lia.
Qed.

Section SplitArr.
Variable K : StarRing.
Implicit Types a b c m u s v x y : arr K.
Add Ring Kr : (r_theory K).

Lemma permuted_refl a : wf a -> permuted a (seq 0 (ndim a)) a.
Proof.
  intros W. split; auto. split; [symmetry; apply gather_all|].
  intros idx H. rewrite <- (in_range_len _ _ H : length idx = ndim a). now rewrite gather_all.
Qed.

Lemma permuted_move a o c i n : permuted a o c -> Permutation o (seq 0 (ndim a)) -> i < ndim a -> n < ndim a ->
  exists c', moveaxis c [i] [n] = Ok c' /\ permuted a (ins n (nth i o 0) (del i o)) c'.
Proof.
  intros (W & S & G) P Hi Hn.
  assert (Lo : length o = ndim a) by (rewrite (Permutation_length P), seq_length; auto).
  assert (Nc : ndim c = ndim a) by (unfold ndim at 1; rewrite S; unfold gather; now rewrite map_length).
  unfold moveaxis. cbn [app forallb]. rewrite Nc.
  apply Nat.ltb_lt in Hi as Hi', Hn as Hn'. rewrite Hi', Hn'. cbn [andb].
  eexists. split; [reflexivity|]. rewrite moveaxis_order_single by auto.
  assert (M : forall idx, gather (gather idx o) (ins n i (del i (seq 0 (ndim a))))
              = gather idx (ins n (nth i o 0) (del i o))).
  { intros idx. assert (Ls : length (gather idx o) = ndim a) by (unfold gather; rewrite map_length; auto).
    rewrite <- Ls. rewrite gather_move by lia. unfold gather. rewrite map_ins, map_del. f_equal.
    rewrite (nth_indep _ 0 (nth 0 idx 0)) by (rewrite map_length; lia).
    now rewrite (map_nth (fun k => nth k idx 0)). }
  split; [apply wf_transpose|]. split.
  - unfold transpose. cbn [shape build]. rewrite S. apply M.
  - intros idx H. rewrite <- M, get_transpose.
    + apply G; auto.
    + rewrite Nc. apply perm_move. auto.
    + rewrite S. apply gather_in_range; auto. apply perm_seq_lt in P. rewrite Forall_forall in P |- *.
      intros k Hk. apply P; auto.
Qed.

Lemma move_front_ok a : wf a -> forall axes done c,
  Sorted lt (done ++ axes) -> Forall (fun k => k < ndim a) (done ++ axes) ->
  permuted a (done ++ rest (ndim a) done) c ->
  exists c', move_front c (length done) axes = Ok c' /\ permuted a ((done ++ axes) ++ rest (ndim a) (done ++ axes)) c'.
Proof.
  intros W. induction axes as [|i axes IH]; intros done c So Fo P.
  - exists c. rewrite !app_nil_r. auto.
  - cbn [move_front]. change (i :: axes) with ([i] ++ axes) in So, Fo |- *. rewrite app_assoc in So, Fo |- *.
    pose proof (sorted_prefix _ _ So) as So1. pose proof (sorted_app_last _ _ So1) as Lt.
    pose proof (sorted_nodup _ (sorted_prefix _ _ So1)) as Dn.
    assert (Fd : Forall (fun k => k < ndim a) done).
    { rewrite Forall_forall in Fo |- *. intros k Hk. apply Fo. rewrite !in_app_iff. auto. }
    assert (Hi : i < ndim a).
    { rewrite Forall_forall in Fo. apply Fo. rewrite !in_app_iff. cbn. auto. }
    destruct (rest_split (ndim a) done i Lt Dn Hi) as (E1 & E2 & E3).
    destruct (permuted_move a (done ++ rest (ndim a) done) c i (length done) P) as (c1 & M & P1); auto.
    + apply rest_perm; auto.
    + rewrite app_length in E3. lia.
    + rewrite M. cbn [bind]. specialize (IH (done ++ [i]) c1 So Fo).
      rewrite app_length in IH. cbn [length] in IH. rewrite Nat.add_1_r in IH. apply IH.
      rewrite E1 in P1. rewrite app_assoc in P1.
      replace (nth i ((done ++ rest i done) ++ i :: seq (S i) (ndim a - S i)) 0) with i in P1.
      2:{ rewrite app_nth2 by lia. rewrite E3, Nat.sub_diag. reflexivity. }
      pose proof (del_at i (done ++ rest i done) (seq (S i) (ndim a - S i))) as Q. rewrite E3 in Q. rewrite Q in P1. clear Q.
      rewrite <- app_assoc in P1. rewrite ins_at in P1.
      rewrite E2, <- app_assoc. exact P1.
Qed.

Lemma gather_length idx l : length (gather idx l) = length l.
Proof. apply map_length. Qed.

Lemma permuted_matrix a l c : Forall (fun k => k < ndim a) l ->
  permuted a (l ++ rest (ndim a) l) c ->
  exists m, reshape c [prod (gather (shape a) l); prod (gather (shape a) (rest (ndim a) l))] = Ok m /\ matricized a l m.
Proof.
  intros F (W & S & G). rewrite gather_app in S.
  eexists. split.
  - apply reshape_ok; auto. rewrite S, prod_app. cbn. lia.
  - split; [|split].
    + unfold wf in *. cbn [data shape]. rewrite W, S, prod_app. cbn. lia.
    + reflexivity.
    + intros idx H. rewrite <- G by auto. unfold get. cbn [shape data]. rewrite S. f_equal.
      rewrite gather_app, ravel_app.
      * cbn. lia.
      * apply gather_in_range; auto.
Qed.

Lemma gather_surj_part a l idx1 : NoDup l -> Forall (fun k => k < ndim a) l ->
  Forall (fun d => 0 < d) (shape a) -> in_range idx1 (gather (shape a) l) ->
  exists idx, in_range idx (shape a) /\ gather idx l = idx1.
Proof.
  intros D F P H.
  assert (H2 : in_range (map (fun _ => 0) (rest (ndim a) l)) (gather (shape a) (rest (ndim a) l))).
  { rewrite Forall_forall in P. unfold in_range, gather.
    assert (G : forall k, In k (rest (ndim a) l) -> 0 < nth k (shape a) 0).
    { intros k Hk. apply in_rest in Hk. apply P. apply nth_In. apply Hk. }
    induction (rest (ndim a) l) as [|k r IH]; cbn; constructor; [apply G; left; auto|apply IH; intros; apply G; right; auto]. }
  pose proof (in_range_app _ _ _ _ H H2) as H3. rewrite <- gather_app in H3.
  destruct (gather_surj (shape a) (l ++ rest (ndim a) l) _ (rest_perm _ _ D F) H3) as (idx & R & E).
  exists idx. split; auto. rewrite gather_app in E.
  assert (LL : length idx1 = length (gather idx l)).
  { rewrite (in_range_len _ _ H), !gather_length. auto. }
  revert E LL. generalize (gather idx l) as p. generalize (map (fun _ : nat => 0) (rest (ndim a) l)) as q.
  generalize (gather idx (rest (ndim a) l)) as q'. clear. intros q' q p E LL.
  revert p E LL. induction idx1 as [|x i IH]; intros [|y p] E LL; try discriminate; auto.
  cbn in E. inversion E; subst. f_equal. apply IH; auto.
Qed.

(** The two arrays computed by [split]. *)
Lemma left_part_ok a l i1 u s r : NoDup l -> Forall (fun k => k < ndim a) l ->
  Forall (fun d => 0 < d) (shape a) -> i1 <= length l ->
  is_matrix u (prod (gather (shape a) l)) r -> is_matrix s r r ->
  exists us x0 x, matmul u s = Ok us /\ reshape_infer us (gather (shape a) l) [] = Ok x0 /\
    moveaxis x0 [length (gather (shape a) l)] [i1] = Ok x /\ left_part a l i1 r u s x.
Proof.
  intros D F P Hi (Wu & Su) (Ws & Ss). set (sh := gather (shape a) l).
  assert (Pp : prod sh <> 0).
  { assert (Q : Forall (fun d => 0 < d) sh).
    { apply Forall_forall. intros d Hd. unfold sh, gather in Hd. apply in_map_iff in Hd. destruct Hd as (k & <- & Hk).
      rewrite Forall_forall in P, F. apply P, nth_In, F. auto. }
    clear -Q. induction Q as [|d sh Hd Q IH]; cbn; nia. }
  assert (Ls : length sh = length l) by apply gather_length.
  rewrite (matmul_ok K u s (prod sh) r r Su Ss). eexists. 
  set (us := build _ _). rewrite (reshape_infer_ok K us sh [] r); [|apply wf_build|cbn; lia|cbn; lia].
  eexists. set (x0 := mkArr _ _).
  assert (Nx : ndim x0 = S (length sh)) by (unfold ndim; cbn; rewrite app_length; cbn; lia).
  rewrite (moveaxis_single K x0) by lia. eexists. split; [reflexivity|]. split; [reflexivity|]. split; [reflexivity|].
  assert (E1 : nth (length sh) (shape x0) 0 = r).
  { cbn [shape x0]. rewrite app_nth2 by lia. now rewrite Nat.sub_diag. }
  assert (E2 : del (length sh) (shape x0) = sh).
  { cbn [shape x0]. rewrite (del_at r sh []). apply app_nil_r. }
  rewrite E1, E2. split; [apply wf_build|]. split; [reflexivity|].
  intros idx b Hx Hb.
  assert (R : in_range (gather idx l) sh) by (apply gather_in_range; auto).
  assert (Lg : length (gather idx l) = length sh) by (rewrite gather_length; auto).
  rewrite get_build by (apply in_range_ins; auto).
  rewrite nth_ins_eq by lia. rewrite del_ins by lia. rewrite <- Lg, ins_length.
  rewrite (get_reshape_data K (sh ++ [r]) [prod sh; r] (data us) _ [ravel sh (gather idx l); b]).
  - change (mkArr [prod sh; r] (data us)) with us. unfold us. rewrite get_build; [reflexivity|].
    apply in_range2; auto. apply ravel_lt; auto.
  - rewrite ravel_app by auto. cbn. lia.
Qed.

Lemma right_part_ok a l i2 v r : NoDup l -> Forall (fun k => k < ndim a) l ->
  Forall (fun d => 0 < d) (shape a) -> i2 <= length (rest (ndim a) l) ->
  is_matrix v r (prod (gather (shape a) (rest (ndim a) l))) ->
  exists y0 y, reshape_infer v [] (gather (shape a) (rest (ndim a) l)) = Ok y0 /\
    moveaxis y0 [0] [i2] = Ok y /\ right_part a l i2 r v y.
Proof.
  intros D F P Hi (Wv & Sv). set (l' := rest (ndim a) l) in *. set (sh := gather (shape a) l').
  assert (F' : Forall (fun k => k < ndim a) l').
  { apply Forall_forall. intros k Hk. apply in_rest in Hk. tauto. }
  assert (Pp : prod sh <> 0).
  { assert (Q : Forall (fun d => 0 < d) sh).
    { apply Forall_forall. intros d Hd. unfold sh, gather in Hd. apply in_map_iff in Hd. destruct Hd as (k & <- & Hk).
      rewrite Forall_forall in P, F'. apply P, nth_In, F'. auto. }
    clear -Q. induction Q as [|d sh Hd Q IH]; cbn; nia. }
  assert (Ls : length sh = length l') by apply gather_length.
  fold sh in Sv. rewrite (reshape_infer_ok K v [] sh r); [|auto|rewrite Sv; cbn; lia|cbn; lia].
  eexists. set (y0 := mkArr _ _).
  assert (Ny : ndim y0 = S (length sh)) by (unfold ndim; cbn; lia).
  rewrite (moveaxis_single K y0) by lia. eexists. split; [reflexivity|]. split; [reflexivity|].
  change (nth 0 (shape y0) 0) with r. change (del 0 (shape y0)) with sh.
  split; [apply wf_build|]. split; [reflexivity|].
  intros idx b Hx Hb. fold l' sh.
  assert (R : in_range (gather idx l') sh) by (apply gather_in_range; auto).
  assert (Lg : length (gather idx l') = length sh) by (rewrite gather_length; auto).
  rewrite get_build by (apply in_range_ins; auto).
  rewrite nth_ins_eq by lia. rewrite del_ins by lia. rewrite ins_0.
  unfold get, y0. cbn [shape data app]. rewrite Sv. f_equal. cbn. lia.
Qed.

Lemma parts_ok a l i1 i2 r u s v m x y : Forall (fun k => k < ndim a) l ->
  matricized a l m -> triple m u s v r -> exact m u s v r ->
  left_part a l i1 r u s x -> right_part a l i2 r v y -> parts a l i1 i2 r x y.
Proof.
  intros F (Wm & Sm & Gm) T E (Wx & Sx & Gx) (Wy & Sy & Gy).
  split; auto. split; auto. split; auto. split; auto. intros idx H.
  assert (F' : Forall (fun k => k < ndim a) (rest (ndim a) l)).
  { apply Forall_forall. intros k Hk. apply in_rest in Hk. tauto. }
  rewrite <- Gm by auto. rewrite <- E.
  2:{ rewrite Sm. cbn [nth]. apply ravel_lt, gather_in_range; auto. }
  2:{ rewrite Sm. cbn [nth]. apply ravel_lt, gather_in_range; auto. }
  transitivity (sumn r (fun l0 => sumn r (fun k => rmul (rmul (get u [ravel (gather (shape a) l) (gather idx l); k]) (get s [k; l0]))
    (get v [l0; ravel (gather (shape a) (rest (ndim a) l)) (gather idx (rest (ndim a) l))])))).
  - apply sumn_ext. intros b Hb. rewrite Gx, Gy by auto. symmetry. apply sumn_scal_r.
  - apply sumn_swap.
Qed.

End SplitArr.
