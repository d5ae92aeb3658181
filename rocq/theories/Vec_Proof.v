From Coq Require Import List Arith Bool Lia.
From Verif Require Import Py Alg ListX NdArray_Model NdArray_Proof Net_Model Net_Spec Vec_Spec Trav_Proof Acyc_Proof Link_Proof TEnv_Proof EnvThm_Proof.
Import ListNotations.
Local Open Scope nat_scope.

Lemma skipn_add {X} n a (v : list X) : skipn n (skipn a v) = skipn (n + a) v.
Proof.
  revert v. induction a as [|a IH]; intros v; [now rewrite Nat.add_0_r|].
  rewrite Nat.add_succ_r. destruct v; cbn; [now rewrite !skipn_nil|apply IH].
Qed.
Lemma slice_cover {X} (v : list X) : slice v 0 (length v) = v.
Proof. unfold slice. cbn. apply firstn_all. Qed.
Lemma slice_step {X} (v : list X) a n m : slice v a (n + m) = slice v a n ++ slice v (a + n) m.
Proof.
  unfold slice. revert a; intros a. replace (a + n) with (n + a) by lia. rewrite <- skipn_add. generalize (skipn a v) as w. clear.
  induction n as [|n IH]; intros w; [reflexivity|]. destruct w as [|x w]; cbn; [now rewrite firstn_nil|]. now rewrite IH.
Qed.

Lemma slice_app {X} (u v w : list X) : slice (u ++ v ++ w) (length u) (length v) = v.
Proof.
  unfold slice. rewrite skipn_app, skipn_all, Nat.sub_diag. cbn. rewrite firstn_app, firstn_all, Nat.sub_diag.
  cbn. apply app_nil_r.
Qed.
Lemma slice_length {X} (v : list X) a n : a + n <= length v -> length (slice v a n) = n.
Proof. intros H. unfold slice. rewrite firstn_length, skipn_length. lia. Qed.
Lemma slice_short {X} (v : list X) a n : a <= length v -> length v < a + n -> length (slice v a n) < n.
Proof. intros H1 H. unfold slice. rewrite firstn_length, skipn_length. lia. Qed.
Lemma slice_app_l {X} (v w : list X) a n : a + n <= length v -> slice (v ++ w) a n = slice v a n.
Proof.
  intros H. unfold slice. rewrite skipn_app, firstn_app, skipn_length.
  replace (n - (length v - a)) with 0 by lia. cbn. apply app_nil_r.
Qed.

Lemma concat_slices {X} (sz : nat -> nat) (v : list X) l : NoDup l -> forall st, st + total sz l <= length v ->
  concat (map (fun n => slice v (st + offset sz l n) (sz n)) l) = slice v st (total sz l).
Proof.
  induction 1 as [|x l Nx Nl IH]; intros st H; [reflexivity|]. cbn [map concat total offset] in *.
  rewrite Nat.eqb_refl, Nat.add_0_r, slice_step, <- IH by lia. f_equal. f_equal. apply map_ext_in.
  intros n Hn. destruct (Nat.eqb_spec n x) as [->|]; [tauto|]. now rewrite Nat.add_assoc.
Qed.

Lemma offset_bound sz l n : In n l -> offset sz l n + sz n <= total sz l.
Proof.
  induction l as [|x l IH]; intros H; [destruct H|]. cbn [offset total].
  destruct (Nat.eqb_spec n x) as [->|N]; [lia|]. destruct H; [congruence|]. specialize (IH H). lia.
Qed.
Lemma offset_order sz l1 n l2 m : ~ In m l1 -> ~ In n l1 -> m <> n ->
  offset sz (l1 ++ n :: l2) n + sz n <= offset sz (l1 ++ n :: l2) m.
Proof.
  induction l1 as [|x l1 IH]; intros Hm Hn N; cbn [app offset].
  - rewrite Nat.eqb_refl. destruct (Nat.eqb_spec m n); [congruence|]. lia.
  - cbn in Hm, Hn. destruct (Nat.eqb_spec n x) as [->|]; [tauto|]. destruct (Nat.eqb_spec m x) as [->|]; [tauto|].
    specialize (IH ltac:(tauto) ltac:(tauto) N). lia.
Qed.
Lemma offset_disjoint sz l n m : NoDup l -> In n l -> In m l -> n <> m ->
  offset sz l n + sz n <= offset sz l m \/ offset sz l m + sz m <= offset sz l n.
Proof.
  intros ND Hn Hm N. revert Hn Hm. induction ND as [|x l Nx ND IH]; intros Hn Hm; [destruct Hn|].
  cbn [offset]. destruct (Nat.eqb_spec n x) as [->|Nn]; destruct (Nat.eqb_spec m x) as [->|Nm]; try congruence; try (left; lia); try (right; lia).
  destruct Hn; [congruence|]. destruct Hm; [congruence|]. destruct IH; auto; lia.
Qed.
Lemma offset_concat {X} (d : nat -> list X) l n : In n l ->
  slice (concat (map d l)) (offset (fun n => length (d n)) l n) (length (d n)) = d n.
Proof.
  induction l as [|x l IH]; intros H; [destruct H|]. cbn [map concat offset].
  destruct (Nat.eqb_spec n x) as [->|N].
  - apply (slice_app [] (d x)).
  - destruct H; [congruence|]. unfold slice in *. rewrite Nat.add_comm, <- skipn_add, skipn_app, skipn_all, Nat.sub_diag.
    cbn [skipn app]. auto.
Qed.
Lemma total_concat {X} (d : nat -> list X) l : length (concat (map d l)) = total (fun n => length (d n)) l.
Proof. induction l as [|x l IH]; [reflexivity|]. cbn. now rewrite app_length, IH. Qed.
Lemma total_ext s s' l : (forall n, In n l -> s n = s' n) -> total s l = total s' l.
Proof. induction l as [|x l IH]; intros H; [reflexivity|]. cbn. rewrite (H x), IH; auto; [intros; apply H|]; cbn; auto. Qed.
Lemma offset_ext s s' l m : (forall n, In n l -> s n = s' n) -> offset s l m = offset s' l m.
Proof.
  induction l as [|x l IH]; intros H; [reflexivity|]. cbn. rewrite (H x), IH; auto; [intros; apply H|]; cbn; auto.
Qed.

Section Vec.
Variable K : StarRing.
Implicit Types h : heap K.
Implicit Types A : id -> arr K.

Lemma mapM_ok {X Y} (f : X -> res Y) (g : X -> Y) l : (forall x, In x l -> f x = Ok (g x)) -> mapM f l = Ok (map g l).
Proof.
  induction l as [|x l IH]; intros H; [reflexivity|]. cbn. rewrite (H x) by (left; auto). cbn.
  rewrite IH by (intros; apply H; right; auto). reflexivity.
Qed.

Lemma which_put ua a o : which ua (put_which (K:=K) ua a o) = Some a.
Proof. destruct ua; reflexivity. Qed.
Lemma oarr_put ua a o : oarr (put_which (K:=K) ua a o) = if ua then oarr o else Some a.
Proof. destruct ua; reflexivity. Qed.

Lemma loop_ok A v ua l : NoDup l -> forall h st,
  (forall n, In n l -> n < length h /\ oarr (hget h n) = Some (A n)) -> st + total (asize A) l <= length v ->
  exists h', tensorize_loop h l v st ua = Ok h' /\ length h' = length h /\
    (forall n, In n l -> hget h' n = put_which ua (mkArr (shape (A n)) (slice v (st + offset (asize A) l n) (asize A n))) (hget h n)) /\
    (forall n, ~ In n l -> hget h' n = hget h n).
Proof.
  induction 1 as [|x l Nx ND IH]; intros h st H L.
  - exists h. cbn. split; [reflexivity|]. split; [reflexivity|]. split; [intros n []|auto].
  - cbn [total] in L. cbn [tensorize_loop]. destruct (H x ltac:(left; auto)) as (Hl & ->).
    replace (st + prod (shape (A x)) - st) with (asize A x) by (unfold asize; lia). fold (asize A x).
    change (firstn (asize A x) (skipn st v)) with (slice v st (asize A x)).
    unfold reshape, size. cbn [shape data]. rewrite slice_length by lia.
    replace (prod (shape (A x)) =? asize A x) with true by (symmetry; apply Nat.eqb_eq; reflexivity).
    cbn [bind].
    set (b := mkArr (shape (A x)) (slice v st (asize A x))).
    destruct (IH (modify h x (if ua then put_aux (Some b) else put_arr (Some b))) (st + asize A x)) as (h' & E & Lh & G & O).
    + intros n Hn. rewrite length_modify. destruct (H n ltac:(right; auto)) as (? & En). split; auto.
      rewrite hget_modify_neq; auto. intros <-. auto.
    + lia.
    + exists h'. split; [exact E|]. split; [now rewrite Lh, length_modify|]. split.
      * intros n Hn. cbn [offset]. destruct (Nat.eqb_spec n x) as [->|N].
        -- rewrite O, hget_modify_eq by auto. rewrite Nat.add_0_r. fold b. destruct ua; reflexivity.
        -- destruct Hn; [congruence|]. rewrite G, hget_modify_neq by auto. now rewrite Nat.add_assoc.
      * intros n Hn. cbn in Hn. rewrite O by tauto. apply hget_modify_neq. tauto.
Qed.

Lemma loop_short A v ua l : NoDup l -> forall h st,
  (forall n, In n l -> n < length h /\ oarr (hget h n) = Some (A n)) -> st <= length v -> length v < st + total (asize A) l ->
  tensorize_loop h l v st ua = Raise ValueError.
Proof.
  induction 1 as [|x l Nx ND IH]; intros h st H Ls L; [cbn in L; lia|]. cbn [total] in L. cbn [tensorize_loop].
  destruct (H x ltac:(left; auto)) as (Hl & ->).
  replace (st + prod (shape (A x)) - st) with (asize A x) by (unfold asize; lia). fold (asize A x).
  change (firstn (asize A x) (skipn st v)) with (slice v st (asize A x)).
  unfold reshape, size. cbn [shape data].
  destruct (Nat.le_gt_cases (st + asize A x) (length v)) as [C|C].
  - rewrite slice_length by lia.
    replace (prod (shape (A x)) =? asize A x) with true by (symmetry; apply Nat.eqb_eq; reflexivity).
    cbn [bind]. apply IH; try lia. intros n Hn. rewrite length_modify. destruct (H n ltac:(right; auto)) as (? & En). split; auto.
    rewrite hget_modify_neq; auto. intros <-. auto.
  - pose proof (slice_short v st (asize A x) Ls C) as Q.
    replace (prod (shape (A x)) =? length (slice v st (asize A x))) with false; [reflexivity|].
    symmetry. apply Nat.eqb_neq. unfold asize in *. lia.
Qed.

Lemma visit_nids h t fuel : hangs h None t -> oaxis (hget h (top t)) = None -> height t <= fuel ->
  visitor fuel h (top t) (oaxis (hget h (top t))) false = Ok (nids t).
Proof. intros H Ax Hf. rewrite Ax. exact (visitor_hangs _ h t None fuel false H Hf). Qed.

Lemma vectorize_ok h t fuel A ua : hangs h None t -> oaxis (hget h (top t)) = None -> height t <= fuel ->
  (forall n, In n (nids t) -> which ua (hget h n) = Some (A n)) ->
  vectorize fuel h (top t) ua = Ok (concat (map (fun n => data (A n)) (nids t))).
Proof.
  intros H Ax Hf N. unfold vectorize. rewrite visit_nids by auto. cbn [bind].
  rewrite (mapM_ok _ (fun n => data (A n))).
  - cbn [bind]. destruct t as [n|n ks]; [inversion H|]. reflexivity.
  - intros n Hn. specialize (N n Hn). unfold which in N. now rewrite N.
Qed.

Lemma tensorize_ok h t fuel A ua v : hangs h None t -> no_self_slot h -> oaxis (hget h (top t)) = None -> height t <= fuel ->
  (forall n, In n (nids t) -> oarr (hget h n) = Some (A n)) -> total (asize A) (nids t) <= length v ->
  exists h', tensorize fuel h (top t) v ua = Ok h' /\ length h' = length h /\
    (forall n, In n (nids t) ->
       hget h' n = put_which ua (mkArr (shape (A n)) (slice v (offset (asize A) (nids t) n) (asize A n))) (hget h n)) /\
    (forall n, ~ In n (nids t) -> hget h' n = hget h n).
Proof.
  intros H NS Ax Hf N L. unfold tensorize. rewrite visit_nids by auto. cbn [bind].
  apply (loop_ok A v ua (nids t) (nids_nodup _ h t NS H) h 0); auto.
  intros n Hn. split; auto. eapply hangs_lt; eauto. now apply nids_ids.
Qed.

Lemma tensorize_short h t fuel A ua v : hangs h None t -> no_self_slot h -> oaxis (hget h (top t)) = None -> height t <= fuel ->
  (forall n, In n (nids t) -> oarr (hget h n) = Some (A n)) -> length v < total (asize A) (nids t) ->
  tensorize fuel h (top t) v ua = Raise ValueError.
Proof.
  intros H NS Ax Hf N L. unfold tensorize. rewrite visit_nids by auto. cbn [bind].
  apply (loop_short A v ua (nids t) (nids_nodup _ h t NS H) h 0); auto; [|lia].
  intros n Hn. split; auto. eapply hangs_lt; eauto. now apply nids_ids.
Qed.

Lemma heap_ext h h' : length h = length h' -> (forall n, hget h n = hget h' n) -> h = h'.
Proof. intros L E. apply (nth_ext_d no_obj); auto. intros i _. apply E. Qed.

Lemma put_which_same ua a o : which ua o = Some a -> put_which (K:=K) ua a o = o.
Proof. destruct o as [nm lf ar au ax nr ac ca], ua; cbn; intros ->; reflexivity. Qed.

Lemma total_sizes A l : (forall n, In n l -> wf (A n)) -> total (asize A) l = total (fun n => length (data (A n))) l.
Proof. intros W. apply total_ext. intros n Hn. unfold asize. symmetry. apply W; auto. Qed.

Lemma tensorize_vectorize h t fuel A ua : hangs h None t -> no_self_slot h -> oaxis (hget h (top t)) = None -> height t <= fuel ->
  (forall n, In n (nids t) -> oarr (hget h n) = Some (A n)) ->
  (forall n, In n (nids t) -> exists b, which ua (hget h n) = Some b /\ wf b /\ shape b = shape (A n)) ->
  exists v, vectorize fuel h (top t) ua = Ok v /\ tensorize fuel h (top t) v ua = Ok h.
Proof.
  intros H NS Ax Hf N W.
  set (B := fun n => match which ua (hget h n) with Some b => b | None => mkArr [] [] end).
  assert (HB : forall n, In n (nids t) -> which ua (hget h n) = Some (B n) /\ wf (B n) /\ shape (B n) = shape (A n)).
  { intros n Hn. destruct (W n Hn) as (b & E & Wb & Sb). unfold B. now rewrite E. }
  exists (concat (map (fun n => data (B n)) (nids t))). split; [apply vectorize_ok; auto; intros n Hn; now apply HB|].
  assert (Es : forall n, In n (nids t) -> asize A n = length (data (B n))).
  { intros n Hn. destruct (HB n Hn) as (_ & Wb & Sb). unfold asize. rewrite <- Sb. symmetry. exact Wb. }
  destruct (tensorize_ok h t fuel A ua (concat (map (fun n => data (B n)) (nids t))) H NS Ax Hf N) as (h' & E & L & G & O).
  { rewrite total_concat, (total_ext (asize A) (fun n => length (data (B n)))); auto. }
  rewrite E. f_equal. apply heap_ext; auto. intros n.
  destruct (in_dec Nat.eq_dec n (nids t)) as [Hn|Hn]; [|auto].
  rewrite G by auto. apply put_which_same. destruct (HB n Hn) as (E1 & Wb & Sb). rewrite E1. f_equal.
  rewrite (offset_ext (asize A) (fun n => length (data (B n)))) by auto.
  rewrite (Es n Hn), (offset_concat (fun n => data (B n))) by auto. rewrite <- Sb. destruct (B n); reflexivity.
Qed.

Lemma vectorize_tensorize h t fuel A ua v : hangs h None t -> no_self_slot h -> oaxis (hget h (top t)) = None -> height t <= fuel ->
  (forall n, In n (nids t) -> oarr (hget h n) = Some (A n)) -> length v = total (asize A) (nids t) ->
  exists h', tensorize fuel h (top t) v ua = Ok h' /\ vectorize fuel h' (top t) ua = Ok v.
Proof.
  intros H NS Ax Hf N L.
  destruct (tensorize_ok h t fuel A ua v H NS Ax Hf N) as (h' & E & Lh & G & O); [lia|].
  exists h'. split; auto.
  assert (Q : forall n, oleaf (hget h' n) = oleaf (hget h n) /\ oacc (hget h' n) = oacc (hget h n) /\ oaxis (hget h' n) = oaxis (hget h n)).
  { intros n. destruct (in_dec Nat.eq_dec n (nids t)) as [Hn|Hn]; [rewrite G by auto|rewrite O by auto; auto].
    destruct ua; auto. }
  set (B := fun n => mkArr (shape (A n)) (slice v (offset (asize A) (nids t) n) (asize A n))).
  rewrite (vectorize_ok h' t fuel B ua); auto.
  - f_equal. cbn [data B]. pose proof (concat_slices (asize A) v (nids t) (nids_nodup _ h t NS H) 0 ltac:(lia)) as C.
    cbn [Nat.add] in C. rewrite C, <- L. apply slice_cover.
  - eapply hangs_same; [|exact H]. intros n. destruct (Q n) as (? & ? & _). auto.
  - destruct (Q (top t)) as (_ & _ & ->). auto.
  - intros n Hn. rewrite G by auto. apply which_put.
Qed.

Lemma tensorize_tail h t fuel A ua v w : hangs h None t -> no_self_slot h -> oaxis (hget h (top t)) = None -> height t <= fuel ->
  (forall n, In n (nids t) -> oarr (hget h n) = Some (A n)) -> length v = total (asize A) (nids t) ->
  tensorize fuel h (top t) (v ++ w) ua = tensorize fuel h (top t) v ua.
Proof.
  intros H NS Ax Hf N L.
  destruct (tensorize_ok h t fuel A ua v H NS Ax Hf N) as (h1 & E1 & L1 & G1 & O1); [lia|].
  destruct (tensorize_ok h t fuel A ua (v ++ w) H NS Ax Hf N) as (h2 & E2 & L2 & G2 & O2); [rewrite app_length; lia|].
  rewrite E1, E2. f_equal. apply heap_ext; [congruence|]. intros n.
  destruct (in_dec Nat.eq_dec n (nids t)) as [Hn|Hn]; [|rewrite O1, O2; auto].
  rewrite G1, G2 by auto. rewrite slice_app_l; auto. rewrite L. apply offset_bound; auto.
Qed.

Lemma vec_slices A t n : (forall n, In n (nids t) -> wf (A n)) -> In n (nids t) ->
  slice (concat (map (fun n => data (A n)) (nids t))) (offset (asize A) (nids t) n) (asize A n) = data (A n).
Proof.
  intros W Hn. rewrite (offset_ext (asize A) (fun n => length (data (A n)))) by (intros; symmetry; apply W; auto).
  replace (asize A n) with (length (data (A n))) by (apply W; auto). now apply (offset_concat (fun n => data (A n))).
Qed.
End Vec.
