(** Facts about the numpy array model. *)
From Coq Require Import List Arith Bool Lia Permutation Ring.
From Verif Require Import Py Alg ListX NdArray_Model.
Import ListNotations.
Local Open Scope nat_scope.

(** ** Shapes and indices *)

Lemma prod_app a b : prod (a ++ b) = prod a * prod b.
Proof. induction a as [|x a IH]; cbn; [lia|]. rewrite IH. lia. Qed.

Lemma prod_perm a b : Permutation a b -> prod a = prod b.
Proof. induction 1; cbn; lia. Qed.

Lemma prod_ins i x l : prod (ins i x l) = x * prod l.
Proof. rewrite (prod_perm _ _ (Permutation_ins i x l)). reflexivity. Qed.

Lemma prod_del i l : i < length l -> nth i l 0 * prod (del i l) = prod l.
Proof. intros H. rewrite <- prod_ins with (i := i), ins_del; auto. Qed.

Lemma length_indices sh : length (indices sh) = prod sh.
Proof.
  induction sh as [|n sh IH]; [reflexivity|]. cbn [indices prod].
  rewrite <- IH. generalize (indices sh) as l; intros l.
  assert (H : forall s, length (flat_map (fun i => map (cons i) l) (seq s n)) = n * length l).
  { clear. induction n as [|n IH]; intros s; [reflexivity|]. cbn [seq flat_map].
    rewrite app_length, map_length, IH. reflexivity. }
  apply H.
Qed.

Lemma in_indices sh idx : In idx (indices sh) <-> in_range idx sh.
Proof.
  revert idx; induction sh as [|n sh IH]; intros idx; cbn [indices].
  - split.
    + intros [<-|[]]. constructor.
    + intros H; inversion H. left; reflexivity.
  - rewrite in_flat_map. split.
    + intros (i & Hi & Hm). apply in_map_iff in Hm. destruct Hm as (t & <- & Ht).
      apply in_seq in Hi. constructor; [lia|]. apply IH; auto.
    + intros H; inversion H; subst. exists x. split; [apply in_seq; lia|].
      apply in_map. apply IH. auto.
Qed.

Lemma ravel_lt sh idx : in_range idx sh -> ravel sh idx < prod sh.
Proof.
  intros H; induction H as [|i n idx sh Hi H IH]; cbn; [lia|]. nia.
Qed.

Lemma map_add_seq b z k : map (fun i => b + i) (seq z k) = seq (b + z) k.
Proof.
  revert z; induction k as [|k IH]; intros z; [reflexivity|].
  cbn. f_equal. rewrite IH. f_equal. lia.
Qed.

Lemma map_ravel_indices sh : map (ravel sh) (indices sh) = seq 0 (prod sh).
Proof.
  induction sh as [|n sh IH]; [reflexivity|]. cbn [indices prod].
  assert (G : forall s,
    map (ravel (n :: sh)) (flat_map (fun i => map (cons i) (indices sh)) (seq s n))
    = seq (s * prod sh) (n * prod sh)).
  { set (m := n) at 2 3. clearbody m. induction m as [|m IHm]; intros s; [reflexivity|].
    cbn [seq flat_map]. rewrite map_app, map_map, IHm.
    replace (S m * prod sh) with (prod sh + m * prod sh) by lia.
    rewrite seq_app. f_equal; [|f_equal; lia].
    cbn [ravel]. rewrite <- (map_map (ravel sh) (fun k => s * prod sh + k)), IH.
    rewrite map_add_seq. f_equal. lia. }
  apply (G 0).
Qed.

Lemma NoDup_map_inj_in {A B} (f : A -> B) l :
  NoDup (map f l) -> forall x y, In x l -> In y l -> f x = f y -> x = y.
Proof.
  induction l as [|a l IH]; intros Hn x y Hx Hy E; [destruct Hx|].
  cbn in Hn. inversion Hn; subst.
  destruct Hx as [<-|Hx], Hy as [<-|Hy]; auto.
  - exfalso. apply H1. rewrite E. apply in_map; auto.
  - exfalso. apply H1. rewrite <- E. apply in_map; auto.
Qed.

Lemma NoDup_indices sh : NoDup (indices sh).
Proof.
  apply (NoDup_map_inv (ravel sh)). rewrite map_ravel_indices. apply seq_NoDup.
Qed.

Lemma ravel_inj sh idx idx' :
  in_range idx sh -> in_range idx' sh -> ravel sh idx = ravel sh idx' -> idx = idx'.
Proof.
  intros H H' E. apply (NoDup_map_inj_in (ravel sh) (indices sh)); auto.
  - rewrite map_ravel_indices. apply seq_NoDup.
  - apply in_indices; auto.
  - apply in_indices; auto.
Qed.

Lemma nth_indices sh idx :
  in_range idx sh -> nth (ravel sh idx) (indices sh) [] = idx.
Proof.
  intros H. pose proof (ravel_lt _ _ H) as Hl.
  assert (Hin : In (nth (ravel sh idx) (indices sh) []) (indices sh)).
  { apply nth_In. rewrite length_indices; auto. }
  apply in_indices in Hin. apply (ravel_inj sh); auto.
  transitivity (nth (ravel sh idx) (map (ravel sh) (indices sh)) (ravel sh [])).
  - symmetry. apply map_nth.
  - rewrite map_ravel_indices, seq_nth; auto.
Qed.

Lemma in_range_app x y sx sy :
  in_range x sx -> in_range y sy -> in_range (x ++ y) (sx ++ sy).
Proof. apply Forall2_app. Qed.

Lemma in_range_app_inv idx sx sy :
  in_range idx (sx ++ sy) ->
  exists x y, idx = x ++ y /\ in_range x sx /\ in_range y sy.
Proof.
  intros H. apply Forall2_app_inv_r in H. destruct H as (x & y & Hx & Hy & ->).
  exists x, y; auto.
Qed.

Lemma in_range_len idx sh : in_range idx sh -> length idx = length sh.
Proof. apply Forall2_len. Qed.

Lemma in_range_ins i m n idx sh :
  m < n -> in_range idx sh -> in_range (ins i m idx) (ins i n sh).
Proof. apply Forall2_ins. Qed.

Lemma in_range_del i idx sh : in_range idx sh -> in_range (del i idx) (del i sh).
Proof. apply Forall2_del. Qed.

Lemma in_range_nth i idx sh : in_range idx sh -> i < length sh -> nth i idx 0 < nth i sh 0.
Proof. intros H Hi. apply Forall2_nth; auto. rewrite (in_range_len _ _ H); auto. Qed.

Lemma in_range_ins_del i m idx sh :
  i < length sh -> m < nth i sh 0 -> in_range idx (del i sh) -> in_range (ins i m idx) sh.
Proof.
  intros Hi Hm H. rewrite <- (ins_del i 0 sh Hi). apply in_range_ins; auto.
Qed.

Lemma ravel_app sx sy x y :
  in_range x sx -> ravel (sx ++ sy) (x ++ y) = ravel sx x * prod sy + ravel sy y.
Proof.
  intros H; induction H as [|i n x sx Hi H IH]; cbn [app ravel]; [lia|].
  rewrite IH, prod_app. lia.
Qed.

(** ** Sums over indices *)
Section IdxSums.
Variable K : StarRing.
Add Ring Kring0 : (r_theory K).

Lemma sum_indices_nil (f : list nat -> K) : sumL (indices []) f = f [].
Proof. cbn [indices]. rewrite sumL_cons, sumL_nil. ring. Qed.

Lemma sum_indices_cons n sh (f : list nat -> K) :
  sumL (indices (n :: sh)) f = sumn n (fun i => sumL (indices sh) (fun idx => f (i :: idx))).
Proof.
  cbn [indices]. rewrite sumL_flat_map. apply sumL_ext. intros i. apply sumL_map.
Qed.

Lemma sum_indices_app sx sy (f : list nat -> K) :
  sumL (indices (sx ++ sy)) f
  = sumL (indices sx) (fun x => sumL (indices sy) (fun y => f (x ++ y))).
Proof.
  revert f; induction sx as [|n sx IH]; intros f; cbn [app].
  - rewrite sum_indices_nil. reflexivity.
  - rewrite !sum_indices_cons. apply sumL_ext. intros i. rewrite IH. reflexivity.
Qed.

Lemma sum_indices_single n (f : list nat -> K) :
  sumL (indices [n]) f = sumn n (fun i => f [i]).
Proof. rewrite sum_indices_cons. apply sumL_ext. intros; apply sum_indices_nil. Qed.

Lemma sum_indices_ins i n sh (f : list nat -> K) :
  i <= length sh ->
  sumL (indices (ins i n sh)) f = sumn n (fun m => sumL (indices sh) (fun idx => f (ins i m idx))).
Proof.
  revert sh f; induction i as [|i IH]; intros sh f Hi.
  - rewrite ins_0, sum_indices_cons. reflexivity.
  - destruct sh as [|k sh]; cbn in Hi; [lia|].
    rewrite ins_S, sum_indices_cons.
    transitivity (sumn k (fun j => sumn n (fun m =>
       sumL (indices sh) (fun idx => f (j :: ins i m idx))))).
    { apply sumL_ext. intros j. apply IH. lia. }
    rewrite sumn_swap. apply sumL_ext. intros m.
    rewrite sum_indices_cons. reflexivity.
Qed.

Lemma sum_indices_del i sh (f : list nat -> K) :
  i < length sh ->
  sumL (indices sh) f
  = sumn (nth i sh 0) (fun m => sumL (indices (del i sh)) (fun idx => f (ins i m idx))).
Proof.
  intros Hi. rewrite <- (ins_del i 0 sh Hi) at 1. apply sum_indices_ins.
  rewrite length_del; lia.
Qed.

Lemma sum_indices_ext sh (f g : list nat -> K) :
  (forall idx, in_range idx sh -> f idx = g idx) -> sumL (indices sh) f = sumL (indices sh) g.
Proof. intros H. apply sumL_ext_in. intros x Hx. apply H, in_indices, Hx. Qed.

Lemma sumn_ravel_gen sh (f : nat -> K) :
  sumn (prod sh) f = sumL (indices sh) (fun idx => f (ravel sh idx)).
Proof. unfold sumn. rewrite <- map_ravel_indices, sumL_map. reflexivity. Qed.

End IdxSums.

(** ** Arrays *)
Section Arrays.
Variable K : StarRing.
Add Ring Kring : (r_theory K).
Implicit Types a : arr K.

Lemma wf_build sh (f : list nat -> K) : wf (build sh f).
Proof. unfold wf, build; cbn. rewrite map_length, length_indices. reflexivity. Qed.

Lemma shape_build sh (f : list nat -> K) : shape (build sh f) = sh.
Proof. reflexivity. Qed.

Lemma get_build sh (f : list nat -> K) idx :
  in_range idx sh -> get (build sh f) idx = f idx.
Proof.
  intros H. unfold get, build; cbn.
  rewrite (nth_indep _ r0 (f [])).
  - rewrite map_nth, nth_indices; auto.
  - rewrite map_length, length_indices. apply ravel_lt; auto.
Qed.

Lemma arr_eta a : a = mkArr (shape a) (data a).
Proof. destruct a; reflexivity. Qed.

Lemma arr_ext a (b : arr K) :
  wf a -> wf b -> shape a = shape b ->
  (forall idx, in_range idx (shape a) -> get a idx = get b idx) -> a = b.
Proof.
  destruct a as [sh da], b as [sh' db]; unfold wf, get; cbn.
  intros Ha Hb <- H. f_equal.
  apply (nth_ext_d r0); [lia|]. intros i Hi. rewrite Ha in Hi.
  assert (E : i = ravel sh (nth i (indices sh) [])).
  { transitivity (nth i (map (ravel sh) (indices sh)) (ravel sh [])).
    - rewrite map_ravel_indices, seq_nth; auto.
    - apply map_nth. }
  rewrite E. apply H. apply in_indices, nth_In. rewrite length_indices; auto.
Qed.

Lemma build_get a : wf a -> build (shape a) (get a) = a.
Proof.
  intros H. apply arr_ext; auto using wf_build.
  intros idx Hi. apply get_build; auto.
Qed.

Lemma build_ext sh (f g : list nat -> K) :
  (forall idx, in_range idx sh -> f idx = g idx) -> build sh f = build sh g.
Proof.
  intros H. unfold build. f_equal. apply map_ext_in. intros x Hx. apply H, in_indices, Hx.
Qed.

Lemma eq_build a sh (f : list nat -> K) :
  wf a -> shape a = sh -> (forall idx, in_range idx sh -> get a idx = f idx) -> a = build sh f.
Proof.
  intros Hw <- H. rewrite <- (build_get a Hw) at 1. apply build_ext. auto.
Qed.

(** transpose *)

Lemma index_of_nth l k : NoDup l -> k < length l -> index_of (nth k l 0) l = k.
Proof.
  intros Hn; revert k; induction Hn as [|x l Hx Hn IH]; intros k Hk; cbn in Hk; [lia|].
  destruct k; cbn.
  - rewrite Nat.eqb_refl. reflexivity.
  - destruct (x =? nth k l 0) eqn:E.
    + apply Nat.eqb_eq in E. exfalso. apply Hx. rewrite E. apply nth_In. lia.
    + rewrite IH by lia. reflexivity.
Qed.

Lemma nth_index_of l m : In m l -> nth (index_of m l) l 0 = m.
Proof.
  induction l as [|x l IH]; intros H; [destruct H|]. cbn.
  destruct (x =? m) eqn:E; [apply Nat.eqb_eq in E; auto|].
  destruct H as [->|H]; [rewrite Nat.eqb_refl in E; discriminate|]. auto.
Qed.

Lemma index_of_lt l m : In m l -> index_of m l < length l.
Proof.
  induction l as [|x l IH]; intros H; [destruct H|]. cbn.
  destruct (x =? m) eqn:E; [lia|].
  destruct H as [->|H]; [rewrite Nat.eqb_refl in E; discriminate|].
  specialize (IH H). lia.
Qed.

Lemma map_nth_seq {A} (d : A) l : map (fun m => nth m l d) (seq 0 (length l)) = l.
Proof.
  apply (nth_ext_d d).
  - rewrite map_length, seq_length. reflexivity.
  - intros i Hi. rewrite map_length, seq_length in Hi.
    rewrite (nth_indep _ d (nth 0 l d)) by (rewrite map_length, seq_length; auto).
    rewrite (map_nth (fun m => nth m l d)), seq_nth by auto. reflexivity.
Qed.

(** scatter after gather is the identity *)
Lemma scatter_gather order idx n :
  Permutation order (seq 0 n) -> length idx = n ->
  map (fun m => nth (index_of m order) (gather idx order) 0) (seq 0 n) = idx.
Proof.
  intros Hp Hl. transitivity (map (fun m => nth m idx 0) (seq 0 n));
    [|rewrite <- Hl; apply map_nth_seq].
  apply map_ext_in. intros m Hm.
  assert (Hin : In m order) by (eapply Permutation_in; [symmetry; exact Hp|auto]).
  unfold gather. rewrite (nth_indep _ 0 (nth 0 idx 0)) by
    (rewrite map_length; apply index_of_lt; auto).
  rewrite (map_nth (fun k => nth k idx 0)), nth_index_of; auto.
Qed.

Lemma gather_scatter order idx n :
  Permutation order (seq 0 n) -> length idx = n ->
  gather (map (fun m => nth (index_of m order) idx 0) (seq 0 n)) order = idx.
Proof.
  intros Hp Hl.
  assert (Hno : NoDup order) by (eapply Permutation_NoDup; [symmetry; exact Hp|apply seq_NoDup]).
  assert (Hlo : length order = n) by (rewrite (Permutation_length Hp), seq_length; auto).
  apply (nth_ext_d 0).
  - unfold gather. rewrite map_length. lia.
  - intros i Hi. unfold gather in *. rewrite map_length in Hi.
    rewrite (nth_indep _ 0 (nth 0 (map (fun m => nth (index_of m order) idx 0) (seq 0 n)) 0))
      by (rewrite map_length; auto).
    rewrite (map_nth (fun k => nth k (map (fun m => nth (index_of m order) idx 0) (seq 0 n)) 0)).
    assert (Hk : nth i order 0 < n).
    { assert (In (nth i order 0) (seq 0 n)) by (eapply Permutation_in; [exact Hp|apply nth_In; auto]).
      apply in_seq in H. lia. }
    rewrite (nth_indep _ 0 (nth (index_of 0 order) idx 0)) by (rewrite map_length, seq_length; auto).
    rewrite (map_nth (fun m => nth (index_of m order) idx 0)), seq_nth by auto.
    cbn [plus]. rewrite index_of_nth; auto.
Qed.

Lemma gather_in_range idx sh order :
  in_range idx sh -> Forall (fun k => k < length sh) order ->
  in_range (gather idx order) (gather sh order).
Proof.
  intros H Ho. induction Ho as [|k order Hk Ho IH]; [constructor|].
  cbn. constructor; auto. apply in_range_nth; auto.
Qed.

Lemma perm_seq_lt order n : Permutation order (seq 0 n) -> Forall (fun k => k < n) order.
Proof.
  intros Hp. apply Forall_forall. intros k Hk.
  eapply Permutation_in in Hk; [|exact Hp]. apply in_seq in Hk. lia.
Qed.

Lemma scatter_in_range idx sh order :
  Permutation order (seq 0 (length sh)) ->
  in_range idx (gather sh order) ->
  in_range (map (fun m => nth (index_of m order) idx 0) (seq 0 (length sh))) sh.
Proof.
  intros Hp H. unfold in_range.
  pose proof (in_range_len _ _ H) as Hl. unfold gather in Hl. rewrite map_length in Hl.
  assert (G : forall l, incl l (seq 0 (length sh)) ->
     Forall2 lt (map (fun m => nth (index_of m order) idx 0) l) (map (fun m => nth m sh 0) l)).
  { induction l as [|m l IH]; intros Hi; [constructor|]. cbn. constructor.
    - assert (Hin : In m order).
      { eapply Permutation_in; [symmetry; exact Hp|]. apply Hi; left; auto. }
      pose proof (index_of_lt order m Hin) as Hlt.
      assert (Q : nth (index_of m order) idx 0 < nth (index_of m order) (gather sh order) 0).
      { apply in_range_nth; auto. unfold gather. rewrite map_length. auto. }
      unfold gather in Q.
      rewrite (nth_indep (map _ order) 0 (nth 0 sh 0)) in Q by (rewrite map_length; auto).
      rewrite (map_nth (fun k => nth k sh 0)), nth_index_of in Q; auto.
    - apply IH. intros z Hz. apply Hi; right; auto. }
  specialize (G _ (incl_refl _)). rewrite map_nth_seq in G. exact G.
Qed.

Lemma get_transpose a order idx :
  Permutation order (seq 0 (ndim a)) -> in_range idx (shape a) ->
  get (transpose a order) (gather idx order) = get a idx.
Proof.
  intros Hp H. unfold transpose. rewrite get_build.
  - rewrite scatter_gather; auto. apply (in_range_len _ _ H).
  - apply gather_in_range; auto. apply perm_seq_lt; auto.
Qed.

(** Every in-range index of a transposed array is a gathered one. *)
Lemma gather_surj sh order idx :
  Permutation order (seq 0 (length sh)) -> in_range idx (gather sh order) ->
  exists idx0, in_range idx0 sh /\ idx = gather idx0 order.
Proof.
  intros Hp H. exists (map (fun m => nth (index_of m order) idx 0) (seq 0 (length sh))).
  split; [apply scatter_in_range; auto|].
  rewrite gather_scatter; auto.
  rewrite (in_range_len _ _ H). unfold gather. rewrite map_length, (Permutation_length Hp), seq_length. auto.
Qed.

Lemma wf_transpose a order : wf (transpose a order).
Proof. apply wf_build. Qed.

(** gather along consecutive positions *)
Lemma gather_app idx o1 o2 : gather idx (o1 ++ o2) = gather idx o1 ++ gather idx o2.
Proof. unfold gather. apply map_app. Qed.

Lemma gather_seq l1 l2 l3 :
  gather (l1 ++ l2 ++ l3) (seq (length l1) (length l2)) = l2.
Proof.
  unfold gather. apply (nth_ext_d 0).
  - rewrite map_length, seq_length; auto.
  - intros i Hi. rewrite map_length, seq_length in Hi.
    rewrite (nth_indep _ 0 (nth 0 (l1 ++ l2 ++ l3) 0)) by (rewrite map_length, seq_length; auto).
    rewrite (map_nth (fun k => nth k (l1 ++ l2 ++ l3) 0)), seq_nth by auto.
    rewrite app_nth2 by lia. rewrite app_nth1 by lia. f_equal. lia.
Qed.

Lemma gather_all l : gather l (seq 0 (length l)) = l.
Proof. apply map_nth_seq. Qed.

(** single moveaxis *)
Lemma filter_seq_ne n s :
  s < n -> filter (fun k => negb (memb k [s])) (seq 0 n) = seq 0 s ++ seq (S s) (n - S s).
Proof.
  intros H. replace n with (s + S (n - S s)) at 1 by lia.
  rewrite seq_app, filter_app. cbn [plus].
  assert (E : forall (b m : nat), (forall k, b <= k < b + m -> k <> s) ->
     filter (fun k => negb (memb k [s])) (seq b m) = seq b m).
  { intros b m; revert b; induction m as [|m IH]; intros b Hb; [reflexivity|].
    cbn [seq filter]. unfold memb at 1. cbn [existsb].
    destruct (b =? s) eqn:Ebs; [apply Nat.eqb_eq in Ebs; exfalso; apply (Hb b); lia|].
    cbn. f_equal. apply IH. intros; apply Hb; lia. }
  rewrite E by lia. f_equal. cbn [seq filter].
  unfold memb at 1. cbn [existsb]. rewrite Nat.eqb_refl. cbn. apply E. lia.
Qed.

Lemma seq_del n s : s < n -> del s (seq 0 n) = seq 0 s ++ seq (S s) (n - S s).
Proof.
  intros H. replace n with (s + S (n - S s)) at 1 by lia.
  rewrite seq_app. cbn [plus seq].
  pose proof (del_at s (seq 0 s) (seq (S s) (n - S s))) as E.
  rewrite seq_length in E. exact E.
Qed.

Lemma moveaxis_order_single n s d :
  s < n -> moveaxis_order n [s] [d] = ins d s (del s (seq 0 n)).
Proof.
  intros H. unfold moveaxis_order. cbn [combine fold_left fst snd].
  rewrite filter_seq_ne, seq_del by auto. reflexivity.
Qed.

Lemma gather_del idx s : s < length idx ->
  gather idx (del s (seq 0 (length idx))) = del s idx.
Proof.
  intros H. unfold gather. rewrite map_del, (map_nth_seq 0 idx). reflexivity.
Qed.

Lemma gather_move idx s d : s < length idx ->
  gather idx (ins d s (del s (seq 0 (length idx)))) = ins d (nth s idx 0) (del s idx).
Proof.
  intros H. unfold gather. rewrite map_ins, map_del, (map_nth_seq 0 idx). reflexivity.
Qed.

Lemma perm_move n s d : s < n -> Permutation (ins d s (del s (seq 0 n))) (seq 0 n).
Proof.
  intros H. rewrite Permutation_ins.
  assert (E : s = nth s (seq 0 n) 0) by (rewrite seq_nth; auto).
  rewrite E at 1.
  rewrite <- (Permutation_ins s (nth s (seq 0 n) 0) (del s (seq 0 n))).
  rewrite ins_del; [reflexivity|]. rewrite seq_length; auto.
Qed.

Lemma moveaxis_single a s d :
  s < ndim a -> d < ndim a ->
  moveaxis a [s] [d] = Ok (build (ins d (nth s (shape a) 0) (del s (shape a)))
                               (fun idx => get a (ins s (nth d idx 0) (del d idx)))).
Proof.
  intros Hs Hd. unfold moveaxis. cbn [app forallb].
  apply Nat.ltb_lt in Hs as Hs'. apply Nat.ltb_lt in Hd as Hd'. rewrite Hs', Hd'. cbn [andb].
  f_equal. unfold ndim in *. rewrite moveaxis_order_single by auto.
  apply eq_build.
  - apply wf_transpose.
  - cbn. apply gather_move; auto.
  - intros idx Hi.
    pose proof (in_range_len _ _ Hi) as Hl.
    rewrite length_ins, length_del in Hl by auto.
    assert (Hr : in_range (ins s (nth d idx 0) (del d idx)) (shape a)).
    { apply in_range_ins_del; auto.
      - pose proof (in_range_nth d _ _ Hi) as Q.
        rewrite nth_ins_eq in Q by (rewrite length_del; lia). apply Q.
        rewrite length_ins, length_del; lia.
      - pose proof (in_range_del d _ _ Hi) as Q.
        rewrite del_ins in Q by (rewrite length_del; lia). exact Q. }
    rewrite <- (get_transpose a _ _ (perm_move _ s d Hs) Hr). f_equal.
    pose proof (in_range_len _ _ Hr) as Hl2. unfold ndim. rewrite <- Hl2.
    rewrite gather_move by lia.
    rewrite nth_ins_eq by (rewrite length_del; lia).
    rewrite del_ins by (rewrite length_del; lia).
    symmetry. apply ins_del. lia.
Qed.

(** reshape *)
Lemma get_reshape_data sh sh' (l : list K) idx idx' :
  ravel sh idx = ravel sh' idx' -> get (mkArr sh l) idx = get (mkArr sh' l) idx'.
Proof. unfold get; cbn. congruence. Qed.

Lemma reshape_ok a sh : wf a -> prod sh = prod (shape a) -> reshape a sh = Ok (mkArr sh (data a)).
Proof.
  intros Hw E. unfold reshape, size. rewrite Hw, E, Nat.eqb_refl. reflexivity.
Qed.

Lemma wf_reshape a sh (b : arr K) : reshape a sh = Ok b -> wf b /\ shape b = sh.
Proof.
  unfold reshape, size, wf. destruct (prod sh =? length (data a)) eqn:E; [|discriminate].
  intros H; inversion H; subst; cbn. apply Nat.eqb_eq in E. auto.
Qed.

Lemma reshape_infer_ok a pre post n :
  wf a -> prod (shape a) = prod pre * n * prod post -> prod pre * prod post <> 0 ->
  reshape_infer a pre post = Ok (mkArr (pre ++ n :: post) (data a)).
Proof.
  intros Hw E Hz. unfold reshape_infer, size. cbv zeta. unfold wf in Hw. rewrite !Hw.
  destruct (prod pre * prod post =? 0) eqn:Ez; [apply Nat.eqb_eq in Ez; lia|].
  replace (prod (shape a)) with (n * (prod pre * prod post)) by lia.
  rewrite Nat.mod_mul by auto. cbn [Nat.eqb]. rewrite Nat.div_mul by auto. reflexivity.
Qed.

(** elementwise operations *)
Lemma wf_conj a : wf a -> wf (arr_conj a).
Proof. unfold wf, arr_conj; cbn. rewrite map_length; auto. Qed.

Lemma get_conj a idx : get (arr_conj a) idx = rconj (get a idx).
Proof.
  unfold get, arr_conj; cbn. rewrite <- (rconj_0 K) at 1. apply map_nth.
Qed.

Lemma wf_scale c a : wf a -> wf (arr_scale c a).
Proof. unfold wf, arr_scale; cbn. rewrite map_length; auto. Qed.

Lemma get_scale c a idx : get (arr_scale c a) idx = rmul c (get a idx).
Proof.
  unfold get, arr_scale; cbn.
  replace (r0 : K) with (rmul c r0) at 1 by ring. apply map_nth.
Qed.

Lemma combine_nth_gen {A B} (l : list A) (l' : list B) n x y :
  length l = length l' -> nth n (combine l l') (x, y) = (nth n l x, nth n l' y).
Proof. apply combine_nth. Qed.

Lemma arr_add_ok a b :
  wf a -> wf b -> shape a = shape b ->
  arr_add a b = Ok (build (shape a) (fun idx => radd (get a idx) (get b idx))).
Proof.
  intros Ha Hb E. unfold arr_add.
  destruct (list_eq_dec Nat.eq_dec (shape a) (shape b)) as [_|N]; [|contradiction].
  f_equal. apply eq_build.
  - unfold wf in *; cbn. rewrite map_length, combine_length. rewrite <- E in Hb. lia.
  - reflexivity.
  - intros idx Hi. unfold get; cbn. unfold wf in *.
    replace (r0 : K) with ((fun p : K * K => radd (fst p) (snd p)) (r0, r0)) at 1 by (cbn; ring).
    rewrite (map_nth (fun p : K * K => radd (fst p) (snd p))).
    rewrite combine_nth by (rewrite <- E in Hb; lia). cbn. rewrite E. reflexivity.
Qed.

(** matrices *)
Lemma in_range2 i j n m : i < n -> j < m -> in_range [i; j] [n; m].
Proof. intros; repeat constructor; auto. Qed.

Lemma in_range2_inv idx n m :
  in_range idx [n; m] -> exists i j, idx = [i; j] /\ i < n /\ j < m.
Proof.
  intros H. inversion H; subst. inversion H4; subst. inversion H6; subst.
  exists x, x0. auto.
Qed.

Lemma in_range1_inv idx n : in_range idx [n] -> exists i, idx = [i] /\ i < n.
Proof. intros H. inversion H; subst. inversion H4; subst. eauto. Qed.

Lemma matmul_ok a b n p m :
  shape a = [n; p] -> shape b = [p; m] ->
  matmul a b = Ok (build [n; m] (fun idx => sumn p (fun k =>
      rmul (get a [nth 0 idx 0; k]) (get b [k; nth 1 idx 0])))).
Proof.
  intros Ha Hb. unfold matmul. rewrite Ha, Hb, Nat.eqb_refl. reflexivity.
Qed.

Lemma get_eye n m i j : i < n -> j < m -> get (@eye K n m) [i; j] = delta i j.
Proof. intros. unfold eye. rewrite get_build by (apply in_range2; auto). reflexivity. Qed.

Lemma tensordot_ok a i b j :
  i < ndim a -> j < ndim b -> nth i (shape a) 0 = nth j (shape b) 0 ->
  tensordot a i b j = Ok (build (del i (shape a) ++ del j (shape b))
         (fun idx => sumn (nth i (shape a) 0) (fun m =>
            rmul (get a (ins i m (firstn (ndim a - 1) idx)))
                 (get b (ins j m (skipn (ndim a - 1) idx)))))).
Proof.
  intros Hi Hj E. unfold tensordot.
  apply Nat.ltb_lt in Hi, Hj. rewrite Hi, Hj, E, Nat.eqb_refl. reflexivity.
Qed.

End Arrays.
