From Coq Require Import List Arith Bool Lia Permutation Sorted.
From Verif Require Import Py Alg ListX NdArray_Model NdArray_Proof Tri_Model Tri_Spec.
Import ListNotations.

Definition valid (ns c : list nat) : Prop := Forall2 lt c ns.

Lemma case_eqb_spec a b : case_eqb a b = true <-> a = b.
Proof.
  revert b; induction a as [|x a IH]; intros [|y b]; cbn; split; intros H; try congruence.
  - apply andb_true_iff in H. destruct H as [H1 H2]. apply Nat.eqb_eq in H1. apply IH in H2. congruence.
  - injection H as -> ->. rewrite Nat.eqb_refl. cbn. apply IH. auto.
Qed.

Lemma existsb_case c l : existsb (case_eqb c) l = true <-> In c l.
Proof.
  rewrite existsb_exists. split.
  - intros (y & Hy & E). apply case_eqb_spec in E. now subst.
  - intros H. exists c. split; auto. now apply case_eqb_spec.
Qed.

Lemma dedup_acc l : forall acc, NoDup acc ->
  let r := fold_left (fun acc case => if existsb (case_eqb case) acc then acc else acc ++ [case]) l acc in
  NoDup r /\ forall c, In c r <-> In c acc \/ In c l.
Proof.
  induction l as [|x l IH]; intros acc Hn; cbn.
  - split; auto. tauto.
  - destruct (existsb (case_eqb x) acc) eqn:E.
    + apply existsb_case in E. destruct (IH acc Hn) as (A & B). split; auto.
      intros c. rewrite B. split; intros [H|H]; auto. destruct H as [<-|H]; auto.
    + destruct (IH (acc ++ [x])) as (A & B).
      * assert (~ In x acc) by (intros H; apply existsb_case in H; congruence).
        apply (Permutation_NoDup (l := x :: acc)); [apply Permutation_cons_append|].
        constructor; auto.
      * split; auto. intros c. rewrite B, in_app_iff. cbn. tauto.
Qed.

Lemma dedup_spec l : NoDup (dedup l) /\ forall c, In c (dedup l) <-> In c l.
Proof.
  destruct (dedup_acc l [] (NoDup_nil _)) as (A & B). split; auto.
  intros c. rewrite (B c). cbn. tauto.
Qed.

Lemma bump_upd j c : j < length c -> firstn j c ++ [nth j c 0 + 1] ++ skipn (j + 1) c = upd j (nth j c 0 + 1) c.
Proof.
  intros H. unfold upd. apply Nat.ltb_lt in H. rewrite H, (Nat.add_1_r j). reflexivity.
Qed.

Lemma upd_0 {A} (x y : A) l : upd 0 x (y :: l) = x :: l.
Proof. reflexivity. Qed.
Lemma upd_S {A} j (x y : A) l : upd (S j) x (y :: l) = y :: upd j x l.
Proof.
  unfold upd. cbn [length]. change (S j <? S (length l)) with (j <? length l).
  destruct (j <? length l); reflexivity.
Qed.

Lemma in_bump ns cases c : Forall (valid ns) cases ->
  In c (bump_all ns cases) <->
  exists d j, In d cases /\ j < length ns /\ nth j d 0 + 1 < nth j ns 0 /\ c = upd j (nth j d 0 + 1) d.
Proof.
  intros Hv. unfold bump_all. rewrite in_flat_map. split.
  - intros (d & Hd & Hc). apply in_map_iff in Hc. destruct Hc as (j & <- & Hj).
    apply filter_In in Hj. destruct Hj as (Hj & Hlt). apply in_seq in Hj. apply Nat.ltb_lt in Hlt.
    exists d, j. rewrite Forall_forall in Hv. specialize (Hv d Hd).
    pose proof (Forall2_len _ _ _ Hv). repeat split; auto; try lia.
    apply bump_upd. lia.
  - intros (d & j & Hd & Hj & Hlt & ->). exists d. split; auto.
    rewrite Forall_forall in Hv. specialize (Hv d Hd). pose proof (Forall2_len _ _ _ Hv).
    apply in_map_iff. exists j. split; [apply bump_upd; lia|].
    apply filter_In. split; [apply in_seq; lia|]. now apply Nat.ltb_lt.
Qed.

Lemma list_sum_upd j x l : j < length l -> list_sum (upd j x l) + nth j l 0 = list_sum l + x.
Proof.
  revert j; induction l as [|y l IH]; intros [|j] H; cbn [length] in *; try lia.
  - rewrite upd_0. cbn. lia.
  - rewrite upd_S. cbn [nth]. specialize (IH j). cbn. fold (list_sum l) (list_sum (upd j x l)). lia.
Qed.

Lemma valid_upd ns c j x : valid ns c -> x < nth j ns 0 -> valid ns (upd j x c).
Proof.
  unfold valid. intros H. revert j. induction H; intros [|j] Hx; cbn [nth] in Hx.
  - constructor.
  - constructor.
  - rewrite upd_0. constructor; auto.
  - rewrite upd_S. constructor; auto.
Qed.

Lemma combinations_spec ns : Forall (fun n => 0 < n) ns -> forall m,
  NoDup (combinations ns m) /\
  forall c, In c (combinations ns m) <-> valid ns c /\ list_sum c = m.
Proof.
  intros Hp. induction m as [|m (IHn & IH)].
  - cbn. split; [constructor; auto; constructor|]. intros c. split.
    + intros [<-|[]]. clear -Hp. induction Hp; cbn; [split; constructor|].
      destruct IHHp. split; [constructor; auto|auto].
    + intros (H & Hs). left. clear -H Hs. induction H; cbn in *; auto.
      assert (x = 0) by lia. subst. f_equal. apply IHForall2. unfold list_sum in *. lia.
  - cbn. destruct (dedup_spec (bump_all ns (combinations ns m))) as (A & B). split; auto.
    intros c. rewrite B, in_bump by (apply Forall_forall; intros d Hd; apply IH in Hd; tauto).
    split.
    + intros (d & j & Hd & Hj & Hlt & ->). apply IH in Hd. destruct Hd as (Hd & Hs).
      pose proof (Forall2_len _ _ _ Hd). split.
      * apply valid_upd; auto.
      * pose proof (list_sum_upd j (nth j d 0 + 1) d ltac:(lia)). lia.
    + intros (Hv & Hs).
      assert (E : exists j, j < length c /\ 0 < nth j c 0).
      { clear -Hs. revert m Hs. induction c as [|x c IHc]; intros m Hs; cbn in Hs; [lia|].
        destruct x as [|x].
        - destruct (IHc m) as (j & H1 & H2); auto. exists (S j). cbn. split; [lia|auto].
        - exists 0. cbn. lia. }
      destruct E as (j & Hj & Hpos). pose proof (Forall2_len _ _ _ Hv) as Hlen.
      assert (Hb : nth j c 0 < nth j ns 0).
      { apply (Forall2_nth lt c ns j 0 0); auto. }
      exists (upd j (nth j c 0 - 1) c), j. split; [|split; [|split]].
      * apply IH. split; [apply valid_upd; auto; lia|].
        pose proof (list_sum_upd j (nth j c 0 - 1) c Hj). lia.
      * lia.
      * rewrite nth_upd_eq by auto. lia.
      * rewrite nth_upd_eq by auto. rewrite upd_upd.
        replace (nth j c 0 - 1 + 1) with (nth j c 0) by lia. symmetry. now apply upd_same.
Qed.

(** Little-endian numbering. *)
Fixpoint lekey (ns c : list nat) : nat :=
  match ns, c with
  | n :: ns, d :: c => d + n * lekey ns c
  | _, _ => 0
  end.

Lemma key_from ns : forall p c,
  list_sum (map (fun q => fst q * snd q) (combine (prod_list_from p ns) c))
  = match ns with [] => match c with [] => 0 | d :: _ => p * d end
    | _ => p * lekey ns c + (if length c <=? length ns then 0 else
        p * fold_right Nat.mul 1 ns * nth (length ns) c 0) end.
Proof.
  induction ns as [|n ns IH]; intros p c.
  - destruct c as [|d [|]]; cbn; lia.
  - destruct c as [|d c]; [cbn; lia|]. cbn [prod_list_from combine map list_sum fst snd fold_right].
    change (list_sum (p * d :: ?l)) with (p * d + list_sum l).
    cbn [list_sum fold_right]. fold (list_sum (map (fun q => fst q * snd q) (combine (prod_list_from (p * n) ns) c))).
    rewrite IH. destruct ns as [|n' ns].
    + destruct c as [|d' [|]]; cbn; lia.
    + cbn [lekey length Nat.leb nth].
      destruct (length c <=? S (length ns)); cbn [fold_right]; nia.
Qed.

Lemma key_lekey ns c : length c = length ns -> key ns c = lekey ns c.
Proof.
  intros H. unfold key. rewrite key_from. destruct ns as [|n ns].
  - destruct c; [reflexivity|discriminate].
  - rewrite (proj2 (Nat.leb_le _ _)) by lia. lia.
Qed.

Lemma last_prod ns : forall p, last (prod_list_from p ns) 1 = p * product ns.
Proof.
  induction ns as [|n ns IH]; intros p; cbn [prod_list_from product fold_right].
  - cbn. lia.
  - assert (E : forall x (l : list nat), l <> [] -> last (x :: l) 1 = last l 1) by (intros x [|y l] H; [congruence|reflexivity]).
    rewrite E by (destruct ns; discriminate). rewrite IH. unfold product. lia.
Qed.

Lemma lekey_lt ns c : valid ns c -> lekey ns c < product ns.
Proof.
  unfold product. induction 1 as [|d n c ns Hd H IH]; cbn; [lia|]. nia.
Qed.

Lemma digits_lekey ns c : valid ns c -> digits ns (lekey ns c) = c.
Proof.
  induction 1 as [|d n c ns Hd H IH]; cbn; [reflexivity|].
  rewrite (Nat.mul_comm n). rewrite Nat.mod_add by lia. rewrite Nat.mod_small by lia.
  rewrite Nat.div_add by lia. rewrite Nat.div_small by lia. cbn. now rewrite IH.
Qed.

Lemma lekey_digits ns : forall k, k < product ns -> valid ns (digits ns k) /\ lekey ns (digits ns k) = k.
Proof.
  unfold product. induction ns as [|n ns IH]; intros k Hk; cbn in *.
  - split; [constructor|lia].
  - assert (n <> 0) by nia. destruct (IH (k / n)) as (A & B).
    + apply Nat.div_lt_upper_bound; auto.
    + split.
      * constructor; auto. apply Nat.mod_upper_bound; auto.
      * rewrite B. rewrite (Nat.div_mod k n) at 3 by auto. lia.
Qed.

Lemma sum_lt_product ns c : valid ns c -> list_sum c < product ns.
Proof.
  unfold product. induction 1 as [|d n c ns Hd H IH]; cbn; [lia|]. fold (list_sum c). nia.
Qed.

Lemma product_pos ns : 0 < product ns <-> Forall (fun n => 0 < n) ns.
Proof.
  unfold product. induction ns as [|n ns IH]; cbn.
  - split; intros; [constructor|lia].
  - split; intros H.
    + constructor; [nia|]. apply IH. nia.
    + inversion H; subst. apply IH in H3. nia.
Qed.

Lemma valid_len ns c : valid ns c -> length c = length ns.
Proof. apply Forall2_len. Qed.

Lemma lekey_inj ns c c' : valid ns c -> valid ns c' -> lekey ns c = lekey ns c' -> c = c'.
Proof. intros H H' E. rewrite <- (digits_lekey ns c), <- (digits_lekey ns c'), E; auto. Qed.

Lemma triangular_eq ns : Forall (fun n => 0 < n) ns ->
  triangular ns = flat_map (fun m => map (lekey ns) (combinations ns m)) (seq 0 (product ns)).
Proof.
  intros Hp. unfold triangular. rewrite last_prod, Nat.mul_1_l.
  apply flat_map_ext. intros m. apply map_ext_in. intros c Hc.
  apply (combinations_spec ns Hp m) in Hc. apply key_lekey. apply valid_len. tauto.
Qed.

Lemma NoDup_map_on {A B} (f : A -> B) l :
  (forall x y, In x l -> In y l -> f x = f y -> x = y) -> NoDup l -> NoDup (map f l).
Proof.
  intros Hi. induction 1 as [|a l Ha Hl IH]; cbn; constructor.
  - intros H. apply in_map_iff in H. destruct H as (b & E & Hb). apply Ha.
    rewrite <- (Hi b a); auto; [right|left]; auto.
  - apply IH. intros x y Hx Hy. apply Hi; right; auto.
Qed.

Lemma NoDup_flat_map_level {A} (f : nat -> list A) (lv : A -> nat) l :
  NoDup l -> (forall m, In m l -> NoDup (f m)) -> (forall m a, In a (f m) -> lv a = m) ->
  NoDup (flat_map f l).
Proof.
  intros Hl Hf Hlv. induction Hl as [|m l Hm Hl IH]; cbn; [constructor|].
  assert (G : forall l1 l2 : list A, NoDup l1 -> NoDup l2 -> (forall a, In a l1 -> ~ In a l2) -> NoDup (l1 ++ l2)).
  { clear. induction 1; cbn; auto. intros H2 Hd. constructor.
    - rewrite in_app_iff. intros [?|?]; [tauto|]. apply (Hd x); [left|]; auto.
    - apply IHNoDup; [auto|]. intros a Ha. apply Hd. right; auto. }
  apply G.
  - apply Hf. left; auto.
  - apply IH. intros; apply Hf; right; auto.
  - intros a Ha Ha'. apply in_flat_map in Ha'. destruct Ha' as (m' & Hm' & Ha').
    apply Hlv in Ha. apply Hlv in Ha'. congruence.
Qed.

Lemma degree_lekey ns c : valid ns c -> degree ns (lekey ns c) = list_sum c.
Proof. intros H. unfold degree. now rewrite digits_lekey. Qed.

Lemma triangular_perm ns : Permutation (triangular ns) (seq 0 (product ns)).
Proof.
  destruct (Nat.eq_dec (product ns) 0) as [E|E].
  - unfold triangular. rewrite last_prod, Nat.mul_1_l, E. reflexivity.
  - assert (Hp : Forall (fun n => 0 < n) ns) by (apply product_pos; lia).
    rewrite triangular_eq by auto. apply NoDup_Permutation.
    + apply (@NoDup_flat_map_level nat _ (degree ns)).
      * apply seq_NoDup.
      * intros m _. destruct (combinations_spec ns Hp m) as (A & B).
        apply NoDup_map_on; auto.
        intros x y Hx Hy. apply B in Hx. apply B in Hy. apply lekey_inj; tauto.
      * intros m a Ha. apply in_map_iff in Ha. destruct Ha as (c & <- & Hc).
        apply (combinations_spec ns Hp m) in Hc. rewrite degree_lekey; tauto.
    + apply seq_NoDup.
    + intros k. rewrite in_flat_map, in_seq. split.
      * intros (m & _ & Hk). apply in_map_iff in Hk. destruct Hk as (c & <- & Hc).
        apply (combinations_spec ns Hp m) in Hc. split; [lia|]. apply lekey_lt. tauto.
      * intros (_ & Hk). destruct (lekey_digits ns k Hk) as (A & B).
        exists (list_sum (digits ns k)). split.
        -- apply in_seq. split; [lia|]. apply sum_lt_product; auto.
        -- apply in_map_iff. exists (digits ns k). split; auto.
           apply (combinations_spec ns Hp). auto.
Qed.

Lemma Sorted_levels {A} (f : nat -> list A) (lv : A -> nat) n : forall z,
  (forall m a, In a (f m) -> lv a = m) ->
  StronglySorted (fun a b => lv a <= lv b) (flat_map f (seq z n)).
Proof.
  induction n as [|n IH]; intros z Hlv; cbn; [constructor|].
  assert (Hge : forall a, In a (flat_map f (seq (S z) n)) -> z <= lv a).
  { intros a Ha. apply in_flat_map in Ha. destruct Ha as (m & Hm & Ha). apply in_seq in Hm.
    apply Hlv in Ha. lia. }
  specialize (IH (S z) Hlv).
  assert (G : forall l, (forall a, In a l -> lv a = z) ->
     StronglySorted (fun a b => lv a <= lv b) (l ++ flat_map f (seq (S z) n))).
  { induction l as [|x l IHl]; intros Hl; cbn; auto. constructor.
    - apply IHl. intros; apply Hl; right; auto.
    - apply Forall_forall. intros a Ha. rewrite (Hl x (or_introl eq_refl)).
      apply in_app_iff in Ha. destruct Ha as [Ha|Ha]; auto.
      rewrite (Hl a (or_intror Ha)). lia. }
  apply G. intros a Ha. now apply Hlv.
Qed.

Lemma triangular_sorted ns :
  StronglySorted (fun a b => degree ns a <= degree ns b) (triangular ns).
Proof.
  destruct (Nat.eq_dec (product ns) 0) as [E|E].
  - unfold triangular. rewrite last_prod, Nat.mul_1_l, E. constructor.
  - assert (Hp : Forall (fun n => 0 < n) ns) by (apply product_pos; lia).
    rewrite triangular_eq by auto. apply Sorted_levels.
    intros m a Ha. apply in_map_iff in Ha. destruct Ha as (c & <- & Hc).
    apply (combinations_spec ns Hp m) in Hc. rewrite degree_lekey; tauto.
Qed.

Lemma triangular_head ns : 0 < product ns -> exists l, triangular ns = 0 :: l.
Proof.
  intros H. rewrite triangular_eq by (apply product_pos; auto).
  destruct (product ns); [lia|]. cbn. eexists. f_equal.
  clear. induction ns as [|n ns IH]; cbn; [reflexivity|]. rewrite IH. lia.
Qed.

Lemma ss_nth {A} (R : A -> A -> Prop) l d i i' : (forall a, R a a) -> StronglySorted R l ->
  i <= i' -> i' < length l -> R (nth i l d) (nth i' l d).
Proof.
  intros Hr S. revert i i'. induction S as [|a l S IH F]; intros i i' H H'; cbn in H'; [lia|].
  destruct i as [|i], i' as [|i']; cbn; auto; try lia.
  - rewrite Forall_forall in F. apply F. apply nth_In. lia.
  - apply IH; lia.
Qed.

(** * Initial tensors *)
Lemma prod_product ns : prod ns = product ns.
Proof. unfold product. induction ns; cbn; auto. Qed.

Section A.
Variable K : StarRing.
Add Ring Kring : (r_theory K).

Lemma triangular_len ns : length (triangular ns) = prod ns.
Proof. rewrite (Permutation_length (triangular_perm ns)), seq_length. symmetry. apply prod_product. Qed.

Lemma triangular_NoDup ns : NoDup (triangular ns).
Proof. eapply Permutation_NoDup; [symmetry; apply triangular_perm|]. apply seq_NoDup. Qed.

Lemma triangular_nth_lt ns k : k < prod ns -> nth k (triangular ns) 0 < prod ns.
Proof.
  intros H. assert (In (nth k (triangular ns) 0) (triangular ns)) by (apply nth_In; rewrite triangular_len; auto).
  apply (Permutation_in _ (triangular_perm ns)) in H0. apply in_seq in H0. rewrite prod_product. lia.
Qed.

Lemma get_auto_rows np ns i k : i < np -> np <= prod ns -> k < prod ns ->
  get (auto_rows (K := K) np ns) [i; k] = delta k (nth i (triangular ns) 0).
Proof.
  intros Hi Hn Hk. unfold auto_rows. rewrite get_build by (apply in_range2; auto). cbn [nth].
  rewrite (nth_error_nth' (triangular ns) 0) by (rewrite triangular_len; lia).
  unfold delta. destruct (k =? nth i (triangular ns) 0); reflexivity.
Qed.

(** The array at a non-root node, entry by entry. *)
Lemma auto_array_some np ns ax : ax <= length ns -> np <= prod ns ->
  exists a : arr K, auto_array (Some ax) np ns = Ok a /\ wf a /\ shape a = ins ax np ns /\
    forall i x, i < np -> in_range x ns ->
      get a (ins ax i x) = delta (ravel ns x) (nth i (triangular ns) 0).
Proof.
  intros Hax Hn. unfold auto_array.
  rewrite reshape_ok; [|apply wf_build|cbn; lia]. cbn [bind].
  set (b := mkArr (np :: ns) (data (auto_rows (K := K) np ns))).
  rewrite (moveaxis_single K b 0 ax) by (unfold b, ndim; cbn; lia).
  eexists. split; [reflexivity|]. split; [apply wf_build|]. split; [reflexivity|].
  intros i x Hi Hx. pose proof (in_range_len _ _ Hx) as Hl.
  rewrite get_build.
  - rewrite nth_ins_eq by lia. rewrite del_ins by lia. cbn [ins].
    transitivity (get (auto_rows (K := K) np ns) [i; ravel ns x]).
    + unfold b. unfold auto_rows at 2. cbn. unfold get. cbn [shape data]. f_equal.
      cbn. unfold ins; cbn. lia.
    + apply get_auto_rows; auto. now apply ravel_lt.
  - unfold b. cbn [shape nth]. change (del 0 (np :: ns)) with ns.
    apply in_range_ins; auto.
Qed.

Lemma auto_array_none np ns : 0 < prod ns ->
  exists a : arr K, auto_array None np ns = Ok a /\ wf a /\ shape a = ns /\
    forall x, in_range x ns -> get a x = delta (ravel ns x) 0.
Proof.
  intros Hp. unfold auto_array.
  rewrite reshape_ok; [|apply wf_build|cbn; lia].
  eexists. split; [reflexivity|]. split.
  { unfold wf. cbn [data shape]. pose proof (wf_build K [1; prod ns]) as W. unfold auto_rows.
    rewrite W. cbn. lia. }
  split; [reflexivity|]. intros x Hx.
  transitivity (get (auto_rows (K := K) 1 ns) [0; ravel ns x]).
  { unfold get. cbn [shape data]. f_equal. cbn. lia. }
  rewrite get_auto_rows; auto; try lia; [|now apply ravel_lt].
  destruct (triangular_head ns) as (l & ->); [rewrite <- prod_product; lia|]. reflexivity.
Qed.

(** Orthonormal rows. *)
Lemma delta_sym_val i j : @delta K i j = delta j i.
Proof. unfold delta. now rewrite Nat.eqb_sym. Qed.

Lemma sum_ravel_delta ns p q : p < prod ns -> q < prod ns ->
  sumL (indices ns) (fun x => rmul (rconj (delta (K := K) (ravel ns x) p)) (delta (ravel ns x) q))
  = delta p q.
Proof.
  intros Hp Hq.
  rewrite <- (sumL_map K (ravel ns) (indices ns) (fun k => rmul (rconj (delta k p)) (delta k q))).
  rewrite map_ravel_indices. fold (sumn (prod ns) (fun k => rmul (rconj (delta (K := K) k p)) (delta k q))).
  rewrite (sumn_single K _ p); auto.
  - unfold delta at 1. rewrite Nat.eqb_refl, rconj_1. ring.
  - intros k Hk Hne. unfold delta at 1. rewrite (proj2 (Nat.eqb_neq k p)) by auto.
    rewrite rconj_0. ring.
Qed.

Lemma auto_isometric np ns ax a : ax <= length ns -> np <= prod ns ->
  auto_array (K := K) (Some ax) np ns = Ok a ->
  forall i i', i < np -> i' < np ->
    sumL (indices ns) (fun r => rmul (rconj (get a (ins ax i r))) (get a (ins ax i' r))) = delta i i'.
Proof.
  intros Hax Hn E i i' Hi Hi'.
  destruct (auto_array_some np ns ax Hax Hn) as (b & Eb & Wb & Sb & G).
  rewrite E in Eb. injection Eb as <-.
  rewrite (sum_indices_ext K ns _ (fun x => rmul (rconj (delta (ravel ns x) (nth i (triangular ns) 0)))
             (delta (ravel ns x) (nth i' (triangular ns) 0)))).
  - rewrite sum_ravel_delta by (apply triangular_nth_lt; lia).
    unfold delta. destruct (Nat.eqb_spec i i') as [->|Hne].
    + now rewrite Nat.eqb_refl.
    + rewrite (proj2 (Nat.eqb_neq _ _)); auto. intros Heq. apply Hne.
      apply (NoDup_nth (triangular ns) 0); auto; try (rewrite triangular_len; lia).
      apply triangular_NoDup.
  - intros x Hx. rewrite !G by auto. reflexivity.
Qed.

(** Excitation of the rows for children of equal dimension. *)
Lemma ravel_rev n x : Forall (fun d => d < n) x ->
  ravel (repeat n (length x)) x = lekey (repeat n (length x)) (rev x).
Proof.
  assert (L : forall c c', lekey (repeat n (length (c ++ c'))) (c ++ c')
                = lekey (repeat n (length c)) c + n ^ length c * lekey (repeat n (length c')) c').
  { induction c as [|d c IH]; intros c'; cbn; [lia|]. rewrite IH. nia. }
  assert (Pw : forall k, prod (repeat n k) = n ^ k) by (induction k; cbn; auto).
  induction 1 as [|d x Hd H IH]; [reflexivity|].
  cbn [length repeat ravel rev]. rewrite IH, Pw.
  specialize (L (rev x) [d]). rewrite app_length, rev_length in L. cbn [length] in L.
  replace (length x + 1) with (S (length x)) in L by lia.
  change (n :: repeat n (length x)) with (repeat n (S (length x))). rewrite L.
  cbn [repeat lekey]. nia.
Qed.

Lemma excitation_equal n k x : in_range x (repeat n k) ->
  degree (repeat n k) (ravel (repeat n k) x) = list_sum x.
Proof.
  intros H. pose proof (in_range_len _ _ H) as Hl. rewrite repeat_length in Hl. subst k.
  assert (F : Forall (fun d => d < n) x).
  { clear -H. induction x as [|d x IH]; constructor; cbn in H; inversion H; subst; auto. }
  rewrite ravel_rev by auto. rewrite <- (rev_length x) at 1 2.
  rewrite degree_lekey.
  - clear. induction x; cbn; auto. rewrite list_sum_app. cbn. rewrite IHx. fold (list_sum x). lia.
  - unfold valid. rewrite rev_length. apply Forall_rev in F. rewrite <- (rev_length x).
    clear -F. induction F; cbn; constructor; auto.
Qed.

Lemma auto_excitation n k np ax a : ax <= k -> np <= n ^ k ->
  auto_array (K := K) (Some ax) np (repeat n k) = Ok a -> (r1 : K) <> r0 ->
  forall i i' x x', i <= i' -> i' < np -> in_range x (repeat n k) -> in_range x' (repeat n k) ->
    get a (ins ax i x) <> r0 -> get a (ins ax i' x') <> r0 -> list_sum x <= list_sum x'.
Proof.
  intros Hax Hn E H10 i i' x x' Hii Hi' Hx Hx' Gx Gx'.
  assert (Pw : prod (repeat n k) = n ^ k) by (clear; induction k; cbn; auto).
  destruct (auto_array_some np (repeat n k) ax) as (b & Eb & Wb & Sb & G).
  { now rewrite repeat_length. } { lia. }
  rewrite E in Eb. injection Eb as <-.
  rewrite G in Gx, Gx' by (auto; lia).
  assert (D : forall p q, @delta K p q <> r0 -> p = q).
  { unfold delta. intros p q. destruct (Nat.eqb_spec p q); congruence. }
  apply D in Gx. apply D in Gx'.
  rewrite <- (excitation_equal n k x), <- (excitation_equal n k x') by auto.
  rewrite Gx, Gx'. pose proof (triangular_sorted (repeat n k)) as S.
  assert (Hlen : i' < length (triangular (repeat n k))) by (rewrite triangular_len; lia).
  apply (ss_nth (fun a b => degree (repeat n k) a <= degree (repeat n k) b)); auto.
Qed.
End A.
