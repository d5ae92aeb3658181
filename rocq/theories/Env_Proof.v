(** Environments of tree networks: recursive evaluation equals the dense sum. *)
From Coq Require Import List Arith Bool Lia Permutation.
From Verif Require Import Py Alg ListX NdArray_Model NdArray_Proof Contract_Model Contract_Spec
  Contract_Proof Mode_Proof Net_Model Net_Spec Trav_Proof.
Import ListNotations.
Local Open Scope nat_scope.
Local Open Scope star_scope.

(** ** Leaf values *)
Lemma index_of_app_l n l l' : In n l -> index_of n (l ++ l') = index_of n l.
Proof.
  induction l as [|x l IH]; intros H; [destruct H|]. cbn [app index_of].
  destruct (Nat.eqb_spec x n) as [->|Hn]; auto. f_equal. apply IH.
  destruct H; auto. congruence.
Qed.
Lemma index_of_app_r n l l' : ~ In n l -> index_of n (l ++ l') = (length l + index_of n l')%nat.
Proof.
  induction l as [|x l IH]; intros H; [reflexivity|]. cbn [app index_of length Nat.add].
  destruct (Nat.eqb_spec x n) as [->|Hn]; [destruct H; left; auto|]. f_equal. apply IH.
  intros Hi; apply H; right; auto.
Qed.
Lemma asg_app_l n l l' v v' : length v = length l -> In n l -> asg (l ++ l') (v ++ v') n = asg l v n.
Proof.
  intros E H. unfold asg. rewrite index_of_app_l by auto. apply app_nth1.
  rewrite E. now apply index_of_lt.
Qed.
Lemma asg_app_r n l l' v v' : length v = length l -> ~ In n l -> asg (l ++ l') (v ++ v') n = asg l' v' n.
Proof.
  intros E H. unfold asg. rewrite index_of_app_r by auto. rewrite <- E, app_nth2 by lia.
  f_equal. lia.
Qed.

Lemma combine_app' {A B} (l1 l2 : list A) (m1 m2 : list B) : length l1 = length m1 ->
  combine (l1 ++ l2) (m1 ++ m2) = combine l1 m1 ++ combine l2 m2.
Proof.
  revert m1; induction l1 as [|x l1 IH]; intros [|y m1] H; try discriminate; [reflexivity|].
  cbn. rewrite IH; auto.
Qed.

Section Env.
Variable K : StarRing.
Add Ring Kring : (r_theory K).
Implicit Types A B : id -> arr K.

Fixpoint zprod2 (fs : list (nat -> nat -> K)) (x y : list nat) : K :=
  match fs, x, y with f :: fs, v :: x, w :: y => f v w * zprod2 fs x y | _, _, _ => 1 end.

(** The value of an environment by recursion over the tree. *)
Fixpoint erec A B (M : id -> nat -> nat -> K) (ax : option nat) (t : tree) (p q : nat) {struct t} : K :=
  match t with
  | Lf n => M n p q
  | Nd n ks =>
      sumL (indices (others ax (shape (A n)))) (fun x =>
      sumL (indices (others ax (shape (B n)))) (fun y =>
        get (A n) (full ax p x) * get (B n) (full ax q y) *
        zprod2 (map (fun k => erec A B M (Some (k_j k)) (k_t k)) ks) x y))
  end.

Fixpoint gdims A (ks : list kid) (ms : list nat) : list nat :=
  match ks, ms with
  | k :: ks, m :: ms => ldims A (Some (k_j k)) m (k_t k) ++ gdims A ks ms
  | _, _ => []
  end.
Lemma ldims_node A ax d n ks : ldims A ax d (Nd n ks) = gdims A ks (others ax (shape (A n))).
Proof.
  cbn [ldims]. generalize (others ax (shape (A n))) as ms. induction ks as [|k ks IH]; intros ms;
    destruct ms; cbn [gdims]; auto. f_equal. apply IH.
Qed.

Lemma ldims_length A : forall t ax d, fits A ax d t -> length (ldims A ax d t) = length (lids t).
Proof.
  induction t as [n|n ks IH] using tree_ind'; intros ax d H; [reflexivity|].
  rewrite ldims_node. cbn [lids]. inversion H as [|? ? ? ? W P X I F]; subst. clear H W P X I.
  revert IH. induction F as [|k m ks ms Hk F IHF]; intros IH; [reflexivity|].
  inversion IH; subst. cbn [gdims flat_map]. rewrite !app_length, IHF by auto. f_equal. eauto.
Qed.

Lemma gdims_length A ks ms : Forall2 (fun k m => fits A (Some (k_j k)) m (k_t k)) ks ms ->
  length (gdims A ks ms) = length (flat_map (fun k => lids (k_t k)) ks).
Proof.
  induction 1 as [|k m ks ms Hk F IH]; [reflexivity|]. cbn [gdims flat_map].
  rewrite !app_length, IH. f_equal. now apply ldims_length.
Qed.

Lemma zprod_ext fs gs x : Forall2 (fun f g : nat -> K => forall v, f v = g v) fs gs -> zprod fs x = zprod gs x.
Proof.
  intros H. revert x. induction H as [|f g fs gs E H IH]; intros [|v x]; auto. cbn [zprod].
  now rewrite E, IH.
Qed.

Lemma amp_ext A s s' : forall t ax p, (forall l, In l (lids t) -> s l = s' l) ->
  amp A s ax t p = amp A s' ax t p.
Proof.
  induction t as [n|n ks IH] using tree_ind'; intros ax p H.
  - cbn [amp]. rewrite H; [reflexivity|left; auto].
  - cbn [amp]. apply sumL_ext. intros x. f_equal. apply zprod_ext.
    cbn [lids] in H. clear p ax x. induction IH as [|k ks Hk _ IHk]; constructor.
    + intros v. apply Hk. intros l Hl. apply H. cbn [flat_map]. apply in_app_iff; auto.
    + apply IHk. intros l Hl. apply H. cbn [flat_map]. apply in_app_iff; auto.
Qed.

Lemma kids_amp_ext A s s' ks x : (forall l, In l (flat_map (fun k => lids (k_t k)) ks) -> s l = s' l) ->
  zprod (map (fun k => amp A s (Some (k_j k)) (k_t k)) ks) x
  = zprod (map (fun k => amp A s' (Some (k_j k)) (k_t k)) ks) x.
Proof.
  intros H. apply zprod_ext. induction ks as [|k ks IH]; constructor.
  - intros v. apply amp_ext. intros l Hl. apply H. cbn [flat_map]. apply in_app_iff; auto.
  - apply IH. intros l Hl. apply H. cbn [flat_map]. apply in_app_iff; auto.
Qed.

(** Products of four sums. *)
Lemma sum4_mul {X Y : Type} (l1 l2 : list X) (m1 m2 : list Y) (f : X -> Y -> K) (g : X -> Y -> K) :
  sumL l1 (fun v => sumL m1 (fun w => f v w)) * sumL l2 (fun v => sumL m2 (fun w => g v w))
  = sumL l1 (fun v => sumL l2 (fun v' => sumL m1 (fun w => sumL m2 (fun w' => f v w * g v' w')))).
Proof.
  rewrite <- sumL_scal_r. apply sumL_ext. intros v.
  rewrite <- sumL_scal_l. apply sumL_ext. intros v'.
  rewrite <- sumL_scal_r. apply sumL_ext. intros w.
  rewrite <- sumL_scal_l. reflexivity.
Qed.

Definition kid_lids (ks : list kid) : list id := flat_map (fun k => lids (k_t k)) ks.

Lemma kids_dense A B M ks :
  Forall (fun k => forall dA dB p q, fits A (Some (k_j k)) dA (k_t k) -> fits B (Some (k_j k)) dB (k_t k) ->
     NoDup (lids (k_t k)) -> p < dA -> q < dB ->
     erec A B M (Some (k_j k)) (k_t k) p q
     = sumL (indices (ldims A (Some (k_j k)) dA (k_t k))) (fun v =>
       sumL (indices (ldims B (Some (k_j k)) dB (k_t k))) (fun w =>
         amp A (asg (lids (k_t k)) v) (Some (k_j k)) (k_t k) p *
         amp B (asg (lids (k_t k)) w) (Some (k_j k)) (k_t k) q *
         prodL (lids (k_t k)) (fun l => M l (asg (lids (k_t k)) v l) (asg (lids (k_t k)) w l))))) ks ->
  forall ms ms' x y,
  Forall2 (fun k m => fits A (Some (k_j k)) m (k_t k)) ks ms ->
  Forall2 (fun k m => fits B (Some (k_j k)) m (k_t k)) ks ms' ->
  NoDup (kid_lids ks) -> in_range x ms -> in_range y ms' ->
  zprod2 (map (fun k => erec A B M (Some (k_j k)) (k_t k)) ks) x y
  = sumL (indices (gdims A ks ms)) (fun v => sumL (indices (gdims B ks ms')) (fun w =>
      zprod (map (fun k => amp A (asg (kid_lids ks) v) (Some (k_j k)) (k_t k)) ks) x *
      zprod (map (fun k => amp B (asg (kid_lids ks) w) (Some (k_j k)) (k_t k)) ks) y *
      prodL (kid_lids ks) (fun l => M l (asg (kid_lids ks) v l) (asg (kid_lids ks) w l)))).
Proof.
  induction 1 as [|k ks Hk _ IH]; intros ms ms' x y FA FB ND Hx Hy.
  - inversion FA; subst. inversion FB; subst. cbn [gdims map zprod2 zprod kid_lids flat_map].
    rewrite sum_indices_nil, sum_indices_nil, prodL_nil. ring.
  - inversion FA as [|? m ? msA fA FA']; subst. inversion FB as [|? m' ? msB fB FB']; subst.
    inversion Hx as [|p ? xs ? Hp Hx']; subst. inversion Hy as [|q ? ys ? Hq Hy']; subst.
    unfold kid_lids in ND. cbn [flat_map] in ND.
    assert (N1 : NoDup (lids (k_t k))) by (eapply NoDup_app_l; eauto).
    assert (N2 : NoDup (kid_lids ks)) by (eapply NoDup_app_r; eauto).
    assert (NX : forall l, In l (kid_lids ks) -> ~ In l (lids (k_t k))).
    { intros l A1 A2. eapply NoDup_app_disj; eauto. }
    cbn [map zprod2 gdims]. rewrite (Hk _ _ p q fA fB N1 Hp Hq), (IH _ _ xs ys FA' FB' N2 Hx' Hy').
    rewrite sum4_mul, sum_indices_app.
    apply sum_indices_ext. intros v Hv. apply sum_indices_ext. intros v' Hv'.
    rewrite sum_indices_app.
    apply sum_indices_ext. intros w Hw. apply sum_indices_ext. intros w' Hw'.
    apply in_range_len in Hv. apply in_range_len in Hw.
    rewrite ldims_length in Hv, Hw by auto.
    change (kid_lids (k :: ks)) with (lids (k_t k) ++ kid_lids ks). cbn [zprod].
    rewrite prodL_app.
    rewrite (amp_ext A (asg (lids (k_t k) ++ kid_lids ks) (v ++ v')) (asg (lids (k_t k)) v))
      by (intros; apply asg_app_l; auto).
    rewrite (amp_ext B (asg (lids (k_t k) ++ kid_lids ks) (w ++ w')) (asg (lids (k_t k)) w))
      by (intros; apply asg_app_l; auto).
    rewrite (kids_amp_ext A (asg (lids (k_t k) ++ kid_lids ks) (v ++ v')) (asg (kid_lids ks) v'))
      by (intros; apply asg_app_r; auto).
    rewrite (kids_amp_ext B (asg (lids (k_t k) ++ kid_lids ks) (w ++ w')) (asg (kid_lids ks) w'))
      by (intros; apply asg_app_r; auto).
    rewrite (prodL_ext_in K (lids (k_t k))
       (fun l => M l (asg (lids (k_t k) ++ kid_lids ks) (v ++ v') l)
                     (asg (lids (k_t k) ++ kid_lids ks) (w ++ w') l))
       (fun l => M l (asg (lids (k_t k)) v l) (asg (lids (k_t k)) w l)))
      by (intros l Hl; rewrite !asg_app_l by auto; reflexivity).
    rewrite (prodL_ext_in K (kid_lids ks)
       (fun l => M l (asg (lids (k_t k) ++ kid_lids ks) (v ++ v') l)
                     (asg (lids (k_t k) ++ kid_lids ks) (w ++ w') l))
       (fun l => M l (asg (kid_lids ks) v' l) (asg (kid_lids ks) w' l)))
      by (intros l Hl; rewrite !asg_app_r by auto; reflexivity).
    ring.
Qed.

Lemma erec_dense A B M : forall t ax dA dB p q, fits A ax dA t -> fits B ax dB t ->
  NoDup (lids t) -> (inner t = false -> p < dA /\ q < dB) ->
  erec A B M ax t p q
  = sumL (indices (ldims A ax dA t)) (fun v => sumL (indices (ldims B ax dB t)) (fun w =>
      amp A (asg (lids t) v) ax t p * amp B (asg (lids t) w) ax t q *
      prodL (lids t) (fun l => M l (asg (lids t) v l) (asg (lids t) w l)))).
Proof.
  induction t as [n|n ks IH] using tree_ind'; intros ax dA dB p q FA FB ND Hpq.
  - destruct (Hpq eq_refl) as (Hp & Hq). cbn [erec ldims lids amp].
    assert (An : forall v, asg [n] [v] n = v) by (intros v; unfold asg; cbn; now rewrite Nat.eqb_refl).
    rewrite sum_indices_single, (sumn_single K dA p); auto.
    + rewrite sum_indices_single, (sumn_single K dB q); auto.
      * rewrite prodL_cons, prodL_nil, !An. unfold delta. rewrite !Nat.eqb_refl. ring.
      * intros i Hi Hn. rewrite !An. unfold delta.
        replace (q =? i) with false by (symmetry; apply Nat.eqb_neq; auto). ring.
    + intros i Hi Hn. apply sumL_zero_in. intros w _. rewrite An. unfold delta.
      replace (p =? i) with false by (symmetry; apply Nat.eqb_neq; auto). ring.
  - rewrite !ldims_node. inversion FA as [|? ? ? ? WA PA XA IA GA]; subst.
    inversion FB as [|? ? ? ? WB PB XB IB GB]; subst. cbn [erec amp].
    change (lids (Nd n ks)) with (kid_lids ks) in *.
    transitivity (sumL (indices (others ax (shape (A n)))) (fun x =>
      sumL (indices (others ax (shape (B n)))) (fun y =>
        get (A n) (full ax p x) * get (B n) (full ax q y) *
        sumL (indices (gdims A ks (others ax (shape (A n))))) (fun v =>
        sumL (indices (gdims B ks (others ax (shape (B n))))) (fun w =>
          zprod (map (fun k => amp A (asg (kid_lids ks) v) (Some (k_j k)) (k_t k)) ks) x *
          zprod (map (fun k => amp B (asg (kid_lids ks) w) (Some (k_j k)) (k_t k)) ks) y *
          prodL (kid_lids ks) (fun l => M l (asg (kid_lids ks) v l) (asg (kid_lids ks) w l))))))).
    { apply sum_indices_ext. intros x Hx. apply sum_indices_ext. intros y Hy. f_equal.
      apply kids_dense; auto.
      eapply Forall_impl; [|exact IH]. cbn. intros k H dA' dB' p' q' F1 F2 N1 H1 H2.
      apply H; auto. }
    set (I1 := indices (others ax (shape (A n)))). set (I2 := indices (others ax (shape (B n)))).
    set (J1 := indices (gdims A ks (others ax (shape (A n))))).
    set (J2 := indices (gdims B ks (others ax (shape (B n))))).
    (* move the sums over leaf values outside *)
    transitivity (sumL I1 (fun x => sumL I2 (fun y => sumL J1 (fun v => sumL J2 (fun w =>
        (get (A n) (full ax p x) * zprod (map (fun k => amp A (asg (kid_lids ks) v) (Some (k_j k)) (k_t k)) ks) x) *
        (get (B n) (full ax q y) * zprod (map (fun k => amp B (asg (kid_lids ks) w) (Some (k_j k)) (k_t k)) ks) y) *
        prodL (kid_lids ks) (fun l => M l (asg (kid_lids ks) v l) (asg (kid_lids ks) w l))))))).
    { apply sumL_ext. intros x. apply sumL_ext. intros y. rewrite <- sumL_scal_l. apply sumL_ext. intros v.
      rewrite <- sumL_scal_l. apply sumL_ext. intros w. ring. }
    transitivity (sumL I1 (fun x => sumL J1 (fun v => sumL I2 (fun y => sumL J2 (fun w =>
        (get (A n) (full ax p x) * zprod (map (fun k => amp A (asg (kid_lids ks) v) (Some (k_j k)) (k_t k)) ks) x) *
        (get (B n) (full ax q y) * zprod (map (fun k => amp B (asg (kid_lids ks) w) (Some (k_j k)) (k_t k)) ks) y) *
        prodL (kid_lids ks) (fun l => M l (asg (kid_lids ks) v l) (asg (kid_lids ks) w l))))))).
    { apply sumL_ext. intros x. apply sumL_swap. }
    rewrite sumL_swap. apply sumL_ext. intros v.
    transitivity (sumL I1 (fun x => sumL J2 (fun w => sumL I2 (fun y =>
        (get (A n) (full ax p x) * zprod (map (fun k => amp A (asg (kid_lids ks) v) (Some (k_j k)) (k_t k)) ks) x) *
        (get (B n) (full ax q y) * zprod (map (fun k => amp B (asg (kid_lids ks) w) (Some (k_j k)) (k_t k)) ks) y) *
        prodL (kid_lids ks) (fun l => M l (asg (kid_lids ks) v l) (asg (kid_lids ks) w l)))))).
    { apply sumL_ext. intros x. apply sumL_swap. }
    rewrite sumL_swap. apply sumL_ext. intros w.
    rewrite <- sumL_scal_r, <- sumL_scal_r. apply sumL_ext. intros x.
    rewrite <- sumL_scal_l, <- sumL_scal_r. reflexivity.
Qed.

(** ** Products with environments on a block of axes *)
Definition env_is (r : option (arr K)) (dA dB : nat) (f : nat -> nat -> K) : Prop :=
  match r with
  | None => dA = dB /\ forall p q, p < dA -> q < dA -> f p q = delta p q
  | Some m => wf m /\ shape m = [dA; dB] /\ forall p q, p < dA -> q < dB -> f p q = get m [p; q]
  end.

Inductive envs : list (option (arr K)) -> list nat -> list nat -> list (nat -> nat -> K) -> Prop :=
| envs_nil : envs [] [] [] []
| envs_cons r dA dB f rs dAs dBs fs : env_is r dA dB f -> envs rs dAs dBs fs ->
    envs (r :: rs) (dA :: dAs) (dB :: dBs) (f :: fs).

Lemma envs_len rs dAs dBs fs : envs rs dAs dBs fs ->
  length dAs = length rs /\ length dBs = length rs /\ length fs = length rs.
Proof. induction 1; cbn; intuition congruence. Qed.

Lemma envs_app_inv rs d1 d2 dBs fs : envs rs (d1 ++ d2) dBs fs ->
  exists r1 r2 b1 b2 f1 f2, rs = r1 ++ r2 /\ dBs = b1 ++ b2 /\ fs = f1 ++ f2 /\
    envs r1 d1 b1 f1 /\ envs r2 d2 b2 f2.
Proof.
  revert rs dBs fs. induction d1 as [|d d1 IH]; intros rs dBs fs H.
  - exists [], rs, [], dBs, [], fs. repeat split; auto. constructor.
  - cbn [app] in H. inversion H as [|r ? dB f rs' ? dBs' fs' He H']; subst.
    destruct (IH _ _ _ H') as (r1 & r2 & b1 & b2 & f1 & f2 & -> & -> & -> & H1 & H2).
    exists (r :: r1), r2, (dB :: b1), b2, (f :: f1), f2. repeat split; auto. constructor; auto.
Qed.

Lemma pp_all_app (a : arr K) l l' : pp_all a (l ++ l') = (let! c := pp_all a l in pp_all c l')%py.
Proof.
  revert a; induction l as [|[i m] l IH]; intros a; [reflexivity|]. cbn [pp_all app].
  destruct (partial_product a i m O) as [c|e]; cbn [bind]; auto.
Qed.

Lemma pp_block rs dAs dBs fs : envs rs dAs dBs fs -> forall (a : arr K) pre post,
  wf a -> shape a = pre ++ dAs ++ post ->
  exists c, pp_all a (combine (seq (length pre) (length rs)) rs) = Ok c /\ wf c /\
    shape c = pre ++ dBs ++ post /\
    forall u y w, in_range u pre -> in_range y dBs -> in_range w post ->
      get c (u ++ y ++ w) = sumL (indices dAs) (fun x => get a (u ++ x ++ w) * zprod2 fs x y).
Proof.
  induction 1 as [|r dA dB f rs dAs dBs fs He H IH]; intros a pre post Wa Sa.
  - exists a. split; [reflexivity|]. split; auto. split; auto. intros u y w Hu Hy Hw.
    inversion Hy; subst. rewrite sum_indices_nil. cbn [zprod2 app]. ring.
  - cbn [length seq combine pp_all].
    assert (E : exists a', partial_product a (length pre) r O = Ok a' /\ wf a' /\
      shape a' = pre ++ dB :: dAs ++ post /\
      forall u q v, in_range u pre -> q < dB -> in_range v (dAs ++ post) ->
        get a' (u ++ q :: v) = sumn dA (fun m => get a (u ++ m :: v) * f m q)).
    { destruct r as [m|].
      - destruct He as (Wm & Sm & Gm).
        exists (mode0 a (length pre) m).
        assert (Hn : nth (length pre) (shape a) O = dA) by (rewrite Sa, app_nth2, Nat.sub_diag; auto).
        assert (Su : upd (length pre) (nth 1 (shape m) O) (shape a) = pre ++ dB :: dAs ++ post).
        { rewrite Sm, Sa. cbn [nth app]. apply upd_app. }
        split; [|split; [|split]].
        + eapply pp_mode0; eauto. unfold ndim. rewrite Sa, !app_length. cbn. lia.
        + apply wf_build.
        + exact Su.
        + intros u q v Hu Hq Hv. rewrite get_mode0.
          * rewrite Hn. apply sumn_ext. intros k Hk.
            pose proof (in_range_len _ _ Hu) as Lu. rewrite <- Lu at 1. rewrite upd_app.
            rewrite <- Lu, nth_middle. f_equal. symmetry. apply Gm; auto.
          * rewrite Su. apply in_range_app; auto. constructor; auto.
      - destruct He as (<- & Gm). exists a. split; [reflexivity|]. split; auto. split; auto.
        intros u q v Hu Hq Hv. rewrite (sumn_single K dA q); auto.
        + rewrite Gm by auto. unfold delta. rewrite Nat.eqb_refl. ring.
        + intros i Hi Hn. rewrite Gm by auto. unfold delta.
          replace (i =? q) with false by (symmetry; apply Nat.eqb_neq; auto). ring. }
    destruct E as (a' & E & Wa' & Sa' & Ga'). rewrite E. cbn [bind].
    destruct (IH a' (pre ++ [dB]) post Wa') as (c & Ec & Wc & Sc & Gc).
    { rewrite Sa', <- !app_assoc. reflexivity. }
    rewrite app_length in Ec. cbn [length] in Ec. rewrite Nat.add_1_r in Ec.
    exists c. split; auto. split; auto. split; [rewrite Sc, <- !app_assoc; reflexivity|].
    intros u y w Hu Hy Hw. inversion Hy as [|q ? ys ? Hq Hys]; subst.
    change ((q :: ys) ++ w) with ([q] ++ ys ++ w). rewrite app_assoc.
    rewrite Gc; auto; [|apply in_range_app; auto; constructor; auto; constructor].
    rewrite sum_indices_cons. unfold sumn at 1. rewrite sumL_swap.
    apply sum_indices_ext. intros x Hx. rewrite <- app_assoc. cbn [app].
    rewrite Ga'; auto; [|apply in_range_app; auto].
    unfold sumn. rewrite <- sumL_scal_r. apply sumL_ext. intros m. cbn [zprod2]. ring.
Qed.

Lemma zprod2_app f1 : forall f2 x1 x2 y1 y2, length x1 = length f1 -> length y1 = length f1 ->
  zprod2 (f1 ++ f2) (x1 ++ x2) (y1 ++ y2) = zprod2 f1 x1 y1 * zprod2 f2 x2 y2.
Proof.
  induction f1 as [|f f1 IH]; intros f2 x1 x2 y1 y2 Hx Hy.
  - destruct x1; [|discriminate]. destruct y1; [|discriminate]. cbn [app zprod2]. ring.
  - destruct x1 as [|v x1]; [discriminate|]. destruct y1 as [|w y1]; [discriminate|].
    cbn [app zprod2]. rewrite IH by (cbn in *; lia). ring.
Qed.

Lemma others_seq i n : i < n -> del i (seq O n) = seq O i ++ seq (S i) (n - S i)%nat.
Proof.
  intros H. replace (seq O n) with (seq O i ++ i :: seq (S i) (n - S i)%nat).
  - rewrite <- (seq_length i O) at 1. apply del_at.
  - change (i :: seq (S i) (n - S i)%nat) with (seq (O + i) (S (n - S i)%nat)). rewrite <- seq_app.
    f_equal. lia.
Qed.

Lemma pp_node ax (a : arr K) rs dBs fs :
  wf a -> (match ax with Some i => i < ndim a | None => True end) ->
  envs rs (others ax (shape a)) dBs fs ->
  let d := match ax with Some i => nth i (shape a) O | None => O end in
  exists c, pp_all a (combine (others ax (seq O (ndim a))) rs) = Ok c /\ wf c /\
    shape c = full ax d dBs /\
    forall p y, (ax <> None -> p < d) -> in_range y dBs ->
      get c (full ax p y) = sumL (indices (others ax (shape a))) (fun x => get a (full ax p x) * zprod2 fs x y).
Proof.
  intros Wa Hi H d. destruct ax as [i|]; cbn [others full] in *.
  - unfold ndim in *. pose proof (nth_decomp i O (shape a) Hi) as Es.
    fold d in Es. destruct Es as (s1 & s2 & Es & L1).
    assert (Ed : del i (shape a) = s1 ++ s2) by (rewrite Es, <- L1; clearbody d; apply del_at).
    rewrite Ed in H |- *. destruct (envs_app_inv _ _ _ _ _ H) as (r1 & r2 & b1 & b2 & f1 & f2 & -> & -> & -> & H1 & H2).
    destruct (envs_len _ _ _ _ H1) as (A1 & A2 & A3). destruct (envs_len _ _ _ _ H2) as (B1 & B2 & B3).
    destruct (pp_block _ _ _ _ H1 a [] (d :: s2) Wa Es) as (c1 & E1 & W1 & S1 & G1).
    cbn [app length] in S1, E1.
    destruct (pp_block _ _ _ _ H2 c1 (b1 ++ [d]) [] W1) as (c2 & E2 & W2 & S2 & G2).
    { rewrite S1, <- app_assoc, app_nil_r. reflexivity. }
    exists c2. split; [|split; [auto|split]].
    + rewrite others_seq by auto.
      replace (length (shape a) - S i)%nat with (length r2).
      2:{ rewrite <- B1, Es, app_length. cbn. lia. }
      assert (Li : length r1 = i) by congruence. rewrite <- Li at 1.
      rewrite combine_app' by (rewrite seq_length; auto).
      rewrite pp_all_app, E1. cbn [bind].
      rewrite app_length in E2. cbn [length] in E2.
      replace (length b1 + 1)%nat with (S i) in E2 by lia. exact E2.
    + rewrite S2, app_nil_r, <- app_assoc. cbn [app]. assert (Lb : length b1 = i) by congruence.
      rewrite <- Lb. now rewrite ins_at.
    + intros p y Hp Hy. apply in_range_app_inv in Hy. destruct Hy as (y1 & y2 & -> & Hy1 & Hy2).
      pose proof (in_range_len _ _ Hy1) as Ly1. assert (Ly : length y1 = i) by congruence.
      rewrite <- Ly, ins_at. specialize (Hp ltac:(discriminate)).
      assert (E : y1 ++ p :: y2 = (y1 ++ [p]) ++ y2 ++ []) by (rewrite app_nil_r, <- app_assoc; reflexivity).
      rewrite E, G2; auto; [| |constructor].
      * rewrite sum_indices_app. rewrite sumL_swap. apply sum_indices_ext. intros x2 Hx2.
        rewrite app_nil_r, <- app_assoc. cbn [app].
        change (y1 ++ p :: x2) with ([] ++ y1 ++ (p :: x2)). rewrite G1; auto; [|constructor|constructor; auto].
        rewrite <- sumL_scal_r. apply sum_indices_ext. intros x1 Hx1. cbn [app].
        pose proof (in_range_len _ _ Hx1) as Lx1.
        replace (ins (length y1) p (x1 ++ x2)) with (x1 ++ p :: x2)
          by (replace (length y1) with (length x1) by congruence; now rewrite ins_at).
        rewrite zprod2_app by congruence. ring.
      * apply in_range_app; auto. constructor; auto.
  - unfold ndim in *. destruct (envs_len _ _ _ _ H) as (A1 & A2 & A3).
    destruct (pp_block _ _ _ _ H a [] [] Wa) as (c & E & W & S & G).
    { cbn. now rewrite app_nil_r. }
    cbn [app length] in *. rewrite app_nil_r in S. rewrite A1. exists c.
    split; auto. split; auto. split; auto. intros p y _ Hy.
    specialize (G [] y []). cbn [app] in G. rewrite app_nil_r in G. rewrite G; auto; try constructor.
    apply sumL_ext. intros x. now rewrite app_nil_r.
Qed.

Lemma none_sum rs dAs dBs fs : envs rs dAs dBs fs -> forallb (@is_none _) rs = true ->
  dAs = dBs /\ forall x g, in_range x dAs ->
    sumL (indices dAs) (fun y => g y * zprod2 fs x y) = g x.
Proof.
  induction 1 as [|r dA dB f rs dAs dBs fs He H IH]; intros N.
  - split; auto. intros x g Hx. inversion Hx; subst. rewrite sum_indices_nil. cbn [zprod2]. ring.
  - cbn [forallb] in N. apply andb_true_iff in N. destruct N as (N1 & N2).
    destruct r; [discriminate|]. destruct He as (<- & Gf). destruct (IH N2) as (<- & IH').
    split; auto. intros x g Hx. inversion Hx as [|p ? xs ? Hp Hxs]; subst.
    rewrite sum_indices_cons, (sumn_single K dA p); auto.
    + cbn [zprod2]. rewrite Gf by auto. unfold delta. rewrite Nat.eqb_refl.
      rewrite <- (IH' xs (fun y => g (p :: y)) Hxs). apply sumL_ext. intros y. ring.
    + intros i Hi Hn. apply sumL_zero_in. intros y _. cbn [zprod2]. rewrite Gf by auto. unfold delta.
      replace (p =? i) with false by (symmetry; apply Nat.eqb_neq; auto). ring.
Qed.
End Env.
