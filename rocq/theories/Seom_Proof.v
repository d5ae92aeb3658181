(** The terms of seom.py give the equations of Seom_Spec.v. *)
From Coq Require Import List Arith Bool Lia Ring.
From Verif Require Import Py Alg ListX NdArray_Model NdArray_Proof Contract_Model Contract_Spec Contract_Proof Mode_Proof
  Heom_Model Heom_Spec Heom_Proof HeomThm_Proof Seom_Spec.
From Verif Require Seom_Model.
Import ListNotations.
Local Open Scope nat_scope.

Section Seom.
Variable K : StarRing.
Add Ring Kr : (r_theory K).
Variables (im hj : K) (sq : nat -> K) (close0 : K -> bool) (dims : list nat) (d : nat) (ex : arr K) (symm asymm : list K) (h op : arr K).
Hypothesis Hh : shape h = [d; d].
Hypothesis Hop : shape op = [d; d].
Hypothesis Lg : length (data ex) = length dims.
Hypothesis Ng : ndim ex = 1.
Hypothesis Ls : length symm = length dims.
Hypothesis La : length asymm = length dims.
Hypothesis C0 : close0 r0 = true.
Hypothesis S0 : sq 0 = r0.
Notation m := (length dims).
Notation cf k := (nth k symm r0 + im * nth k asymm r0)%S.
Notation ga k := (if close0 (nth k (data ex) r0) then r0 else nth k (data ex) r0).

Lemma creator_ok k : k < m -> exists c, Seom_Model.creator K sq dims k = Ok c /\
  tridiag K c (nth k dims 0) (fun x => sq x) (fun _ => r0) (fun _ => r0).
Proof.
  intros Hk. unfold Seom_Model.creator, Seom_Model.sqrt_n. rewrite (item_nth dims k 0) by auto. cbn [bind].
  destruct (tri_mul_diag K _ _ _ _ _ sq (tri_up K (nth k dims 0))) as (r & Er & Tr). exists r. split; auto.
  eapply tri_ext; [exact Tr|intros; cbn beta; ring..].
Qed.
Lemma annihilator_ok k : k < m -> exists c, Seom_Model.annihilator K sq dims k = Ok c /\
  tridiag K c (nth k dims 0) (fun _ => r0) (fun _ => r0) (fun x => sq (S x)).
Proof.
  intros Hk. unfold Seom_Model.annihilator, Seom_Model.sqrt_n. rewrite (item_nth dims k 0) by auto. cbn [bind].
  destruct (diag_mul_tri K _ _ _ _ _ sq (tri_dn K (nth k dims 0))) as (r & Er & Tr). exists r. split; auto.
  eapply tri_ext; [exact Tr|intros; cbn beta; ring..].
Qed.
Lemma diff_n_sums a : rep K dims d a -> exists l, Seom_Model.diff_n K hj sq close0 dims ex = Ok l /\
  sums K dims d l a (fun n i j => hj * sumn m (fun k => num (occ n k) * ga k) * tiers dims a n i j)%S.
Proof.
  intros R. unfold Seom_Model.diff_n, k_max.
  destruct (map_res_ok (Seom_Model.diff_n_pair K hj sq close0 dims ex)
    (fun p l => sums K dims d l a (fun n i j => if fst p =? snd p then hj * (num (occ n (fst p)) * ga (fst p)) * tiers dims a n i j else r0)%S)
    (list_prod (seq 0 m) (seq 0 m))) as (ls & E & F).
  - intros (i, j) Hin. apply in_prod_iff in Hin as (Hi & Hj). apply in_seq in Hi, Hj. cbn [Seom_Model.diff_n_pair fst snd].
    unfold Seom_Model.gamma_entry. rewrite Ng. cbn [Nat.eqb]. unfold gamma_at.
    rewrite (item_nth (data ex) i r0), (item_nth (data ex) j r0) by lia. cbn [bind]. destruct (Nat.eqb_spec i j) as [<-|N].
    + destruct (close0 (nth i (data ex) r0)) eqn:Ec.
      * exists []. split; [reflexivity|]. eapply sums_ext; [apply sums_nil|]. intros. cbn beta. ring.
      * destruct (numberer_ok K dims i) as (nn & En & Tn & _); [lia|]. rewrite En. cbn [bind]. eexists. split; [reflexivity|].
        eapply sums_ext; [apply sums_cons; [eapply one_k; [exact R|lia|apply tri_scale; exact Tn|cbn beta; ring]|apply sums_nil]|].
        intros n x y Hn Hx Hy. unfold kact. rewrite nr_num. ring.
    + rewrite C0. exists []. split; [reflexivity|]. eapply sums_ext; [apply sums_nil|]. intros. reflexivity.
  - rewrite E. cbn [bind]. exists (concat ls). split; [reflexivity|]. eapply sums_ext; [apply sums_concat; exact F|].
    intros n i j Hn Hi Hj. cbn beta. unfold sumn at 1.
    transitivity (sumL (seq 0 m) (fun k => sumL (seq 0 m) (fun k' => if k =? k' then hj * (num (occ n k) * ga k) * tiers dims a n i j else r0)))%S.
    + generalize (seq 0 m) at 1 3. intros l. generalize (seq 0 m). intros l'. induction l as [|x l IH]; [reflexivity|].
      cbn [list_prod]. rewrite sumL_app, sumL_cons, <- IH, sumL_map. reflexivity.
    + rewrite <- sumL_scal_l, <- sumL_scal_r. apply sumL_ext_in. intros k Hk. apply in_seq in Hk.
      fold (sumn m (fun k' => if k =? k' then hj * (num (occ n k) * ga k) * tiers dims a n i j else r0)%S).
      rewrite (sumn_ext K m _ (fun k' => delta k' k * (hj * (num (occ n k) * ga k) * tiers dims a n i j))%S).
      * rewrite sumn_delta by lia. reflexivity.
      * intros k' Hk'. unfold delta. rewrite (Nat.eqb_sym k' k). destruct (k =? k'); ring.
Qed.
Lemma diff_k_sums a k : rep K dims d a -> k < m ->
  exists l, Seom_Model.diff_k K im sq dims symm asymm op k = Ok l /\
    sums K dims d l a (fun n q p =>
      sq (S (occ n k)) * sumn d (fun x => mat op p x * tiers dims a (more k n) q x)
      + cf k * sq (occ n k) * sumn d (fun x => mat op p x * tiers dims a (less k n) q x))%S.
Proof.
  intros R Hk. unfold Seom_Model.diff_k, c_at, k_max, Seom_Model.op.
  rewrite (item_nth symm k r0), (item_nth asymm k r0) by lia. cbn [bind].
  destruct (creator_ok k Hk) as (r & Er & Tr). rewrite Er. cbn [bind]. destruct (annihilator_ok k Hk) as (l & El & Tl). rewrite El. cbn [bind].
  eexists. split; [reflexivity|]. pose proof (shape_T K d op Hop) as ST. eapply sums_ext.
  - apply sums_cons; [eapply two_j; [exact R|exact Hk|exact ST|exact Tl|reflexivity]|].
    apply sums_cons; [eapply two_j; [exact R|exact Hk|exact ST|exact Tr|exact S0]|apply sums_nil].
  - intros n q p Hn Hq Hp. cbn beta. unfold kact, mat. set (T := tiers dims a).
    rewrite (sumn_ext K d _ (fun x => T (more k n) q x * (sq (S (occ n k)) * get op [p; x]))%S) by (intros x Hx; rewrite (get_T K d) by auto; ring).
    rewrite (sumn_ext K d (fun x => _ * get (arr_scale (cf k) (mat_T op)) [x; p])%S (fun x => T (less k n) q x * (cf k * sq (occ n k) * get op [p; x]))%S)
      by (intros x Hx; rewrite get_scale, (get_T K d) by auto; ring).
    rewrite !sum_left. ring.
Qed.

Theorem seom_ok : exists l, Seom_Model.diff K im hj sq close0 dims ex symm asymm h op = Ok l /\ forall a, rep K dims d a ->
  exists b, apply_terms l a = Ok b /\ rep K dims d b /\
    forall n q p, in_range n dims -> q < d -> p < d ->
      get b (n ++ [q; p]) = wave_rhs hj sq d m (mat h) (mat op) (fun k => ga k) (fun k => cf k) (tiers dims a) n q p.
Proof.
  assert (X : forall a, rep K dims d a -> exists l b, Seom_Model.diff K im hj sq close0 dims ex symm asymm h op = Ok l /\ apply_terms l a = Ok b /\ rep K dims d b /\
    forall n q p, in_range n dims -> q < d -> p < d ->
      get b (n ++ [q; p]) = wave_rhs hj sq d m (mat h) (mat op) (fun k => ga k) (fun k => cf k) (tiers dims a) n q p).
  { intros a R.
    assert (Sh : sums K dims d (Seom_Model.diff_h K dims h) a (fun n q p => sumn d (fun x => mat h p x * tiers dims a n q x))%S).
    { unfold Seom_Model.diff_h, Seom_Model.h, k_max. eapply sums_ext; [apply sums_cons; [apply one_j; auto; apply shape_T; auto|apply sums_nil]|].
      intros n q p Hn Hq Hp. cbn beta. unfold mat.
      rewrite (sumn_ext K d _ (fun x => get h [p; x] * tiers dims a n q x)%S) by (intros x Hx; rewrite (get_T K d) by auto; ring). ring. }
    destruct (diff_n_sums a R) as (ln & En & Sn).
    destruct (map_res_ok (Seom_Model.diff_k K im sq dims symm asymm op) (fun k l => sums K dims d l a (fun n q p =>
      sq (S (occ n k)) * sumn d (fun x => mat op p x * tiers dims a (more k n) q x)
      + cf k * sq (occ n k) * sumn d (fun x => mat op p x * tiers dims a (less k n) q x))%S) (seq 0 m)) as (ls & Ek & F).
    { intros k Hk. apply in_seq in Hk. apply diff_k_sums; auto; lia. }
    pose proof (sums_app K dims d _ _ a _ _ Sh (sums_app K dims d _ _ a _ _ Sn (sums_concat K dims d _ _ _ _ F))) as T.
    destruct (sums_apply K dims d _ a _ R T) as (b & Eb & Rb & Gb).
    eexists. exists b. split.
    { unfold Seom_Model.diff, k_max. rewrite En. cbn [bind]. rewrite Ek. cbn [bind]. reflexivity. }
    split; [exact Eb|]. split; [exact Rb|]. intros n q p Hn Hq Hp. rewrite Gb by auto. unfold wave_rhs.
    rewrite sumL_add. unfold sumn. ring. }
  destruct (X (zeros (dims ++ [d; d]))) as (l & _ & E & _); [split; [apply wf_build|reflexivity]|].
  exists l. split; auto. intros a R. destruct (X a R) as (l' & b & E' & H). assert (l' = l) by congruence. subst l'. exists b. exact H.
Qed.
End Seom.
