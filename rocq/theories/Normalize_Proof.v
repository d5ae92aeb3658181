From Coq Require Import List Arith Bool Lia Ring.
From Verif Require Import Py Alg ListX NdArray_Model NdArray_Proof Contract_Model Contract_Spec Contract_Proof Net_Model Normalize_Model Normalize_Spec.
Import ListNotations.

Section P.
Variable K : StarRing.
Add Ring Kr : (r_theory K).
Local Open Scope star_scope.

Definition fam (us : list (list K)) : family K nat := fun i x => nth x (nth i us []) 0.

Lemma cdot_sum m u v : length u = m -> length v = m -> @cdot K u v = sumn m (fun x => rconj (nth x u 0) * nth x v 0).
Proof.
  revert u v. induction m as [|m IH]; intros [|x u] [|y v] Hu Hv; try discriminate; [reflexivity|].
  unfold cdot. cbn [combine map sum_list fst snd]. fold (cdot u v). rewrite (IH u v) by (cbn in *; lia).
  unfold sumn, sumL. cbn [seq map sum_list nth]. rewrite <- seq_shift, map_map. reflexivity.
Qed.

Lemma remove_len v u : length u = length v -> length (@remove_part K v u) = length v.
Proof. intros H. unfold remove_part. rewrite map_length, combine_length. lia. Qed.
Lemma remove_nth v u x : length u = length v -> (x < length v)%nat -> nth x (@remove_part K v u) 0 = nth x v 0 - nth x u 0 * cdot u v.
Proof.
  intros H Hx. unfold remove_part. set (c := cdot u v). clearbody c. revert u x H Hx. induction v as [|y v IH]; intros [|z u] [|x] H Hx; cbn in *; try lia; auto.
  apply IH; lia.
Qed.

Lemma sumn_S n (f : nat -> K) : sumn (S n) f = sumn n f + f n.
Proof. unfold sumn. rewrite seq_S, sumL_app, sumL_cons, sumL_nil. cbn [Nat.add]. ring. Qed.

Section Rows.
Variable m : nat.
Notation xs := (seq 0 m).
Definition sized (us : list (list K)) := Forall (fun u => length u = m) us.
Lemma sized_nth us i : sized us -> (i < length us)%nat -> length (nth i us []) = m.
Proof. intros H Hi. unfold sized in H. rewrite Forall_forall in H. apply H, nth_In; auto. Qed.

Lemma ip_cdot us vs i j : sized us -> sized vs -> (i < length us)%nat -> (j < length vs)%nat ->
  inner_prod xs (fam us i) (fam vs j) = cdot (nth i us []) (nth j vs []).
Proof. intros Hu Hv Hi Hj. rewrite (cdot_sum m); auto using sized_nth. Qed.

Lemma fam_app_l us vs i x : (i < length us)%nat -> fam (us ++ vs) i x = fam us i x.
Proof. intros H. unfold fam. rewrite app_nth1 by auto. reflexivity. Qed.
Lemma fam_app_r us v x : fam (us ++ [v]) (length us) x = nth x v 0.
Proof. unfold fam. rewrite app_nth2, Nat.sub_diag by lia. reflexivity. Qed.

(** Removing the parts along an orthonormal family. *)
Lemma fold_remove us v : sized us -> length v = m -> orthonormal xs (length us) (fam us) ->
  length (fold_left remove_part us v) = m /\
  forall x, (x < m)%nat -> nth x (fold_left remove_part us v) 0 = nth x v 0 - sumn (length us) (fun j => cdot (nth j us []) v * fam us j x).
Proof.
  induction us as [|u us IH] using rev_ind; intros Hs Lv Ho.
  - cbn [fold_left length]. split; auto. intros x Hx. unfold sumn. cbn. ring.
  - apply Forall_app in Hs as (Hs & Hu). inversion Hu as [|? ? Lu _]; subst. rewrite app_length in *. cbn [length] in *.
    replace (length us + 1)%nat with (S (length us)) in * by lia.
    destruct IH as (L & G); auto.
    { intros i j Hi Hj. rewrite <- (Ho i j) by lia. unfold inner_prod. apply sumL_ext. intros x. rewrite !fam_app_l by lia. reflexivity. }
    rewrite fold_left_app. cbn [fold_left]. set (w := fold_left remove_part us v) in *.
    split; [rewrite remove_len by lia; exact L|]. intros x Hx. rewrite remove_nth by lia. rewrite G by auto.
    assert (E : cdot u w = cdot u v).
    { rewrite !(cdot_sum m) by auto.
      transitivity (sumn m (fun x => rconj (nth x u 0) * nth x v 0 - sumn (length us) (fun j => cdot (nth j us []) v * (rconj (nth x u 0) * fam us j x)))).
      - apply sumn_ext. intros y Hy. rewrite G by auto. rewrite (sumn_ext K _ (fun j => cdot (nth j us []) v * (rconj (nth y u 0) * fam us j y)) (fun j => rconj (nth y u 0) * (cdot (nth j us []) v * fam us j y))) by (intros; ring).
        rewrite sumn_scal_l. ring.
      - unfold sumn at 1. rewrite sumL_sub. change (sumL xs ?f) with (sumn m f).
        rewrite (sumn_swap K m (length us)). rewrite (sumn_zero K (length us)); [ring|].
        intros j Hj. rewrite sumn_scal_l. specialize (Ho (length us) j ltac:(lia) ltac:(lia)). unfold inner_prod in Ho.
        unfold delta in Ho. destruct (Nat.eqb_spec (length us) j); [lia|].
        transitivity (cdot (nth j us []) v * 0); [|ring]. f_equal. etransitivity; [|exact Ho]. apply sumL_ext. intros y. rewrite fam_app_r, fam_app_l by lia. reflexivity. }
    rewrite E, sumn_S, fam_app_r. replace (nth (length us) (us ++ [u]) []) with u by (rewrite app_nth2, Nat.sub_diag by lia; reflexivity).
    rewrite (sumn_ext K (length us) (fun j => cdot (nth j (us ++ [u]) []) v * fam (us ++ [u]) j x) (fun j => cdot (nth j us []) v * fam us j x)).
    + ring.
    + intros j Hj. rewrite app_nth1, fam_app_l by auto. reflexivity.
Qed.

Variables (nrm : list K -> K) (inv : K -> K).
Hypothesis nontrivial : (r1 : K) <> r0.
(** A vector that is not zero can be normalised. *)
Hypothesis norm_ok : forall v, length v = m -> ~ (forall x, (x < m)%nat -> nth x v 0 = 0) ->
  nrm v * inv (nrm v) = 1 /\ rconj (inv (nrm v)) * inv (nrm v) * cdot v v = 1.

Definition good (vs us : list (list K)) (norms : list K) : Prop :=
  length us = length vs /\ length norms = length vs /\ sized vs /\ sized us /\ orthonormal xs (length us) (fam us) /\
  lower xs (length us) (fam us) (fam vs) /\ lower_with xs (length us) (fun i => nth i norms 0) (fam vs) (fam us).

Lemma in_xs x : In x xs <-> (x < m)%nat.
Proof. rewrite in_seq. lia. Qed.

Lemma gs_step vs us norms v rest : good vs us norms -> length v = m -> independent xs (length (vs ++ v :: rest)) (fam (vs ++ v :: rest)) ->
  let w := fold_left remove_part us v in
  good (vs ++ [v]) (us ++ [map (fun x => x * inv (nrm w)) w]) (norms ++ [nrm w]).
Proof.
  intros (Ln & Lno & Sv & Su & Ho & (C & HC) & (D & Dd & HD)) Lv Hi w.
  destruct (fold_remove us v Su Lv Ho) as (Lw & Gw). fold w in Lw, Gw.
  pose (a := fun j => cdot (nth j us []) v).
  change (forall x, (x < m)%nat -> nth x w 0 = nth x v 0 - sumn (length us) (fun j => a j * fam us j x)) in Gw.
  (* the residual is not zero *)
  assert (NZ : ~ (forall x, (x < m)%nat -> nth x w 0 = 0)).
  { intros Z. apply nontrivial.
    set (c := fun l => if (l <? length vs)%nat then - sumn (length us) (fun j => a j * (if (l <=? j)%nat then C j l else 0)) else if (l =? length vs)%nat then 1 else 0).
    assert (E : c (length vs) = 1) by (unfold c; rewrite Nat.ltb_irrefl, Nat.eqb_refl; reflexivity).
    rewrite <- E. apply (Hi c); [|rewrite app_length; cbn; lia]. intros x Hx. apply in_xs in Hx.
    rewrite <- (Z x Hx), (Gw x Hx).
    replace (length (vs ++ v :: rest)) with (length vs + (1 + length rest))%nat by (rewrite app_length; cbn; lia).
    unfold sumn at 1. rewrite !seq_app, !sumL_app. cbn [Nat.add seq]. rewrite sumL_cons, sumL_nil.
    rewrite (sumL_zero_in K (seq (length vs + 1) (length rest))).
    2: { intros l Hl. apply in_seq in Hl. unfold c. destruct (Nat.ltb_spec l (length vs)); [lia|]. destruct (Nat.eqb_spec l (length vs)); [lia|]. ring. }
    rewrite E. replace (fam (vs ++ v :: rest) (length vs) x) with (nth x v 0) by (unfold fam; rewrite app_nth2, Nat.sub_diag by lia; reflexivity).
    assert (G : sumL (seq 0 (length vs)) (fun i => c i * fam (vs ++ v :: rest) i x) = - sumn (length us) (fun j => a j * fam us j x)). 2: { rewrite G. ring. }
    rewrite (sumL_ext_in K _ _ (fun l => - sumn (length us) (fun j => a j * ((if (l <=? j)%nat then C j l else 0) * fam vs l x)))).
    2: { intros l Hl. apply in_seq in Hl. unfold c. destruct (Nat.ltb_spec l (length vs)); [|lia]. rewrite fam_app_l by lia.
         rewrite (sumn_ext K (length us) (fun j => a j * (_ * fam vs l x)) (fun j => (a j * (if (l <=? j)%nat then C j l else 0)) * fam vs l x)) by (intros; ring). rewrite sumn_scal_r. ring. }
    rewrite sumL_opp. f_equal. change (sumL (seq 0 (length vs)) ?f) with (sumn (length vs) f). rewrite sumn_swap. apply sumn_ext. intros j Hj.
    rewrite sumn_scal_l. f_equal. rewrite (HC j x Hj) by (apply in_xs; auto).
    replace (length vs) with (S j + (length vs - S j))%nat by lia. unfold sumn. rewrite seq_app, sumL_app.
    rewrite (sumL_zero_in K (seq (0 + S j) _)).
    2: { intros l Hl. apply in_seq in Hl. destruct (Nat.leb_spec l j); [lia|ring]. }
    rewrite (sumL_ext_in K (seq 0 (S j)) _ (fun l => C j l * fam vs l x)); [ring|].
    intros l Hl. apply in_seq in Hl. destruct (Nat.leb_spec l j); [reflexivity|lia]. }
  destruct (norm_ok w Lw NZ) as (N1 & N2). set (n := nrm w) in *. set (u := map (fun x => x * inv n) w).
  assert (Lu : length u = m) by (unfold u; rewrite map_length; auto).
  assert (Gu : forall x, (x < m)%nat -> nth x u 0 = nth x w 0 * inv n).
  { intros x Hx. unfold u. rewrite (nth_indep _ 0 (0 * inv n)) by (rewrite map_length; lia). apply (map_nth (fun x => x * inv n)). }
  (* w is orthogonal to the previous ones *)
  assert (OW : forall i, (i < length us)%nat -> cdot (nth i us []) w = 0).
  { intros i Hil. rewrite (cdot_sum m) by auto using sized_nth.
    transitivity (sumn m (fun x => rconj (fam us i x) * nth x v 0 - sumn (length us) (fun j => a j * (rconj (fam us i x) * fam us j x)))).
    - apply sumn_ext. intros x Hx. rewrite Gw by auto. rewrite (sumn_ext K _ (fun j => a j * (rconj (fam us i x) * fam us j x)) (fun j => rconj (fam us i x) * (a j * fam us j x))) by (intros; ring).
      rewrite sumn_scal_l. change (nth x (nth i us []) 0) with (fam us i x). ring.
    - unfold sumn at 1. rewrite sumL_sub. change (sumL xs ?f) with (sumn m f). rewrite (sumn_swap K m (length us)).
      rewrite (sumn_ext K (length us) _ (fun j => a j * delta i j)).
      + rewrite (sumn_single K (length us) i); [|auto|intros j Hj N; unfold delta; destruct (Nat.eqb_spec i j); [congruence|ring]].
        unfold delta. rewrite Nat.eqb_refl. unfold a. rewrite (cdot_sum m) by auto using sized_nth. unfold fam. ring.
      + intros j Hj. rewrite sumn_scal_l. f_equal. apply (Ho i j); auto. }
  assert (IC : forall i, (i < length us)%nat -> inner_prod xs (fam us i) (fun x => nth x u 0) = 0).
  { intros i Hil. unfold inner_prod. transitivity (cdot (nth i us []) w * inv n); [|rewrite OW by auto; ring].
    rewrite (cdot_sum m) by auto using sized_nth. rewrite <- sumn_scal_r. apply sumn_ext. intros x Hx. rewrite Gu by auto. unfold fam. ring. }
  assert (UU : inner_prod xs (fun x => nth x u 0) (fun x => nth x u 0) = 1).
  { rewrite <- N2. unfold inner_prod. rewrite (cdot_sum m) by auto. rewrite <- sumn_scal_l. apply sumn_ext. intros x Hx. rewrite !Gu by auto. rewrite rconj_mul. ring. }
  assert (CI : forall f g : nat -> K, rconj (inner_prod xs f g) = inner_prod xs g f).
  { intros f g. unfold inner_prod. rewrite rconj_sumL. apply sumL_ext. intros x. rewrite rconj_mul, rconj_invol. ring. }
  assert (L1 : length (us ++ [u]) = S (length us)) by (rewrite app_length; cbn; lia).
  unfold good. rewrite L1. split; [rewrite app_length; cbn; lia|]. split; [rewrite !app_length; cbn; lia|].
  split; [apply Forall_app; split; auto|]. split; [apply Forall_app; split; auto|]. split; [|split].
  - intros i j Hil Hjl.
    assert (F : forall i, (i < S (length us))%nat -> (i < length us)%nat /\ (forall x, fam (us ++ [u]) i x = fam us i x) \/ i = length us /\ forall x, fam (us ++ [u]) i x = nth x u 0).
    { intros k Hk. destruct (Nat.eq_dec k (length us)) as [->|]; [right; split; auto; intros; apply fam_app_r|left; split; [lia|intros; apply fam_app_l; lia]]. }
    destruct (F i Hil) as [(Hi' & Ei)|(-> & Ei)], (F j Hjl) as [(Hj' & Ej)|(-> & Ej)]; unfold inner_prod.
    + rewrite <- (Ho i j) by auto. apply sumL_ext. intros x. rewrite Ei, Ej. reflexivity.
    + unfold delta. destruct (Nat.eqb_spec i (length us)); [lia|]. etransitivity; [|exact (IC i Hi')]. apply sumL_ext. intros x. rewrite Ei, Ej. reflexivity.
    + unfold delta. destruct (Nat.eqb_spec (length us) j); [lia|]. transitivity (inner_prod xs (fun x => nth x u 0) (fam us j)).
      * apply sumL_ext. intros x. rewrite Ei, Ej. reflexivity.
      * rewrite <- CI, IC by auto. apply rconj_0.
    + unfold delta. rewrite Nat.eqb_refl. etransitivity; [|exact UU]. apply sumL_ext. intros x. rewrite Ei. reflexivity.
  - exists (fun i j => if (i <? length us)%nat then C i j else if (j =? length us)%nat then inv n else - (sumn (length us) (fun l => a l * (if (j <=? l)%nat then C l j else 0))) * inv n).
    intros i x Hil Hx. destruct (Nat.ltb_spec i (length us)) as [Hi'|Hi'].
    + rewrite fam_app_l by auto. rewrite HC by auto. apply sumn_ext. intros j Hj. rewrite fam_app_l by lia. reflexivity.
    + replace i with (length us) by lia. rewrite fam_app_r, sumn_S, Nat.eqb_refl. apply in_xs in Hx as Hx'. rewrite Gu, Gw by auto.
      replace (fam (vs ++ [v]) (length us) x) with (nth x v 0) by (rewrite Ln; symmetry; apply fam_app_r).
      match goal with |- _ = ?s + _ => assert (S1 : s = sumn (length us) (fun j => a j * fam us j x) * (- inv n)); [|rewrite S1; ring] end.
      transitivity (sumn (length us) (fun j => sumn (length us) (fun l => a l * ((if (j <=? l)%nat then C l j else 0) * fam vs j x))) * (- inv n)).
      { rewrite <- sumn_scal_r. apply sumn_ext. intros j Hj. destruct (Nat.eqb_spec j (length us)); [lia|]. rewrite fam_app_l by lia.
        rewrite (sumn_ext K (length us) (fun l => a l * (_ * fam vs j x)) (fun l => a l * (if (j <=? l)%nat then C l j else 0) * fam vs j x)) by (intros; ring).
        rewrite sumn_scal_r. ring. }
      f_equal. rewrite sumn_swap. apply sumn_ext.
      intros j Hj. rewrite sumn_scal_l. f_equal. rewrite (HC j x Hj Hx).
      replace (length us) with (S j + (length us - S j))%nat by lia. unfold sumn. rewrite seq_app, sumL_app.
      rewrite (sumL_zero_in K (seq (0 + S j) _)).
      2: { intros l Hl. apply in_seq in Hl. destruct (Nat.leb_spec l j); [lia|ring]. }
      rewrite (sumL_ext_in K (seq 0 (S j)) _ (fun l => C j l * fam vs l x)); [ring|].
      intros l Hl. apply in_seq in Hl. destruct (Nat.leb_spec l j); [reflexivity|lia].
  - exists (fun i j => if (i <? length us)%nat then D i j else if (j =? length us)%nat then n else a j). split.
    { intros i Hil. destruct (Nat.ltb_spec i (length us)) as [Hi'|Hi'].
      - rewrite app_nth1 by lia. auto.
      - replace i with (length us) by lia. rewrite Nat.eqb_refl, app_nth2, Ln, Lno, Nat.sub_diag by lia. reflexivity. }
    intros i x Hil Hx. destruct (Nat.ltb_spec i (length us)) as [Hi'|Hi'].
    + rewrite fam_app_l by lia. rewrite HD by auto. apply sumn_ext. intros j Hj. rewrite fam_app_l by lia. reflexivity.
    + replace i with (length us) by lia. replace (fam (vs ++ [v]) (length us) x) with (nth x v 0) by (rewrite Ln; symmetry; apply fam_app_r). rewrite sumn_S, Nat.eqb_refl, fam_app_r. apply in_xs in Hx as Hx'. rewrite Gu, Gw by auto.
      match goal with |- _ = ?s + _ => assert (S1 : s = sumn (length us) (fun j => a j * fam us j x)) end.
      { apply sumn_ext. intros j Hj. destruct (Nat.eqb_spec j (length us)); [lia|]. rewrite fam_app_l by lia. reflexivity. }
      rewrite S1.
      transitivity ((nth x v 0 - sumn (length us) (fun j => a j * fam us j x)) * (n * inv n) + sumn (length us) (fun j => a j * fam us j x)); [rewrite N1; ring|ring].
Qed.

Lemma gs_good rows : forall vs us norms, good vs us norms -> sized rows -> independent xs (length (vs ++ rows)) (fam (vs ++ rows)) ->
  good (vs ++ rows) (fst (gs_loop nrm inv rows us norms)) (snd (gs_loop nrm inv rows us norms)).
Proof.
  induction rows as [|v rows IH]; intros vs us norms G Sr Hi; cbn [gs_loop].
  - rewrite app_nil_r. exact G.
  - inversion Sr as [|? ? Lv Sr']; subst. replace (vs ++ v :: rows) with ((vs ++ [v]) ++ rows) in * by (rewrite <- app_assoc; reflexivity).
    apply IH; auto. apply (gs_step vs us norms v rows); auto. rewrite <- app_assoc in Hi. exact Hi.
Qed.
Lemma good_nil : good [] [] [].
Proof.
  split; [reflexivity|]. split; [reflexivity|]. split; [constructor|]. split; [constructor|]. split; [intros i j Hi; cbn in Hi; lia|].
  split; [exists (fun _ _ => 0); intros i x Hi; cbn in Hi; lia|]. exists (fun _ _ => 0). split; [intros i Hi; cbn in Hi; lia|]. intros i x Hi; cbn in Hi; lia.
Qed.
End Rows.

(** Orthonormal rows are left alone. *)
Lemma gs_same m (nrm : list K -> K) (inv : K -> K) (U : forall v, length v = m -> cdot v v = 1 -> inv (nrm v) = 1) rows : forall vs norms,
  sized m (vs ++ rows) -> orthonormal (seq 0 m) (length (vs ++ rows)) (fam (vs ++ rows)) ->
  fst (gs_loop nrm inv rows vs norms) = vs ++ rows.
Proof.
  induction rows as [|v rows IH]; intros vs norms Hs Ho; cbn [gs_loop].
  - rewrite app_nil_r. reflexivity.
  - assert (E : vs ++ v :: rows = (vs ++ [v]) ++ rows) by (rewrite <- app_assoc; reflexivity).
    apply Forall_app in Hs as (Sv & Sr). inversion Sr as [|? ? Lv Sr']; subst x l.
    assert (Lt : (length vs < length (vs ++ v :: rows))%nat) by (rewrite app_length; cbn; lia).
    assert (Fv : forall x, fam (vs ++ v :: rows) (length vs) x = nth x v 0) by (intros x; unfold fam; rewrite app_nth2, Nat.sub_diag by lia; reflexivity).
    destruct (fold_remove m vs v Sv Lv) as (L & G).
    { intros i j Hi Hj. rewrite <- (Ho i j) by (rewrite app_length; lia). apply sumL_ext. intros x. rewrite !fam_app_l by lia. reflexivity. }
    assert (W : fold_left remove_part vs v = v).
    { apply (nth_ext _ _ 0 0); [lia|]. intros x Hx. rewrite G by lia. rewrite sumn_zero; [ring|].
      intros j Hj. transitivity (0 * fam vs j x); [|ring]. f_equal. rewrite (cdot_sum m) by (auto; apply sized_nth; auto).
      specialize (Ho j (length vs)). unfold inner_prod, delta in Ho. destruct (Nat.eqb_spec j (length vs)); [lia|]. etransitivity; [|apply Ho; lia].
      apply sumL_ext. intros y. rewrite fam_app_l, Fv by lia. reflexivity. }
    rewrite W. assert (N : inv (nrm v) = 1).
    { apply U; auto. rewrite (cdot_sum m) by auto. specialize (Ho (length vs) (length vs) Lt Lt). unfold delta in Ho. rewrite Nat.eqb_refl in Ho.
      etransitivity; [|exact Ho]. apply sumL_ext. intros y. rewrite Fv. reflexivity. }
    rewrite N. replace (map (fun x => x * 1) v) with v.
    + rewrite E in *. apply IH; auto. apply Forall_app. split; auto. apply Forall_app. split; auto.
    + rewrite <- map_id at 1. apply map_ext. intros x. ring.
Qed.

(** ** Arrays *)
Section Arr.
Variables (nrm : list K -> K) (inv : K -> K).
Variables (a : arr K) (ax : nat).
Notation sh := (del ax (shape a)).
Notation dim := (nth ax (shape a) O).
Notation m := (prod sh).
Hypothesis Wa : wf a.
Hypothesis Hax : (ax < ndim a)%nat.
Hypothesis Hpos : Forall (fun x => (0 < x)%nat) (shape a).

Lemma dim_pos : (0 < dim)%nat.
Proof. rewrite Forall_forall in Hpos. apply Hpos, nth_In. exact Hax. Qed.
Lemma prod_pos l : Forall (fun x => (0 < x)%nat) l -> (0 < prod l)%nat.
Proof. induction 1; cbn [prod]; [lia|]. apply Nat.mul_pos_pos; auto. Qed.
Lemma m_pos : (0 < m)%nat.
Proof.
  apply prod_pos. unfold del. rewrite Forall_forall in *. intros x Hx. apply Hpos. apply in_app_iff in Hx as [Hx|Hx].
  - rewrite <- (firstn_skipn ax (shape a)). apply in_app_iff. auto.
  - rewrite <- (firstn_skipn (S ax) (shape a)). apply in_app_iff. auto.
Qed.
Definition moved : arr K := build (dim :: sh) (fun idx => get a (ins ax (nth 0 idx O) (del 0 idx))).
Definition rws : list (list K) := rows_of (mkArr [dim; m] (data moved)).

Lemma len_rws : length rws = dim.
Proof. unfold rws, rows_of. rewrite map_length, seq_length. reflexivity. Qed.
Lemma sized_rws : sized m rws.
Proof. unfold rws, rows_of, sized. apply Forall_forall. intros u Hu. apply in_map_iff in Hu as (i & <- & Hi). rewrite map_length, seq_length. reflexivity. Qed.
Lemma rws_entry i r : (i < dim)%nat -> in_range r sh -> fam rws i (ravel sh r) = get a (ins ax i r).
Proof.
  intros Hi Hr. unfold fam, rws, rows_of. cbn [shape nth]. pose proof (ravel_lt sh r Hr) as Hl.
  rewrite (nth_indep _ [] (map (fun j => get (mkArr [dim; m] (data moved)) [O; j]) (seq 0 m))) by (rewrite map_length, seq_length; auto).
  rewrite (map_nth (fun i => map (fun j => get (mkArr [dim; m] (data moved)) [i; j]) (seq 0 m))), seq_nth by auto. cbn [Nat.add].
  rewrite (nth_indep _ 0 (get (mkArr [dim; m] (data moved)) [i; O])) by (rewrite map_length, seq_length; auto).
  rewrite (map_nth (fun j => get (mkArr [dim; m] (data moved)) [i; j])), seq_nth by auto. cbn [Nat.add].
  rewrite (get_reshape_data K [dim; m] (dim :: sh) (data moved) [i; ravel sh r] (i :: r)) by (cbn [ravel prod]; lia).
  transitivity (get moved (i :: r)); [reflexivity|]. unfold moved. rewrite get_build by (constructor; auto). reflexivity.
Qed.

Lemma along_eq vecs : length vecs = dim -> sized m vecs ->
  exists b, (bind (reshape_infer (of_rows vecs) [] sh) (fun c => moveaxis c [O] [ax])) = Ok b /\ wf b /\ shape b = shape a /\
    forall i r, (i < dim)%nat -> in_range r sh -> get b (ins ax i r) = fam vecs i (ravel sh r).
Proof.
  intros Lv Sv. pose proof m_pos as Mp. pose proof dim_pos as Dp.
  assert (Lc : forall vs i x, sized m vs -> (i < length vs)%nat -> (x < m)%nat -> nth (i * m + x) (concat vs) 0 = fam vs i x /\ length (concat vs) = (length vs * m)%nat).
  { clear. induction vs as [|v vs IH]; intros i x Hs Hi Hx; [cbn in Hi; lia|]. inversion Hs as [|? ? Lv Hs']; subst.
    assert (LL : length (concat vs) = (length vs * m)%nat).
    { clear -Hs'. induction Hs' as [|u vs Hu H IH]; cbn [concat length Nat.mul]; [reflexivity|]. rewrite app_length, IH, Hu. reflexivity. }
    cbn [concat length]. rewrite app_length, LL, Lv. split; [|cbn [Nat.mul]; lia]. destruct i as [|i].
    - cbn [Nat.mul Nat.add]. rewrite app_nth1 by lia. reflexivity.
    - rewrite app_nth2 by (cbn [Nat.mul]; lia). replace (S i * m + x - length v)%nat with (i * m + x)%nat by (cbn [Nat.mul]; lia).
      destruct (IH i x Hs') as (E & _); [cbn in Hi; lia|auto|]. rewrite E. reflexivity. }
  assert (LL : length (concat vecs) = (dim * m)%nat).
  { destruct (Lc vecs O O Sv) as (_ & E); try lia. }
  assert (L0 : length (nth 0 vecs []) = m) by (apply sized_nth; auto; lia).
  rewrite (reshape_infer_ok K (of_rows vecs) [] sh dim).
  2: { unfold wf, of_rows. cbn [data shape prod]. rewrite LL, L0, Lv. lia. }
  2: { unfold of_rows. cbn [shape prod]. rewrite L0, Lv. lia. }
  2: { cbn [prod]. lia. }
  cbn [bind app]. set (c := mkArr (dim :: sh) (data (of_rows vecs))).
  assert (Ld : length sh = pred (ndim a)) by (rewrite length_del by exact Hax; unfold ndim in *; lia).
  rewrite (moveaxis_single K c 0 ax) by (unfold c, ndim; cbn [shape length]; lia).
  eexists. split; [reflexivity|]. split; [apply wf_build|]. split.
  - rewrite shape_build. unfold c. cbn [shape nth]. change (del 0 (dim :: sh)) with sh. apply ins_del. exact Hax.
  - intros i r Hi Hr. pose proof (in_range_len _ _ Hr) as Lr. rewrite get_build.
    + rewrite nth_ins_eq by lia. rewrite del_ins by lia. change (ins 0 i r) with (i :: r). unfold c, get. cbn [shape data ravel]. unfold of_rows. cbn [data].
      apply Lc; auto; [lia|]. apply ravel_lt; auto.
    + unfold c. cbn [shape nth]. change (del 0 (dim :: sh)) with sh. apply in_range_ins; auto.
Qed.

Lemma normalize_along_eq : normalize_along nrm inv a ax =
  bind (bind (reshape_infer (of_rows (fst (gs_loop nrm inv rws [] []))) [] sh) (fun c => moveaxis c [O] [ax]))
    (fun c => Ok (c, snd (gs_loop nrm inv rws [] []))).
Proof.
  unfold normalize_along. apply Nat.ltb_lt in Hax as Hb. rewrite Hb. cbn [negb]. cbv zeta.
  rewrite (moveaxis_single K a ax 0) by lia. cbn [bind].
  change (ins 0 dim sh) with (dim :: sh).
  change (build (dim :: sh) (fun idx => get a (ins ax (nth 0 idx O) (del 0 idx)))) with moved.
  rewrite (reshape_infer_ok K moved [dim] [] m).
  - cbn [bind app]. fold rws. destruct (gs_loop nrm inv rws [] []) as (vecs, norms). cbn [fst snd].
    destruct (reshape_infer (of_rows vecs) [] sh) as [c|]; cbn [bind]; [|reflexivity]. destruct (moveaxis c [O] [ax]); reflexivity.
  - apply wf_build.
  - unfold moved. rewrite shape_build. cbn [prod]. lia.
  - cbn [prod]. pose proof dim_pos. lia.
Qed.

(** Transfer between sums over positions and over indices. *)
Lemma sum_rows (f : nat -> K) : sumL (indices sh) (fun r => f (ravel sh r)) = sumn m f.
Proof. symmetry. apply sumn_ravel_gen. Qed.
Lemma unravel x : (x < m)%nat -> exists r, In r (indices sh) /\ in_range r sh /\ ravel sh r = x.
Proof.
  intros Hx. pose proof (map_ravel_indices sh) as E. assert (Hin : In x (map (ravel sh) (indices sh))) by (rewrite E; apply in_seq; lia).
  apply in_map_iff in Hin as (r & Er & Hr). exists r. split; auto. split; auto. apply in_indices. auto.
Qed.

Hypothesis nontrivial : (r1 : K) <> r0.
Hypothesis norm_ok : forall v, length v = m -> ~ (forall x, (x < m)%nat -> nth x v 0 = 0) ->
  nrm v * inv (nrm v) = 1 /\ rconj (inv (nrm v)) * inv (nrm v) * cdot v v = 1.

Theorem along_ok : independent (indices sh) dim (along a ax) ->
  exists b norms, normalize_along nrm inv a ax = Ok (b, norms) /\ wf b /\ shape b = shape a /\ length norms = dim /\
    orthonormal (indices sh) dim (along b ax) /\
    lower (indices sh) dim (along b ax) (along a ax) /\
    lower_with (indices sh) dim (fun i => nth i norms 0) (along a ax) (along b ax).
Proof.
  intros Hi. rewrite normalize_along_eq.
  pose proof (gs_good m nrm inv nontrivial norm_ok rws [] [] [] (good_nil m) sized_rws) as G. cbn [app] in G.
  destruct (gs_loop nrm inv rws [] []) as (vecs, norms). cbn [fst snd] in *.
  destruct G as (Lv & Ln & _ & Sv & Ho & (C & HC) & (D & Dd & HD)).
  { rewrite len_rws. intros c Hc. apply Hi. intros r Hr. apply in_indices in Hr as Hr'. specialize (Hc (ravel sh r)).
    etransitivity; [|apply Hc; apply in_seq; pose proof (ravel_lt sh r Hr'); lia].
    apply sumn_ext. intros i Hl. unfold along. rewrite rws_entry by auto. reflexivity. }
  rewrite len_rws in *. rewrite Lv in *.
  destruct (along_eq vecs Lv Sv) as (b & Eb & Wb & Sb & Gb). rewrite Eb. cbn [bind].
  exists b, norms. split; [reflexivity|]. split; auto. split; auto. split; auto.
  assert (X : forall r, In r (indices sh) -> In (ravel sh r) (seq 0 m)).
  { intros r Hr. apply in_indices in Hr. pose proof (ravel_lt sh r Hr). apply in_seq. lia. }
  split; [|split].
  - intros i j Hil Hjl. rewrite <- (Ho i j) by auto. unfold inner_prod. change (sumL (seq 0 m) ?f) with (sumn m f). rewrite <- sum_rows.
    apply sumL_ext_in. intros r Hr. apply in_indices in Hr. unfold along. rewrite !Gb by auto. reflexivity.
  - exists C. intros i r Hil Hr. unfold along. apply in_indices in Hr as Hr'. rewrite Gb, HC by auto. apply sumn_ext. intros j Hj. rewrite rws_entry by (auto; lia). reflexivity.
  - exists D. split; [auto|]. intros i r Hil Hr. unfold along. apply in_indices in Hr as Hr'. rewrite <- rws_entry, HD by auto. apply sumn_ext. intros j Hj. rewrite Gb by (auto; lia). reflexivity.
Qed.

Theorem along_same : (forall v, length v = m -> cdot v v = 1 -> inv (nrm v) = 1) -> orthonormal (indices sh) dim (along a ax) ->
  exists norms, normalize_along nrm inv a ax = Ok (a, norms).
Proof.
  intros U Ho. rewrite normalize_along_eq.
  assert (G : fst (gs_loop nrm inv rws [] []) = rws).
  { apply (gs_same m nrm inv U rws [] []); [apply sized_rws|]. cbn [app]. rewrite len_rws. intros i j Hil Hjl. rewrite <- (Ho i j) by auto.
    unfold inner_prod. change (sumL (seq 0 m) ?f) with (sumn m f). rewrite <- sum_rows. apply sumL_ext_in. intros r Hr. apply in_indices in Hr.
    unfold along. rewrite !rws_entry by auto. reflexivity. }
  rewrite G. destruct (along_eq rws len_rws sized_rws) as (b & Eb & Wb & Sb & Gb). rewrite Eb. cbn [bind].
  exists (snd (gs_loop nrm inv rws [] [])). f_equal. f_equal. apply arr_ext; auto. intros idx Hx. rewrite Sb in Hx.
  pose proof (in_range_len _ _ Hx) as Lx. rewrite <- (ins_del ax O idx) by (unfold ndim in *; lia).
  assert (Hn : (nth ax idx O < dim)%nat) by (apply in_range_nth; auto). assert (Hd : in_range (del ax idx) sh) by (apply in_range_del; auto).
  rewrite Gb, rws_entry by auto. reflexivity.
Qed.
End Arr.
End P.
