(** Lemmas: the sum of embedded factors as a matrix. *)
From Coq Require Import List Arith Bool ZArith Lia Ring Reals.
From Verif Require Import Py Alg ListX Cplx NdArray_Model NdArray_Proof Mode_Proof Contract_Model Contract_Proof Phonon_Model Corr_Model Heom_Model Heom_Spec Heom_Proof HeomGrid_Spec HeomGrid_Proof Sbm_Model Sbm_Spec Sbm_Proof SbmDense_Model SbmDense_Spec.
Import ListNotations.
Local Open Scope nat_scope.
Local Open Scope py_scope.

Section Embed.
Variable K : StarRing.
Add Ring Krd : (r_theory K).
Context {L : Type}.
Variable eqb : L -> L -> bool.
Hypothesis eqb_ok : forall x y, eqb x y = true <-> x = y.

Lemma leaf_index_ok l : forall p k, NoDup l -> nth_error l p = Some k -> leaf_index eqb k l = Ok p.
Proof.
  induction l as [|x l IH]; intros [|p] k N E; cbn [nth_error] in E; try discriminate; cbn [leaf_index].
  - injection E as ->. rewrite (proj2 (eqb_ok k k) eq_refl). reflexivity.
  - inversion N as [|? ? NI N']; subst. destruct (eqb x k) eqn:Ex.
    + apply eqb_ok in Ex. subst k. exfalso. apply NI. eapply nth_error_In. exact E.
    + rewrite (IH p k N' E). reflexivity.
Qed.

Variable sh : list nat.
Notation N := (prod sh).
Definition unit_box : arr K := mkArr (sh ++ sh) (data (@eye K N N)).
Lemma unit_ok : reshape (eye N N) (sh ++ sh) = Ok unit_box /\ wf unit_box /\ shape unit_box = sh ++ sh /\
  forall x y, in_range x sh -> in_range y sh -> get unit_box (x ++ y) = delta (ravel sh x) (ravel sh y).
Proof.
  assert (W : wf (@eye K N N)) by apply wf_build.
  assert (E : prod (sh ++ sh) = prod (shape (@eye K N N))). { rewrite prod_app. unfold eye. rewrite shape_build. cbn [prod]. lia. }
  split; [apply reshape_ok; auto|]. split. { unfold wf, unit_box. cbn [data shape]. rewrite E. exact W. } split; [reflexivity|].
  intros x y Hx Hy. pose proof (ravel_lt _ _ Hx). pose proof (ravel_lt _ _ Hy). unfold unit_box.
  rewrite (get_reshape_data _ (sh ++ sh) [N; N] _ (x ++ y) [ravel sh x; ravel sh y]).
  - change (mkArr [N; N] (data (@eye K N N))) with (@eye K N N). unfold eye. rewrite get_build by (apply in_range2; auto). reflexivity.
  - rewrite ravel_app by exact Hx. cbn [ravel prod]. lia.
Qed.

(** What one factor on axis [p] adds *)
Definition part (f : nat * arr K) (x y : list nat) : K := act (nth (fst f) sh 0) (fst f) (snd f) (fun z => delta (ravel sh z) (ravel sh y)) x.
Definition good (f : nat * arr K) : Prop := fst f < length sh /\ shape (snd f) = [nth (fst f) sh 0; nth (fst f) sh 0].
Definition named (idx : list L) (g : L * arr K) (f : nat * arr K) : Prop := leaf_index eqb (fst g) idx = Ok (fst f) /\ snd g = snd f.

Lemma add_factors_ok idx : forall gs fs acc, Forall2 (named idx) gs fs -> Forall good fs -> wf acc -> shape acc = sh ++ sh ->
  exists t, add_factors K eqb idx unit_box acc gs = Ok t /\ wf t /\ shape t = sh ++ sh /\
  forall x y, in_range x sh -> in_range y sh -> get t (x ++ y) = (get acc (x ++ y) + sumL fs (fun f => part f x y))%S.
Proof.
  destruct unit_ok as (_ & Wu & Su & Gu).
  intros gs fs acc F. revert acc. induction F as [|(k & A) (p & B) gs fs (E & EA) F IH]; intros acc G W Sa.
  - exists acc. split; [reflexivity|]. split; [exact W|]. split; [exact Sa|]. intros x y Hx Hy. rewrite sumL_nil. ring.
  - inversion G as [|? ? (Hp & Sp) G']; subst. cbn [fst snd] in E, EA, Hp, Sp. subst B. cbn [add_factors]. rewrite E. cbn [bind].
    destruct (mode0_at unit_box p A (nth p sh 0) Wu) as (b & Eb & Wb & Sb & Gb); auto.
    { unfold ndim. rewrite Su, app_length. lia. } { rewrite Su, app_nth1 by exact Hp. reflexivity. }
    unfold partial_product in Eb. rewrite Eb. cbn [bind]. rewrite arr_add_ok; auto; [|congruence]. cbn [bind].
    destruct (IH (build (shape acc) (fun i => get acc i + get b i)%S) G') as (t & Et & Wt & St & Gt); [apply wf_build|exact Sa|].
    exists t. split; [exact Et|]. split; [exact Wt|]. split; [exact St|]. intros x y Hx Hy. rewrite Gt by auto. rewrite get_build by (rewrite Sa; apply in_range_app; auto).
    rewrite sumL_cons. rewrite Gb by (rewrite Su; apply in_range_app; auto).
    assert (X : act (nth p sh 0) p A (get unit_box) (x ++ y) = part (p, A) x y).
    { unfold part, act. cbn [fst snd]. pose proof (in_range_len _ _ Hx) as Lx. apply sumn_ext. intros z Hz. rewrite app_nth1 by lia.
      assert (U : upd p z (x ++ y) = upd p z x ++ y).
      { unfold upd. rewrite app_length. destruct (Nat.ltb_spec p (length x + length y)); [|lia]. destruct (Nat.ltb_spec p (length x)); [|lia].
        rewrite firstn_app, skipn_app. replace (p - length x) with 0 by lia. replace (S p - length x) with 0 by lia. cbn [firstn skipn]. rewrite app_nil_r, <- app_assoc. reflexivity. }
      rewrite U, Gu; auto. apply in_range_upd_same; auto. }
    rewrite X. ring.
Qed.

Lemma pick_sum (v : list nat -> K) a : in_range a sh -> sumL (indices sh) (fun y => rmul (delta (ravel sh a) (ravel sh y)) (v y)) = v a.
Proof.
  intros Ha. rewrite (sumL_single K (indices sh) a); [rewrite delta_eq; ring|apply NoDup_indices|apply in_indices; exact Ha|].
  intros y Hy Ny. apply in_indices in Hy. rewrite delta_ne; [ring|]. intros E. apply Ny. symmetry. eapply ravel_inj; eauto.
Qed.
Lemma part_sum f v x : in_range x sh -> good f -> sumL (indices sh) (fun y => rmul (part f x y) (v y)) = act (nth (fst f) sh 0) (fst f) (snd f) v x.
Proof.
  intros Hx (Hp & _). unfold part, act.
  rewrite (sumL_ext K _ _ (fun y => sumL (seq 0%nat (nth (fst f) sh 0%nat)) (fun z => get (snd f) [z; nth (fst f) x 0%nat] * (delta (ravel sh (upd (fst f) z x)) (ravel sh y) * v y)))%S).
  2: { intros y. unfold sumn. rewrite <- sumL_scal_r. apply sumL_ext. intros z. ring. }
  rewrite sumL_swap. apply sumL_ext_in. intros z Hz. apply in_seq in Hz. rewrite sumL_scal_l.
  rewrite (pick_sum v (upd (fst f) z x)) by (apply in_range_upd_same; auto; lia). ring.
Qed.

Theorem embed_ok idx diff fss : Forall2 (Forall2 (named idx)) diff fss -> Forall (Forall good) fss ->
  exists D, embed_sum K eqb sh idx diff = Ok D /\ is_matrix D N N /\ forall v x, in_range x sh ->
    applied sh (fun i j => get D [i; j]) v x = sumL (concat fss) (fun f => act (nth (fst f) sh 0) (fst f) (snd f) v x).
Proof.
  intros F G. destruct unit_ok as (Eu & _). unfold embed_sum. rewrite Eu. cbn [bind].
  assert (F' : Forall2 (named idx) (concat diff) (concat fss)). { clear G. induction F; cbn [concat]; [constructor|apply Forall2_app; auto]. }
  assert (G' : Forall good (concat fss)). { clear F F'. induction G; cbn [concat]; [constructor|apply Forall_app; auto]. }
  destruct (add_factors_ok idx _ _ (zeros (sh ++ sh)) F' G') as (t & Et & Wt & St & Gt); [apply wf_build|reflexivity|].
  rewrite Et. cbn [bind]. assert (Ep : prod [N; N] = prod (shape t)) by (rewrite St, prod_app; cbn [prod]; lia).
  rewrite reshape_ok by auto. eexists. split; [reflexivity|]. split. { split; [unfold wf; cbn [data shape]; rewrite Ep; exact Wt|reflexivity]. }
  intros v x Hx. unfold applied.
  rewrite (sumL_ext_in K _ _ (fun y => sumL (concat fss) (fun f => rmul (part f x y) (v y)))).
  - rewrite sumL_swap. apply sumL_ext_in. intros f Hf. apply part_sum; auto. eapply Forall_forall; [exact G'|exact Hf].
  - intros y Hy. apply in_indices in Hy.
    assert (E : get (mkArr [N; N] (data t)) [ravel sh x; ravel sh y] = get t (x ++ y)).
    { destruct t as [s dt]. cbn [shape data] in *. subst s. apply get_reshape_data. rewrite ravel_app by exact Hx. cbn [ravel prod]. lia. }
    rewrite E, Gt by auto. unfold zeros. rewrite get_build by (apply in_range_app; auto).
    match goal with |- ((_ + ?s) * _)%S = _ => transitivity (s * v y)%S; [ring|] end. symmetry. apply sumL_scal_r.
Qed.
End Embed.

(** ** The terms of the hierarchy *)
Section Terms.
Variable K : StarRing.
Add Ring Krt : (r_theory K).
Variables (d : nat) (dims : list nat) (im : K) (sq : nat -> K) (h op : arr K) (der coeff ccoeff : list K) (s s' : K).
Hypothesis Hh : shape h = [d; d].
Hypothesis Hop : shape op = [d; d].
Hypothesis Lg : length der = length dims.
Hypothesis Lc : length coeff = length dims.
Hypothesis Lcc : length ccoeff = length dims.
Notation m := (length dims).
Notation sh := ([d; d] ++ dims).
(** the axis of the matrix for an axis of the terms *)
Definition place (a : nat) : nat := if a <? m then 2 + a else a - m.
Definition placed (f : nat * arr K) : nat * arr K := (place (fst f), snd f).
Definition fine (f : nat * arr K) : Prop := fst f < m + 2 /\ good K sh (placed f).
Definition val (v : list nat -> K) (x : list nat) (f : nat * arr K) : K := act (nth (place (fst f)) sh 0) (place (fst f)) (snd f) v x.
Definition turn (A : arr K) (v : list nat -> K) (x : list nat) : K := (- im * (along d 0 (flipped A) v x - along d 1 (flipped A) v x))%S.
Definition mode_sum (v : list nat -> K) (x : list nat) (k : nat) : K :=
  (nth k der r0 * along (nth k dims 0%nat) (2 + k) (l_number (numbered sq)) v x + turn op v x
   + (nth k coeff r0 + nth k ccoeff r0) * s' * along (nth k dims 0%nat) (2 + k) (l_up (numbered sq)) v x + (1 + 1) * s * along (nth k dims 0%nat) (2 + k) (l_down (numbered sq)) v x)%S.

Lemma place_mode k : k < m -> place k = 2 + k /\ nth (place k) sh 0 = nth k dims 0.
Proof. intros H. unfold place. destruct (Nat.ltb_spec k m); [|lia]. split; reflexivity. Qed.
Lemma place_i : place m = 0. Proof. unfold place. destruct (Nat.ltb_spec m m); lia. Qed.
Lemma place_j : place (m + 1) = 1. Proof. unfold place. destruct (Nat.ltb_spec (m + 1) m); lia. Qed.

Lemma val_sys v x (c : K) A : val v x (m, arr_scale c A) = (c * along d 0 (flipped A) v x)%S.
Proof.
  unfold val. cbn [fst snd]. rewrite place_i. cbn [nth app]. unfold act, along, flipped. rewrite <- sumn_scal_l. apply sumn_ext. intros z Hz. rewrite get_scale. ring.
Qed.
Lemma val_sys' v x (c : K) A : val v x (m + 1, arr_scale c A) = (c * along d 1 (flipped A) v x)%S.
Proof.
  unfold val. cbn [fst snd]. rewrite place_j. cbn [nth app]. unfold act, along, flipped. rewrite <- sumn_scal_l. apply sumn_ext. intros z Hz. rewrite get_scale. ring.
Qed.
Lemma val_mode v x k M O : k < m -> in_range x sh -> acts_as K (nth k dims 0) M O -> val v x (k, M) = along (nth k dims 0) (2 + k) O v x.
Proof.
  intros Hk Hx (_ & _ & G). unfold val. cbn [fst snd]. destruct (place_mode k Hk) as (E & E'). rewrite E', E. unfold act, along. apply sumn_ext. intros z Hz.
  assert (B : nth (2 + k) x 0 < nth k dims 0). { change (nth k dims 0) with (nth (2 + k) sh 0). apply in_range_nth; auto. cbn [app length]. lia. }
  rewrite G by auto. ring.
Qed.
Lemma fine_sys A c : shape A = [d; d] -> fine (m, arr_scale c A) /\ fine (m + 1, arr_scale c A).
Proof.
  intros HA. unfold fine, good, placed. cbn [fst snd]. rewrite place_i, place_j. cbn [app length nth arr_scale shape]. repeat split; try lia; exact HA.
Qed.
Lemma fine_mode k M O : k < m -> acts_as K (nth k dims 0) M O -> fine (k, M).
Proof.
  intros Hk (_ & SM & _). unfold fine, good, placed. cbn [fst snd]. destruct (place_mode k Hk) as (E & E'). rewrite E', E. cbn [app length]. repeat split; try lia; exact SM.
Qed.

Lemma diff_k3_vals k : k < m -> exists l, diff_k3 K im sq dims op der coeff ccoeff s s' k = Ok l /\
  Forall (Forall fine) l /\ forall v x, in_range x sh -> sumL (concat l) (val v x) = mode_sum v x k.
Proof.
  intros Hk. unfold diff_k3, k_max. rewrite (item_nth coeff k r0), (item_nth ccoeff k r0), (item_nth der k r0) by lia. cbn [bind].
  destruct (numbered_ok K dims sq der coeff ccoeff Lg Lc Lcc k Hk) as (N & U & D & EN & EU & ED & HN & HU & HD). rewrite EN, EU, ED. cbn [bind].
  destruct (acts_add K _ _ _ _ _ (acts_scale K _ (nth k coeff r0 * s')%S _ _ HU) (acts_scale K _ s _ _ HD)) as (m1 & E1 & H1).
  destruct (acts_add K _ _ _ _ _ (acts_scale K _ (nth k ccoeff r0 * s')%S _ _ HU) (acts_scale K _ s _ _ HD)) as (m2 & E2 & H2).
  rewrite E1, E2. cbn [bind]. eexists. split; [reflexivity|].
  pose proof (acts_scale K _ (nth k der r0) _ _ HN) as HN'. split.
  - pose proof (fine_mode k _ _ Hk HN') as F1. pose proof (fine_mode k _ _ Hk H1) as F2. pose proof (fine_mode k _ _ Hk H2) as F3.
    destruct (fine_sys op (- im)%S Hop) as (F4 & _). destruct (fine_sys op im Hop) as (_ & F5). repeat (apply Forall_cons || apply Forall_nil); assumption.
  - intros v x Hx. cbn [concat app]. rewrite !sumL_cons, sumL_nil, val_sys, val_sys', (val_mode v x k _ _ Hk Hx HN'), (val_mode v x k _ _ Hk Hx H1), (val_mode v x k _ _ Hk Hx H2).
    assert (A : forall (p q : K) (O O' : nat -> nat -> K) n r, along n r (fun x y => p * O x y + q * O' x y)%S v x = (p * along n r O v x + q * along n r O' v x)%S).
    { intros. unfold along. rewrite <- !sumn_scal_l, <- sumn_add. apply sumn_ext. intros. ring. }
    assert (B : forall (p : K) (O : nat -> nat -> K) n r, along n r (fun x y => p * O x y)%S v x = (p * along n r O v x)%S).
    { intros. unfold along. rewrite <- !sumn_scal_l. apply sumn_ext. intros. ring. }
    rewrite (A (nth k coeff r0 * s')%S s), (A (nth k ccoeff r0 * s')%S s), B. unfold mode_sum, turn. ring.
Qed.

Theorem diff3_vals : exists l, diff3 K im sq dims h op der coeff ccoeff s s' = Ok l /\ Forall (Forall fine) l /\
  forall v x, in_range x sh -> sumL (concat l) (val v x) = (turn h v x + sumn m (mode_sum v x))%S.
Proof.
  destruct (map_res_ok (diff_k3 K im sq dims op der coeff ccoeff s s') (fun k l => Forall (Forall fine) l /\ forall v x, in_range x sh -> sumL (concat l) (val v x) = mode_sum v x k) (seq 0 m)) as (ls & E & F).
  { intros k Hk. apply in_seq in Hk. apply diff_k3_vals. lia. }
  unfold diff3, k_max. rewrite E. cbn [bind]. eexists. split; [reflexivity|]. split.
  - cbn [app]. constructor; [constructor; [apply fine_sys; exact Hh|constructor]|]. constructor; [constructor; [apply fine_sys; exact Hh|constructor]|].
    clear E. induction F as [|k l ks ls (A & _) F IH]; cbn [concat]; [constructor|apply Forall_app; auto].
  - intros v x Hx. cbn [app concat]. rewrite !sumL_cons, val_sys, val_sys'.
    assert (Q : sumL (concat (concat ls)) (val v x) = sumL (seq 0 m) (mode_sum v x)).
    { clear E. induction F as [|k l ks ls (_ & A) F IH]; cbn [concat]; [reflexivity|]. rewrite concat_app, sumL_app, sumL_cons, IH, A by exact Hx. reflexivity. }
    unfold sumn. rewrite Q. unfold turn. ring.
Qed.

(** names of the leaves *)
Context {L : Type}.
Variable eqb : L -> L -> bool.
Hypothesis eqb_ok : forall x y, eqb x y = true <-> x = y.
Lemma h_list_named (si sj : L) phs more : length phs = m -> NoDup ([si; sj] ++ phs ++ more) ->
  exists l named', diff3 K im sq dims h op der coeff ccoeff s s' = Ok l /\ h_list K im sq dims h op der coeff ccoeff s s' si sj phs = Ok named' /\
    Forall2 (Forall2 (named K eqb ([si; sj] ++ phs ++ more))) named' (map (map placed) l) /\ Forall (Forall (good K sh)) (map (map placed) l) /\
    forall v x, in_range x sh -> sumL (concat (map (map placed) l)) (fun f => act (nth (fst f) sh 0) (fst f) (snd f) v x) = (turn h v x + sumn m (mode_sum v x))%S.
Proof.
  intros Lp ND. destruct diff3_vals as (l & E & F & V). exists l. unfold h_list. rewrite E. cbn [bind].
  set (conv := phs ++ [si; sj]). set (idx := [si; sj] ++ phs ++ more) in *.
  assert (C1 : forall f, fine f -> exists y, item conv (fst f) = Ok y /\ leaf_index eqb y idx = Ok (place (fst f))).
  { intros f (Hf & _). unfold item. destruct (Nat.ltb_spec (fst f) m) as [B|B].
    - destruct (nth_error conv (fst f)) as [y|] eqn:Ey. 2: { apply nth_error_None in Ey. unfold conv in Ey. rewrite app_length in Ey. cbn [length] in Ey. lia. }
      exists y. split; [reflexivity|]. apply leaf_index_ok; auto. destruct (place_mode (fst f) B) as (-> & _). unfold idx. cbn [app Nat.add nth_error]. unfold conv in Ey. rewrite nth_error_app1 in Ey by lia. rewrite nth_error_app1 by lia. exact Ey.
    - assert (Q : fst f = m \/ fst f = m + 1) by lia. unfold conv. rewrite nth_error_app2 by lia. rewrite Lp. destruct Q as [-> | ->].
      + rewrite Nat.sub_diag. exists si. split; [reflexivity|]. apply leaf_index_ok; auto. rewrite place_i. reflexivity.
      + replace (m + 1 - m) with 1 by lia. exists sj. split; [reflexivity|]. apply leaf_index_ok; auto. rewrite place_j. reflexivity. }
  assert (C2 : forall t, Forall fine t -> exists t', map_res (fun p : nat * arr K => let! l := item conv (fst p) in Ok (l, snd p)) t = Ok t' /\ Forall2 (named K eqb idx) t' (map placed t)).
  { intros t Ft. destruct (map_res_ok (fun p : nat * arr K => let! l := item conv (fst p) in Ok (l, snd p)) (fun f g => named K eqb idx g (placed f)) t) as (t' & Et & Ht).
    - intros f Hf. destruct (C1 f) as (y & Ey & Iy). { eapply Forall_forall; eauto. } exists (y, snd f). rewrite Ey. cbn [bind]. split; [reflexivity|]. split; [exact Iy|reflexivity].
    - exists t'. split; [exact Et|]. clear -Ht. induction Ht; cbn [map]; constructor; auto. }
  destruct (map_res_ok (map_res (fun p : nat * arr K => let! l := item conv (fst p) in Ok (l, snd p))) (fun t t' => Forall2 (named K eqb idx) t' (map placed t)) l) as (l' & El & Hl).
  { intros t Ht. apply C2. exact (proj1 (Forall_forall _ _) F t Ht). }
  exists l'. split; [reflexivity|]. split; [exact El|]. split; [|split].
  - clear -Hl. induction Hl; cbn [map]; constructor; auto.
  - clear -F. induction F as [|t l Ft F IH]; cbn [map]; constructor; auto. clear -Ft. induction Ft as [|f t (_ & G) Ft IH]; cbn [map]; constructor; auto.
  - intros v x Hx. rewrite <- V by exact Hx. rewrite <- concat_map. clear. generalize (concat l). intros q. induction q as [|f q IH]; cbn [map]; [reflexivity|]. rewrite !sumL_cons, IH. reflexivity.
Qed.
End Terms.
