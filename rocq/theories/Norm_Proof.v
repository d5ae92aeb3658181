(** Canonical form and norm when the root moves. *)
From Coq Require Import String List Arith Bool Lia Permutation.
From Verif Require Import Py Alg ListX NdArray_Model NdArray_Proof Contract_Model Contract_Spec Contract_Proof
  Net_Model Net_Spec Sweep_Proof Trav_Proof Acyc_Proof Env_Spec EnvThm_Proof Link_Spec Link_Proof Move_Spec
  Split_Proof MoveRoot_Proof State_Spec State_Proof Mid_Proof TEnv_Proof Cache_Model Cache_Spec Cache_Proof CacheExact_Proof CacheMove_Proof TEnv_Proof Norm_Spec NormAlg_Proof.
Import ListNotations.
Local Open Scope nat_scope.
Local Open Scope list_scope.
Local Open Scope py_scope.

Section Norm.
Variable K : StarRing.
Implicit Types h : heap K.
(** The norm asked for, if any. *)
Variable o : option K.
Definition norm_is (x : K) : Prop := match o with None => True | Some N => x = N end.
Definition svd_for (csvd : arr K -> res (arr K * arr K * arr K)) : Prop :=
  cut_svd csvd /\ (o <> None -> whole_svd csvd).
Lemma svd_some csvd : svd_for csvd -> some_svd csvd.
Proof. intros (H & _) m p q W S P Q. destruct (H m p q W S P Q) as (u & s & v & r & E & T & R0 & _). exists u, s, v, r. auto. Qed.
Lemma svd_known csvd m u s v r : svd_for csvd -> wf m -> (exists p q, shape m = [p; q] /\ 0 < p /\ 0 < q) -> csvd m = Ok (u, s, v) -> triple m u s v r ->
  orthonormal_rows v r (nth 1 (shape m) 0) /\ (o <> None -> exact m u s v r).
Proof.
  intros (H1 & H2) W (p & q & S & P & Q) E (p' & q' & S' & Mu & Ms & Mv). rewrite S in S'. injection S' as <- <-. rewrite S. cbn [nth].
  assert (Z : forall u' s' v' r', csvd m = Ok (u', s', v') -> triple m u' s' v' r' -> u' = u /\ s' = s /\ v' = v /\ r' = r).
  { intros u' s' v' r' E' (p' & q' & S' & Mu' & Ms' & Mv'). rewrite E in E'. injection E' as <- <- <-. repeat (split; auto).
    destruct Ms as (_ & X). destruct Ms' as (_ & X'). rewrite X in X'. congruence. }
  split.
  - destruct (H1 m p q W S P Q) as (u' & s' & v' & r' & E' & T & _ & O). destruct (Z _ _ _ _ E' T) as (-> & -> & -> & ->). auto.
  - intros No. destruct (H2 No m p q W S P Q) as (u' & s' & v' & r' & E' & T & _ & _ & X). destruct (Z _ _ _ _ E' T) as (-> & -> & -> & ->). auto.
Qed.

Definition held h (r : id) : Prop := forall R A, network h R A -> top R = r -> canonical_about h R A /\ norm_is (sqnorm (data (A r))).
(** An operation that keeps the norm. *)
Definition steadfast (op : heap K -> id -> res (id * heap K)) : Prop := forall hA mid hB x x', op hA mid = Ok (mid, hB) ->
  oarr (hget hA mid) = Some x -> oarr (hget hB mid) = Some x' -> wf x -> norm_is (sqnorm (data x)) -> norm_is (sqnorm (data x')).

(** What a move does to the arrays. *)
Definition swapped h h' n i e : Prop :=
  (exists y, oarr (hget h' n) = Some y /\ isometric y i) /\ (exists z, oarr (hget h' e) = Some z /\ norm_is (sqnorm (data z))) /\
  forall t, t <> n -> t <> e -> t < length h -> oleaf (hget h t) = false -> oarr (hget h' t) = oarr (hget h t).
Lemma held_after h R A n i e h' : network h R A -> top R = n \/ top R = e -> held h (top R) -> shifted K h R n i e h' -> swapped h h' n i e -> held h' e.
Proof.
  intros N Tp Hd (_ & Lf & Ax & An & Ae & Gr & R2 & A2 & N2 & Et2 & Pm) ((y & Yn & Iy) & (z & Ze & Nz) & Oth) R' A' N' Et'.
  assert (R' = R2) as -> by (apply (hangs_det K h' R' None R2); [apply N'|apply N2|congruence]).
  destruct (Hd R A N eq_refl) as (C & _). split.
  - intros t Ht Nt. rewrite Et' in Nt. pose proof N' as (_ & _ & _ & H' & _ & _ & At'). destruct (At' t Ht) as (Ea & _).
    destruct (Nat.eq_dec t n) as [->|Tn]; [rewrite An; rewrite Yn in Ea; injection Ea as <-; exact Iy|].
    pose proof N as (_ & _ & _ & H & _ & _ & At).
    assert (Hi : In t (ids R)) by (eapply Permutation_in; [symmetry; exact Pm|apply nids_ids; auto]).
    pose proof (hangs_lt K _ _ _ H t Hi) as Lt. pose proof (nids_inner K _ _ _ H' t Ht) as Lft. rewrite Lf in Lft by auto.
    assert (Hn : In t (nids R)) by (apply (Permutation_in _ (nids_filter K h R None H)); apply filter_In; split; auto; rewrite Lft; auto).
    rewrite Ax by auto. rewrite Oth in Ea by auto. destruct (At t Hn) as (Eb & _). assert (A' t = A t) as -> by congruence.
    apply C; auto. intros X. destruct Tp as [Tp|Tp]; congruence.
  - pose proof N' as (_ & _ & _ & H' & _ & _ & At').
    assert (He : In e (nids R2)) by (destruct R2 as [q|q ks]; [inversion H'|cbn in Et2; subst; left; auto]).
    destruct (At' e He) as (Ea & _). rewrite Ze in Ea. injection Ea as <-. auto.
Qed.

(** The two parts of the array of a root: the second one is isometric, the first one has the norm. *)
Lemma parts_held csvd (a m u s v x y : arr K) i k i1 i2 r : svd_for csvd -> wf a -> Forall (fun d => 0 < d) (shape a) -> i + k <= ndim a -> i1 <= k -> i2 <= ndim a - k ->
  matricized a (seq i k) m -> csvd m = Ok (u, s, v) -> triple m u s v r -> left_part a (seq i k) i1 r u s x -> right_part a (seq i k) i2 r v y ->
  norm_is (sqnorm (data a)) -> isometric y i2 /\ norm_is (sqnorm (data x)).
Proof.
  intros Sv Wa Pa Hk H1 H2 Mm Es Tr Lp Rp Na. pose proof Mm as (Wm & Sm & _).
  assert (Fl : Forall (fun t => t < ndim a) (seq i k)) by (apply Forall_forall; intros t Ht; apply in_seq in Ht; lia).
  assert (Fr : Forall (fun t => t < ndim a) (rest (ndim a) (seq i k))) by (apply Forall_forall; intros t Ht; apply in_rest in Ht; tauto).
  assert (Sh : exists p q, shape m = [p; q] /\ 0 < p /\ 0 < q).
  { eexists. eexists. split; [exact Sm|]. split; apply prod_pos, gather_pos; auto. }
  destruct (svd_known csvd m u s v r Sv Wm Sh Es Tr) as (Or & Ex). rewrite Sm in Or. cbn [nth] in Or.
  assert (Iy : isometric y i2).
  { apply (right_isometric K a (seq i k) i2 r v y); auto. rewrite rest_length, seq_length by (auto; apply seq_NoDup). auto. }
  split; auto. unfold norm_is in *. destruct o as [N|]; auto. rewrite <- Na.
  apply (parts_norm K a i k i1 i2 r x y); auto. apply (parts_ok K a (seq i k) i1 i2 r u s v m x y); auto. apply Ex. discriminate.
Qed.

Lemma su_swapped csvd h A n k1 k2 i e cks j op h' : svd_for csvd -> network h (Nd n (k1 ++ (i, Nd e cks, j) :: k2)) A -> lawful K op -> steadfast op ->
  held h n -> split_unite csvd h n i op None = Ok (n, length h, e, h') -> swapped h h' n i e.
Proof.
  intros Sv N Q St Hd E. destruct (Hd _ _ N eq_refl) as (C & Nr). pose proof N as (_ & _ & _ & _ & Or & _).
  destruct (network_joint K h A n k1 k2 i e cks j N) as (nn & ne & d1 & d2 & Ed & J & Pn & Pe & Li & Lj & Hi & Hj & _).
  apply oriented_kids in Or. destruct Or as (Ax & Ok).
  pose proof J as (_ & _ & Sn & Se & Hne & P & Only & Sfn & Sfe & Hb).
  pose proof (some_fitting K csvd (svd_some csvd Sv) (A n) [i] ltac:(apply Sn) ltac:(constructor; auto)) as Ft.
  destruct (split_unite_ok K csvd h n i e j (A n) (A e) nn ne op None J Ax ltac:(lia) Ft Q) as
    (hA & hB & h2 & m & u & s & v & k & x & y & x' & z & E' & Mm & Es & Tr & K0 & Lp & Rp & E2 & Edt & XA & XB & Wx' & Sx' & Cz & Yn & Ye & Xn & Xe & Hl & D' & S' & Lk & _ & _ & Nm & Rm).
  rewrite E in E'. injection E' as <-.
  assert (Oe : oaxis (hget h e) = Some j).
  { rewrite Forall_forall in Ok. specialize (Ok (i, Nd e cks, j) ltac:(apply in_app_iff; right; left; auto)). cbn in Ok. inversion Ok; auto. }
  assert (Ie : isometric (A e) j).
  { specialize (C e). rewrite Oe in C. apply C; [|cbn; congruence]. cbn [nids]. right. apply in_flat_map. exists (i, Nd e cks, j). split; [apply in_app_iff; right; left; auto|left; auto]. }
  destruct (parts_held csvd (A n) m u s v x y i 1 0 i k) as (Iy & Nx); auto; try (apply Sn); try lia.
  split; [eauto|]. split.
  - exists z. split; auto. assert (Nx' : norm_is (sqnorm (data x'))) by (eapply St; eauto; apply Lp).
    unfold norm_is in *. destruct o; auto. rewrite <- Nx'. apply (contracts_norm_r K (A e) j x' 1 z); auto.
    + unfold ndim. rewrite Sx'. destruct Lp as (_ & -> & _). cbn. lia.
    + rewrite Sx'. destruct Lp as (_ & -> & _). cbn. auto.
  - intros t T1 T2 T3 T4. apply (Rm t T1 T2 ltac:(lia)). auto.
Qed.

Lemma us_swapped csvd fuel hx h A n k1 k2 i e cks j op h' : svd_for csvd -> network hx (Nd n (k1 ++ (i, Nd e cks, j) :: k2)) A -> twins K n e hx h ->
  (oaxis (hget h n) = None \/ oaxis (hget h e) = None) -> lawful K op -> steadfast op ->
  (isometric (A e) j /\ norm_is (sqnorm (data (A n))) \/ isometric (A n) i /\ norm_is (sqnorm (data (A e)))) ->
  height (Nd n (k1 ++ (i, Nd e cks, j) :: k2)) <= fuel ->
  unite_split csvd fuel h n i op None = Ok (n, length h, e, h') -> swapped h h' n i e.
Proof.
  intros Sv N Tw Ax Q St Iso Hf E. pose proof (twins_shaped K n e hx h _ A Tw N) as Sh. pose proof Sh as (_ & _ & _ & H & _).
  destruct (shaped_joint K h A n k1 k2 i e cks j Sh) as (nn & ne & d1 & d2 & Ed & J & Li & Lj & Hi & Hj & _).
  pose proof J as (_ & _ & Sn & Se & Hne & P & Only & Sfn & Sfe & Hd). destruct Tw as (Tl & Tw).
  assert (Pn : count_ascii plus nn = 0 /\ count_ascii plus ne = 0).
  { destruct (network_joint K hx A n k1 k2 i e cks j N) as (nn' & ne' & _ & _ & _ & Jx & Pn & Pe & _). pose proof Jx as (_ & _ & Sn' & Se' & _).
    destruct Sn as (_ & _ & _ & _ & _ & _ & _ & Y1). destruct Se as (_ & _ & _ & _ & _ & _ & _ & Y2).
    destruct Sn' as (_ & _ & _ & _ & _ & _ & _ & Y1'). destruct Se' as (_ & _ & _ & _ & _ & _ & _ & Y2').
    destruct (Tw n) as (_ & _ & _ & T1 & _). destruct (Tw e) as (_ & _ & _ & T2 & _). split; congruence. }
  destruct Pn as (Pn & Pe).
  assert (Pos : forall c : arr K, shape c = firstn i (shape (A n)) ++ del j (shape (A e)) ++ skipn (S i) (shape (A n)) ->
    Forall (fun d => 0 < d) (shape c) /\ i + (ndim (A e) - 1) <= ndim c /\ ndim c = ndim (A n) - 1 + (ndim (A e) - 1)).
  { intros c Sc. assert (Pn' : Forall (fun d => 0 < d) (shape (A n))) by apply Sn. assert (Pe' : Forall (fun d => 0 < d) (shape (A e))) by apply Se. split.
    - rewrite Sc. rewrite Forall_forall in *. intros d Hd'. rewrite !in_app_iff in Hd'. destruct Hd' as [Y|[Y|Y]].
      + apply Pn'. rewrite <- (firstn_skipn i (shape (A n))). apply in_app_iff; auto.
      + apply Pe'. unfold del in Y. apply in_app_iff in Y. destruct Y as [Y|Y].
        * rewrite <- (firstn_skipn j (shape (A e))). apply in_app_iff; auto.
        * rewrite <- (firstn_skipn (S j) (shape (A e))). apply in_app_iff; auto.
      + apply Pn'. rewrite <- (firstn_skipn (S i) (shape (A n))). apply in_app_iff; auto.
    - unfold ndim in *. rewrite Sc, !app_length, firstn_length, skipn_length, length_del by exact Hj. lia. }
  assert (Fit : forall c : arr K, shape c = firstn i (shape (A n)) ++ del j (shape (A e)) ++ skipn (S i) (shape (A n)) ->
    fitting K csvd c (seq i (ndim (A e) - 1))).
  { intros c Sc. destruct (Pos c Sc) as (Y1 & Y2 & _). apply (some_fitting K csvd (svd_some csvd Sv)); auto.
    apply Forall_forall. intros k Hk. apply in_seq in Hk. lia. }
  destruct (unite_split_ok K csvd fuel h n i e j (A n) (A e) nn ne op None (edges (Nd n (k1 ++ (i, Nd e cks, j) :: k2))) J Ax Pn Pe) as
    (hA & hB & h2 & m & u & s & v & k & c & c' & x & y & E' & Cc & E2 & Edt & XA & XB & Wc' & Sc' & Mm & Es & Tr & K0 & Lp & Rp & Ye & Yn & Xn & Xe & Hl & D' & S' & Lk & _ & _ & Nm & Rm); auto.
  { apply (linkage_hangs K h _ None fuel true H Hf). }
  rewrite E in E'. injection E' as <-. pose proof Cc as (Wc & Sc & _).
  assert (Nc : norm_is (sqnorm (data c))).
  { unfold norm_is in *. destruct o; auto. destruct Iso as [(I & Nn)|(I & Nn)]; rewrite <- Nn.
    - apply (contracts_norm_l K (A n) i (A e) j c); auto. apply Sn.
    - apply (contracts_norm_r K (A n) i (A e) j c); auto. apply Se. }
  assert (Nc' : norm_is (sqnorm (data c'))) by (eapply St; eauto).
  rewrite <- Sc' in Sc. destruct (Pos c' Sc) as (Pc & Lc & Dc).
  destruct (parts_held csvd c' m u s v x y i (ndim (A e) - 1) j i k) as (Iy & Nx); auto; try lia.
  split; [eauto|]. split; [eauto|]. intros t T1 T2 T3 T4. apply (Rm t T1 T2 ltac:(lia)). auto.
Qed.

(** When the links, axes and arrays of tensors other than the root stay. *)
Lemma held_near h r h' : (exists R A, network h R A /\ top R = r) ->
  (forall t, oacc (hget h' t) = oacc (hget h t) /\ oleaf (hget h' t) = oleaf (hget h t) /\ oaxis (hget h' t) = oaxis (hget h t)) ->
  (forall t, t <> r -> oleaf (hget h t) = false -> oarr (hget h' t) = oarr (hget h t)) ->
  (exists x, oarr (hget h' r) = Some x /\ norm_is (sqnorm (data x))) -> held h r -> held h' r.
Proof.
  intros (R0 & A0 & N0 & E0) Lk Oth (x & Ex & Nx) Hd R A N Et.
  assert (R = R0) as ->.
  { apply (hangs_det K h' R None R0); [apply N| |congruence]. eapply hangs_same; [|apply N0]. intros t. destruct (Lk t) as (? & ? & _). auto. }
  destruct (Hd R0 A0 N0 E0) as (C & _). pose proof N as (_ & _ & _ & H & _ & _ & At). pose proof N0 as (_ & _ & _ & H0 & _ & _ & At0). split.
  - intros t Ht Nt. destruct (At t Ht) as (Ea & _). destruct (At0 t Ht) as (Eb & _). rewrite Oth in Ea by (try congruence; eapply nids_inner; eauto).
    assert (A t = A0 t) as -> by congruence. destruct (Lk t) as (_ & _ & ->). apply C; auto.
  - assert (Hr : In r (nids R0)) by (destruct R0 as [q|q ks]; [inversion H|cbn in Et; subst; left; auto]).
    destruct (At r Hr) as (Ea & _). rewrite Ex in Ea. injection Ea as <-. auto.
Qed.
Lemma root_array h R A r : network h R A -> top R = r -> In r (nids R) /\ oarr (hget h r) = Some (A r) /\ wf (A r) /\ oleaf (hget h r) = false.
Proof.
  intros (_ & _ & _ & H & _ & F & At) E. destruct R as [q|q ks]; [inversion H|]. cbn in E. subst q.
  assert (Hr : In r (nids (Nd r ks))) by (left; auto). split; auto. split; [apply At; auto|]. split; [inversion F; auto|]. apply (nids_inner K h _ _ H r Hr).
Qed.
Lemma kid_isometric h A r ks i e cks j : network h (Nd r ks) A -> In (i, Nd e cks, j) ks -> held h r -> r <> e -> isometric (A e) j.
Proof.
  intros N Hk Hd Ne. destruct (Hd _ _ N eq_refl) as (C & _). pose proof N as (_ & _ & _ & _ & Or & _). apply oriented_kids in Or. destruct Or as (_ & Ok).
  rewrite Forall_forall in Ok. specialize (Ok _ Hk). cbn in Ok. inversion Ok as [|? ? ? Oe]; subst. specialize (C e). rewrite Oe in C.
  apply C; [|cbn; congruence]. cbn [nids]. right. apply in_flat_map. exists (i, Nd e cks, j). split; auto. left. auto.
Qed.

(** Both kinds of moves, given as operations on heaps. *)
Lemma move_held csvd1 csvd2 fuel h R A n i e j op uf h' : svd_for csvd1 -> svd_for csvd2 -> network h R A -> top R = n -> S (length (ids R)) <= fuel ->
  dget (oacc (hget h n)) i = Some (e, j) -> oleaf (hget h e) = false -> lawful K op -> steadfast op -> held h n ->
  (if uf : bool then unite_split csvd2 fuel h n i op None else split_unite csvd1 h n i op None) = Ok (n, length h, e, h') ->
  shifted K h R n i e h' -> held h' e.
Proof.
  intros S1 S2 N Et Hf Eg Le La St Hd E Sh. pose proof N as (D & _). apply (points_get K h _ _ _ _ D) in Eg.
  destruct (point_kid K h R A n i e j N Et Eg Le) as (k1 & cks & k2 & ->). apply (held_after h (Nd n (k1 ++ (i, Nd e cks, j) :: k2)) A n i e h'); auto. destruct uf.
  - pose proof N as (_ & _ & _ & _ & Or & _). apply oriented_kids in Or. destruct Or as (Ax & _).
    destruct (network_joint K h A n k1 k2 i e cks j N) as (nn & ne & d1 & d2 & _ & J & _). pose proof J as (_ & _ & _ & _ & Hne & _).
    apply (us_swapped csvd2 fuel h h A n k1 k2 i e cks j op h'); auto; [apply twins_refl| |pose proof (size_height (Nd n (k1 ++ (i, Nd e cks, j) :: k2))); lia].
    left. split; [eapply kid_isometric; eauto; apply in_app_iff; right; left; auto|]. apply (Hd _ _ N eq_refl).
  - apply (su_swapped csvd1 h A n k1 k2 i e cks j op h'); auto.
Qed.
Lemma unite_held csvd fuel h R A n i e j op h' : svd_for csvd -> network h R A -> top R = e -> S (length (ids R)) <= fuel ->
  dget (oacc (hget h n)) i = Some (e, j) -> oleaf (hget h n) = false -> lawful K op -> steadfast op -> held h e ->
  unite_split csvd fuel h n i op None = Ok (n, length h, e, h') -> shifted K h R n i e h' -> held h' e.
Proof.
  intros Sv N Et Hf Eg Le La St Hd E Sh. destruct (other_end K h R A n i e j N Et Eg Le) as (k1 & k2 & c1 & c2 & A' & hx & ER & N' & Tw & Ax & Pm).
  apply (held_after h R A n i e h'); auto; [rewrite Et; auto|].
  eapply (us_swapped csvd fuel hx h A'); eauto.
  - right. pose proof Tw as (_ & Tw'). pose proof N' as (_ & _ & _ & _ & _ & _ & At'). pose proof N as (_ & _ & _ & _ & _ & _ & At).
    assert (Eq : forall t, In t (nids R) -> In t (nids (Nd n (k1 ++ (i, Nd e (c1 ++ c2), j) :: k2))) -> A' t = A t).
    { intros t H1 H2. destruct (At t H1) as (X & _). destruct (At' t H2) as (Y & _). destruct (Tw' t) as (_ & _ & Z & _). congruence. }
    assert (Hne : e <> n).
    { destruct (network_joint K hx A' n k1 k2 i e (c1 ++ c2) j N') as (nn & ne & d1 & d2 & _ & J & _). pose proof J as (_ & _ & _ & _ & Hne & _). auto. }
    assert (Kn : In (j, Nd n (k1 ++ k2), i) (c1 ++ (j, Nd n (k1 ++ k2), i) :: c2)) by (apply in_app_iff; right; left; auto).
    rewrite !Eq.
    + split; [|apply (Hd _ _ N Et)]. subst R. eapply kid_isometric; eauto.
    + subst R. left. auto.
    + cbn [nids]. right. apply in_flat_map. exists (i, Nd e (c1 ++ c2), j). split; [apply in_app_iff; right; left; auto|left; auto].
    + subst R. cbn [nids]. right. apply in_flat_map. exists (j, Nd n (k1 ++ k2), i). split; [apply in_app_iff; right; left; auto|left; auto].
    + left. auto.
  - pose proof (size_height (Nd n (k1 ++ (i, Nd e (c1 ++ c2), j) :: k2))). rewrite (Permutation_length Pm) in Hf. lia.
Qed.
End Norm.
