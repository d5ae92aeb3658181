(** The network while a move is under way: the tensor [mid] that [split_unite] and
    [unite_split] insert is the root of a tree. *)
From Coq Require Import String List Arith Bool Lia Permutation Sorting.Sorted.
From Verif Require Import Py Alg ListX NdArray_Model NdArray_Proof Contract_Model Contract_Spec Contract_Proof
  Net_Model Net_Spec Sweep_Spec Sweep_Proof Trav_Proof Acyc_Proof Env_Proof EnvThm_Proof Link_Spec Link_Proof Move_Spec Split_Proof Relink_Proof Move_Proof
  MoveRoot_Proof Pair_Proof State_Spec State_Proof Contraction_Proof.
Import ListNotations.
Local Open Scope nat_scope.
Local Open Scope list_scope.

Section Mid.
Variable K : StarRing.
Implicit Types h : heap K.
Implicit Types A : id -> arr K.

Lemma unite_mid_any h A n k1 k2 i e cks j nz : let t := Nd n (k1 ++ (i, Nd e cks, j) :: k2) in let w := length h in
  shaped h t A -> (oaxis (hget h n) = None \/ oaxis (hget h e) = None) ->
  exists h' c, unite h n i None nz = Ok (w, h') /\ contracts (A n) i (A e) j c /\
    hangs h' None (Nd w (renum 0 (k1 ++ cks ++ k2))) /\ numbered h' w /\ w < length h' /\
    oarr (hget h' w) = Some c /\ oaxis (hget h' w) = None /\
    (forall x, x <> w -> attrs (hget h x) (hget h' x)).
Proof.
  intros t w N Ax. pose proof N as (D & Sy & NS & H & F & At).
  destruct (shaped_joint K h A n k1 k2 i e cks j N) as (nn & ne & c1 & c2 & -> & J & Li & Lj & Hi & Hj & H' & Ke & Kn & Fn & Fe).
  pose proof J as (_ & _ & Sn & Se & Hne & P & Only & Sfn & Sfe & Hd).
  destruct Sn as (Ln & Lfn & Nun & An & Wn & Pn & Dn & Nmn). destruct Se as (Le & Lfe & Nue & Ae & We & Pe & De & Nme).
  assert (Pj : points h e j n i) by (apply Sy; auto).
  destruct (unite_ok K h n i e j None nz (A n) (A e) nn ne) as
    (h' & c & nm & E & C & _ & D' & S' & Hl & Hw & Oth & Aw & Q); auto.
  { intros i0 c0 l0 Hp [->| ->]; [destruct (Sfn _ _ Hp)|]. eapply Only; eauto. }
  { intros i0 c0 l0 Hp [->| ->]; [|destruct (Sfe _ _ Hp)]. assert (Hp' : points h n l0 e i0) by (apply Sy; exact Hp).
    pose proof (Only _ _ Hp'). subst l0. unfold points in P, Hp'. pose proof (dok_nodup _ (dicts_dok K h n D)) as Dk.
    apply (points_get K h n i e j D) in P. apply (points_get K h n i e i0 D) in Hp'. congruence. }
  cbn [root_of] in *. fold w in E, Q, Aw, Oth, Hw.
  set (KS := k1 ++ (c1 ++ c2) ++ k2).
  inversion H as [|? ? _ AA DA FA|]; subst. inversion H' as [|? ? _ AA' DA' FA'|]; subst.
  set (i := length k1) in *. set (j := length c1) in *.
  assert (ND : NoDup (n :: flat_map (fun k => ids (k_t k)) (k1 ++ (i, Nd e (c1 ++ c2), j) :: k2))) by apply (hangs_nodup K h _ NS H).
  assert (NDK : NoDup (n :: e :: flat_map (fun k => ids (k_t k)) KS)).
  { eapply Permutation_NoDup; [|exact ND]. constructor. unfold KS. rewrite !flat_map_app. cbn [flat_map].
    change (ids (k_t (i, Nd e (c1 ++ c2), j))) with (e :: flat_map (fun k => ids (k_t k)) (c1 ++ c2)).
    rewrite flat_map_app. cbn [app]. symmetry. apply Permutation_middle. }
  assert (NK : NoDup (flat_map (fun k => ids (k_t k)) KS)) by (inversion NDK as [|? ? _ X]; inversion X; auto).
  assert (Nin : forall k x, In k KS -> In x (ids (k_t k)) -> x <> n /\ x <> e).
  { intros k x Hk Hx. pose proof (flat_in KS k x Hk Hx) as Y. split; intros ->.
    - apply (proj1 (proj1 (NoDup_cons_iff _ _) NDK)). right. auto.
    - pose proof (proj2 (proj1 (NoDup_cons_iff _ _) NDK)) as Z. apply (proj1 (proj1 (NoDup_cons_iff _ _) Z)). auto. }
  set (L := map (fun k => (top (k_t k), k_j k)) KS).
  assert (EL : joined K h n i e j = L).
  { unfold joined, targets. rewrite AA, AA', !map_map. cbn [snd]. rewrite !map_app. cbn [map]. unfold L, KS, i, j.
    rewrite <- (map_length (fun k => (top (k_t k), k_j k)) k1), <- (map_length (fun k => (top (k_t k), k_j k)) c1).
    rewrite !del_at. rewrite firstn_app, Nat.sub_diag, firstn_O, app_nil_r, firstn_all.
    rewrite skipn_app, skipn_all, Nat.sub_diag. cbn [app skipn]. rewrite !map_app. reflexivity. }
  rewrite EL in Q.
  assert (KidIn : forall x k l, nth_error L l = Some (x, k) <-> exists kd, nth_error KS l = Some kd /\ top (k_t kd) = x /\ k_j kd = k).
  { intros x k l. unfold L. rewrite nth_error_map. destruct (nth_error KS l) as [kd|]; cbn [option_map].
    - split; [intros X; injection X as <- <-; eauto|]. intros (kd' & X & <- & <-). injection X as ->. auto.
    - split; [discriminate|]. intros (kd' & X & _). discriminate. }
  assert (Up : forall x k y l, y = n \/ y = e -> x <> n -> x <> e -> points h x k y l -> exists kd, In kd KS /\ top (k_t kd) = x /\ k_j kd = k).
  { intros x k y l Hy Xn Xe Hp. apply Sy in Hp. unfold points in Hp. destruct Hy as [->| ->].
    - rewrite AA in Hp. apply in_map_iff in Hp. destruct Hp as (kd & X & Hk). injection X as _ X1 X2. exists kd. split; auto.
      apply in_app_iff in Hk. unfold KS. rewrite !in_app_iff. destruct Hk as [Hk|[<-|Hk]]; auto. cbn in X1. congruence.
    - rewrite AA' in Hp. apply in_map_iff in Hp. destruct Hp as (kd & X & Hk). injection X as _ X1 X2. exists kd. split; auto.
      apply in_app_iff in Hk. unfold KS. rewrite !in_app_iff. destruct Hk as [Hk|[<-|Hk]]; auto. cbn in X1. congruence. }
  assert (Hang : forall kd, In kd KS -> exists q, hangs h (Some (k_j kd, q)) (k_t kd) /\ (fst q = n \/ fst q = e)).
  { intros kd Hk. rewrite Forall_forall in FA, FA'. unfold KS in Hk. rewrite !in_app_iff in Hk.
    destruct Hk as [Hk|[[Hk|Hk]|Hk]]; eexists; (split; [first [apply FA; apply in_app_iff; cbn; auto; fail|apply FA'; apply in_app_iff; cbn; auto]|cbn; auto]). }
  assert (Lw : forall k x, In k KS -> In x (ids (k_t k)) -> x <> w).
  { intros k x Hk Hx. destruct (Hang k Hk) as (q & Hq & _). pose proof (hangs_lt K h _ _ Hq x Hx). unfold w. lia. }
  assert (Pw : forall x k l, ~ points h x k w l /\ ~ points h w l x k).
  { assert (X : forall x k l, ~ points h w l x k) by (intros x k l X; pose proof (points_lt K h _ _ _ _ X); unfold w in *; lia).
    intros x k l. split; auto. intros Y. apply Sy in Y. eapply X; eauto. }
  (* inner objects of the subtrees keep their links *)
  assert (Inn : forall kd x, In kd KS -> In x (ids (k_t kd)) -> x <> top (k_t kd) -> oacc (hget h' x) = oacc (hget h x)).
  { intros kd x Hk Hx Ht. destruct (Nin kd x Hk Hx) as (Xn & Xe). pose proof (Lw kd x Hk Hx) as Xw. apply dok_ext; try (apply dicts_dok; auto).
    assert (NoTop : forall kd', In kd' KS -> top (k_t kd') <> x).
    { intros kd' Hk' <-. apply In_nth_error in Hk. destruct Hk as (p & Hp). apply In_nth_error in Hk'. destruct Hk' as (q & Hq).
      pose proof (flat_pos KS p q kd kd' _ NK Hp Hq Hx (top_ids _)). subst q. rewrite Hp in Hq. injection Hq as <-. auto. }
    intros k (y, l). change (points h' x k y l <-> points h x k y l). rewrite Q. split.
    - intros [(X & _)|[(-> & _)|(-> & X)]]; auto; [tauto|]. apply KidIn in X. destruct X as (kd' & X1 & X2 & _).
      apply nth_error_In in X1. destruct (NoTop kd' X1 X2).
    - intros Hp. left. split; auto. split; auto. split; auto.
      split; intros ->; [destruct (Up x k n l) as (kd' & X1 & X2 & _)|destruct (Up x k e l) as (kd' & X1 & X2 & _)]; auto; destruct (NoTop kd' X1 X2). }
  assert (Tops : forall p kd, nth_error KS p = Some kd -> oacc (hget h' (top (k_t kd)))
     = map (fun e => if fst e =? k_j kd then (k_j kd, (w, p)) else e) (oacc (hget h (top (k_t kd))))).
  { intros p kd Hp. pose proof (nth_error_In _ _ Hp) as Hk. destruct (Nin kd _ Hk (top_ids _)) as (Xn & Xe). pose proof (Lw kd _ Hk (top_ids _)) as Xw.
    set (x := top (k_t kd)) in *. set (b := k_j kd) in *.
    assert (Only1 : forall q kd', nth_error KS q = Some kd' -> top (k_t kd') = x -> q = p /\ kd' = kd).
    { intros q kd' Hq Ht. assert (q = p).
      { symmetry. eapply (flat_pos KS p q kd kd' x); eauto; [apply top_ids|rewrite <- Ht; apply top_ids]. }
      subst q. split; auto. congruence. }
    assert (Hb : exists q, In (b, q) (oacc (hget h x)) /\ (fst q = n \/ fst q = e)).
    { destruct (Hang kd Hk) as (q & Hq & Hf). exists q. split; auto. unfold x, b. inversion Hq as [? ? ? _ X E1 E2| |? ? ? ? ? _ X _ _ E1 E2]; subst.
      - cbn [top]. rewrite X. left. auto.
      - cbn [top]. rewrite X. apply in_app_iff. right. left. auto. }
    pose proof (dok_nodup _ (dicts_dok K h x D)) as Dk. destruct Hb as (q & Hb & Hf).
    apply dok_ext.
    - apply dicts_dok; auto.
    - unfold dok. rewrite map_map. rewrite map_ext with (g := fst); [apply (D x)|]. intros (a0, q0). cbn. destruct (Nat.eqb_spec a0 b); auto.
    - intros k (y, l). rewrite in_map_iff. change (In (k, (y, l)) (oacc (hget h' x))) with (points h' x k y l). rewrite Q. split.
      + intros [(X & _ & _ & Y1 & Y2)|[(-> & _)|(-> & X)]]; [|tauto|].
        * exists (k, (y, l)). split; auto. cbn [fst]. destruct (Nat.eqb_spec k b) as [->|]; auto. exfalso.
          pose proof (key_unique _ _ _ _ Dk Hb X) as Eq. subst q. cbn in Hf. tauto.
        * apply KidIn in X. destruct X as (kd' & X1 & X2 & X3). destruct (Only1 _ _ X1 X2) as (-> & ->). fold b in X3. subst k.
          exists (b, q). cbn [fst]. rewrite Nat.eqb_refl. auto.
      + intros ((k0, q0) & X & Hin). cbn [fst] in X. destruct (Nat.eqb_spec k0 b) as [->|Hk0].
        * injection X as <- <- <-. right. right. split; auto. apply KidIn. exists kd. auto.
        * injection X as -> ->. left. split; auto. split; auto. split; auto.
          split; intros ->; [destruct (Up x k n l) as (kd' & X1 & X2 & X3)|destruct (Up x k e l) as (kd' & X1 & X2 & X3)]; auto;
            apply In_nth_error in X1; destruct X1 as (q1 & X1); destruct (Only1 _ _ X1 X2) as (-> & ->); fold b in X3; congruence. }
  assert (Lfs : forall x, x <> w -> oleaf (hget h' x) = oleaf (hget h x)) by (intros x Hx; apply (attrs_fields K _ _ (Oth x Hx))).
  apply attrs_fields in Aw. cbn in Aw. destruct Aw as (W1 & W2 & W3 & W4 & W5 & _).
  destruct (unite_links K h h' n i e j w) as (Lw' & Le' & _); auto.
  { intros i0 c0 l0 Hp [->| ->]; [destruct (Sfn _ _ Hp)|]. eapply Only; eauto. }
  { intros i0 c0 l0 Hp [->| ->]; [|destruct (Sfe _ _ Hp)]. assert (Hp' : points h n l0 e i0) by (apply Sy; exact Hp).
    pose proof (Only _ _ Hp'). subst l0.
    apply (points_get K h n i e j D) in P. apply (points_get K h n i e i0 D) in Hp'. congruence. }
  { rewrite EL. exact Q. }
  rewrite EL in Lw'. cbn zeta in Lw'. unfold L in Lw'. rewrite map_length in Lw'. rewrite <- renum_half in Lw'.
  exists h', c. fold KS. split; auto. split; auto.
  split; [|split; [|split; [auto|split; [|split]]]]; auto.
  - apply hangs_root.
    + congruence.
    + exact Lw'.
    + rewrite Lw'. rewrite map_map. change (fun x => fst (kid_half x)) with k_i. rewrite renum_axes. apply seq_NoDup.
    + apply Forall_forall. intros k Hk. apply renum_in in Hk. destruct Hk as (p & k0 & Hp & ->).
      change (hangs h' (Some (k_j k0, (w, p))) (k_t k0)). pose proof (nth_error_In _ _ Hp) as Hk. destruct (Hang k0 Hk) as (q & Hq & _).
      eapply repoint; [exact Hq| | | |].
      * eapply NoDup_flat_kid; eauto.
      * intros x Hx. apply Lfs. eapply Lw; eauto.
      * intros x Hx Ht. eapply Inn; eauto.
      * apply Tops. auto.
  - unfold numbered. rewrite Lw', map_map. change (fun x => fst (kid_half x)) with k_i. rewrite renum_axes. now rewrite map_length, renum_length.
Qed.

Lemma unite_mid h A n k1 k2 i e cks j nz : let t := Nd n (k1 ++ (i, Nd e cks, j) :: k2) in let w := length h in
  network h t A ->
  exists h' c, unite h n i None nz = Ok (w, h') /\ contracts (A n) i (A e) j c /\
    hangs h' None (Nd w (renum 0 (k1 ++ cks ++ k2))) /\ numbered h' w /\ w < length h' /\
    oarr (hget h' w) = Some c /\ oaxis (hget h' w) = None /\
    (forall x, x <> w -> attrs (hget h x) (hget h' x)).
Proof.
  intros t w N. pose proof N as (_ & _ & _ & _ & Or & _). pose proof (oriented_kids K h _ _ _ Or) as (Ax & _).
  apply (unite_mid_any h A); auto. apply network_shaped; auto.
Qed.

Lemma nth_error_ins_ne {X} i (x : X) l k : k <> i -> i < length l -> nth_error (ins i x (del i l)) k = nth_error l k.
Proof.
  intros Hk Hi. destruct (nth_error l i) as [y|] eqn:E; [|apply nth_error_None in E; lia].
  rewrite <- (ins_nth_del i l y E) at 2. destruct (shifted_onto i k Hk) as (p & ->).
  assert (Hl : i <= length (del i l)) by (rewrite length_del by auto; lia).
  now rewrite !nth_error_ins_shifted by auto.
Qed.
Lemma acc_retarget h h' x b v : dicts_ok h -> dicts_ok h' -> numbered h x -> numbered h' x -> b < length (targets h x) ->
  targets h' x = ins b v (del b (targets h x)) ->
  oacc (hget h' x) = map (fun e => if fst e =? b then (b, v) else e) (oacc (hget h x)).
Proof.
  intros D D' N N' Hb E. apply dok_ext.
  - apply dicts_dok; auto.
  - unfold dok. rewrite map_map. rewrite map_ext with (g := fst); [apply (D x)|]. intros (a0, q0). cbn. destruct (Nat.eqb_spec a0 b); auto.
  - intros k (y, l). rewrite in_map_iff. change (In (k, (y, l)) (oacc (hget h' x))) with (points h' x k y l).
    rewrite (numbered_points K h' x k y l N'). rewrite E.
    assert (Hd : b <= length (del b (targets h x))) by (rewrite length_del by auto; lia).
    destruct (Nat.eq_dec k b) as [->|Hk].
    + rewrite nth_error_ins_eq by auto. split.
      * intros X. injection X as ->. destruct (nth_error (targets h x) b) as [[y0 l0]|] eqn:E0; [|apply nth_error_None in E0; lia].
        apply (numbered_points K h x) in E0; auto. exists (b, (y0, l0)). cbn [fst]. rewrite Nat.eqb_refl. auto.
      * intros ((k0, q) & X & _). cbn [fst] in X. destruct (Nat.eqb_spec k0 b); [congruence|]. injection X as -> ->. tauto.
    + rewrite nth_error_ins_ne by auto. rewrite <- (numbered_points K h x k y l N). split.
      * intros X. exists (k, (y, l)). cbn [fst]. destruct (Nat.eqb_spec k b); tauto.
      * intros ((k0, q) & X & Hin). cbn [fst] in X. destruct (Nat.eqb_spec k0 b); [congruence|]. injection X as -> ->. auto.
Qed.

Lemma split_mid csvd h A n k1 k2 i e cks j nz : let t := Nd n (k1 ++ (i, Nd e cks, j) :: k2) in let w := length h in
  network h t A -> fitting K csvd (A n) [i] ->
  exists h' x, split csvd h n (AxInt i) None None (Some n) nz = Ok (w, n, h') /\
    hangs h' None (Nd w [(0, Nd n (k1 ++ k2), i); (1, Nd e cks, j)]) /\ numbered h' w /\ w < length h' /\
    oarr (hget h' w) = Some x /\ wf x /\ oaxis (hget h' w) = None /\
    (forall z, z <> n -> z <> w -> attrs (hget h z) (hget h' z)).
Proof.
  intros t w N Ft. pose proof N as (D & Sy & NS & H & Or & F & At). pose proof (oriented_kids K h _ _ _ Or) as (Ax & _).
  destruct (network_joint K h A n k1 k2 i e cks j N) as (nn & ne & c1 & c2 & -> & J & Pn & Pe & Li & Lj & Hi & Hj & H' & Ke & Kn & Fn & Fe).
  pose proof J as (_ & _ & Sn & Se & Hne & P & Only & Sfn & Sfe & Hd).
  destruct Sn as (Ln & Lfn & Nun & An & Wn & Ppn & Dn & Nmn). destruct Se as (Le & Lfe & Nue & Ae & We & Ppe & De & Nme).
  destruct (su_first K csvd h n i e j (A n) (A e) nn ne nz J Ax ltac:(lia) Ft) as
    (hA & m & u & s & v & k & x & y & E1 & Mm & Es & Tr & K0 & Lp & Rp & DA & SA & Hl & Oth & Atm & Atn & Am & NnA & TnA & NeA & TeA & QA).
  fold w in E1, Hl, Oth, Atm, Am, TnA, TeA, QA.
  pose proof (attrs_fields K _ _ Atm) as (M1 & M2 & M3 & M4 & M5 & _). cbn in M1, M2, M3, M4, M5.
  pose proof (attrs_fields K _ _ Atn) as (N1 & N2 & N3 & N4 & N5 & _). cbn in N1, N2, N3, N4, N5.
  assert (LTn : i < length (targets h n)) by (rewrite targets_length; lia).
  assert (LTe : j < length (targets h e)) by (rewrite targets_length; lia).
  assert (ND : NoDup (ids t)) by apply (hangs_nodup K h _ NS H).
  assert (Pw : forall x k l, ~ points h x k w l /\ ~ points h w l x k).
  { assert (X : forall x k l, ~ points h w l x k) by (intros x0 k0 l0 X; pose proof (points_lt K h _ _ _ _ X); unfold w in *; lia).
    intros x0 k0 l0. split; auto. intros Y. apply Sy in Y. eapply X; eauto. }
  assert (Acc : forall z, z <> n -> z <> e -> z <> w -> oacc (hget hA z) = oacc (hget h z)).
  { intros z Z1 Z2 Z3. apply dok_ext; try (apply dicts_dok; auto). intros k0 (y0, l0).
    change (points hA z k0 y0 l0 <-> points h z k0 y0 l0).
    destruct (Nat.eq_dec y0 n) as [->|Y1].
    - assert (X : points hA n l0 z k0 <-> points h n l0 z k0).
      { rewrite !numbered_points by auto. rewrite TnA. destruct (Nat.eq_dec l0 i) as [->|Hl0]; [|now rewrite nth_error_ins_ne].
        rewrite nth_error_ins_eq by (rewrite length_del by auto; lia). split.
        - intros X. injection X as X _. congruence.
        - intros X. apply (numbered_points K h n) in X; auto. apply (points_get K h n i z k0 D) in X. apply (points_get K h n i e j D) in P. congruence. }
      split; intros Y; [apply SA in Y|apply Sy in Y]; apply X in Y; [apply Sy in Y|apply SA in Y]; auto.
    - destruct (Nat.eq_dec y0 w) as [->|Y2].
      + split; intros Y; exfalso; [|eapply Pw; eauto]. apply SA in Y. unfold points in Y. rewrite Am in Y.
        destruct Y as [Y|[Y|[]]]; injection Y as _ Y _; congruence.
      + apply QA; auto. }
  exists hA, x. split; auto. split; [|split; [|split; [auto|split; [auto|split; [apply Lp|split; auto]]]]].
  - assert (He : hangs h (Some (j, (n, i))) (Nd e (c1 ++ c2))).
    { destruct (hangs_kids K h None _ _ H) as (_ & FA & _). rewrite Forall_forall in FA.
      apply (FA (i, Nd e (c1 ++ c2), j)). apply in_app_iff. cbn. auto. }
    assert (Hn : hangs h (Some (i, (e, j))) (Nd n (k1 ++ k2))).
    { destruct (hangs_kids K h None _ _ H') as (_ & FA & _). rewrite Forall_forall in FA.
      apply (FA (j, Nd n (k1 ++ k2), i)). apply in_app_iff. cbn. auto. }
    assert (Nt : forall z, In z (flat_map (fun k => ids (k_t k)) (k1 ++ k2)) \/ In z (flat_map (fun k => ids (k_t k)) (c1 ++ c2)) -> z <> n /\ z <> e).
    { unfold t in ND. cbn [ids] in ND. rewrite flat_map_app in ND. cbn [flat_map] in ND.
      change (ids (k_t (i, Nd e (c1 ++ c2), j))) with (e :: flat_map (fun k => ids (k_t k)) (c1 ++ c2)) in ND.
      pose proof (proj1 (NoDup_cons_iff _ _) ND) as (X1 & X2). cbn [app] in X2. apply NoDup_remove_2 in X2. cbn [app] in X1.
      rewrite !in_app_iff in X1, X2. cbn [In] in X1. rewrite !in_app_iff in X1.
      rewrite (flat_map_app _ k1 k2). intros z Hz. rewrite in_app_iff in Hz.
      split; intros ->; [apply X1|apply X2]; rewrite ?in_app_iff; tauto. }
    assert (Wt : forall up s, hangs h up s -> forall z, In z (ids s) -> z <> w).
    { intros up s0 Hs z Hz. pose proof (hangs_lt K h _ _ Hs z Hz). unfold w. lia. }
    apply hangs_root.
    + congruence.
    + rewrite Am. reflexivity.
    + rewrite Am. cbn. repeat constructor; cbn; intuition lia.
    + constructor; [|constructor; [|constructor]].
      * change (hangs hA (Some (i, (w, 0))) (Nd n (k1 ++ k2))). eapply repoint; [exact Hn| | | |].
        -- eapply NoDup_flat_kid with (ks := c1 ++ (j, Nd n (k1 ++ k2), i) :: c2) (k := (j, Nd n (k1 ++ k2), i)).
           ++ pose proof (hangs_nodup K h _ NS H') as X. cbn [ids] in X. apply NoDup_cons_iff in X. apply X.
           ++ apply in_app_iff. cbn. auto.
        -- intros z Hz. destruct (Nat.eq_dec z n) as [->|Z1]; auto. pose proof (Wt _ _ Hn z Hz).
           apply (attrs_fields K _ _ (Oth z ltac:(auto) ltac:(auto))).
        -- cbn [top]. intros z Hz Z1. pose proof (Wt _ _ Hn z Hz). cbn [ids In] in Hz. destruct Hz as [Hz|Hz]; [congruence|].
           apply Acc; auto. apply Nt. auto.
        -- cbn [top]. apply acc_retarget; auto.
      * change (hangs hA (Some (j, (w, 1))) (Nd e (c1 ++ c2))). eapply repoint; [exact He| | | |].
        -- eapply NoDup_flat_kid with (ks := k1 ++ (i, Nd e (c1 ++ c2), j) :: k2) (k := (i, Nd e (c1 ++ c2), j)).
           ++ unfold t in ND. cbn [ids] in ND. apply NoDup_cons_iff in ND. apply ND.
           ++ apply in_app_iff. cbn. auto.
        -- intros z Hz. pose proof (Wt _ _ He z Hz). destruct (Nat.eq_dec z n) as [->|Z1]; auto.
           apply (attrs_fields K _ _ (Oth z ltac:(auto) ltac:(auto))).
        -- cbn [top]. intros z Hz Z1. pose proof (Wt _ _ He z Hz). cbn [ids In] in Hz. destruct Hz as [Hz|Hz]; [congruence|].
           apply Acc; auto; apply Nt; auto.
        -- cbn [top]. apply acc_retarget; auto.
  - unfold numbered. now rewrite Am.
Qed.
End Mid.
