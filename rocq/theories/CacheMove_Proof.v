(** Moving the root keeps the network and the stored environments in step. *)
From Coq Require Import String List Arith Bool Lia Permutation Sorting.Sorted.
From Verif Require Import Py Alg ListX NdArray_Model NdArray_Proof Contract_Model Contract_Spec Contract_Proof
  Net_Model Net_Spec Sweep_Spec Sweep_Proof Trav_Proof Acyc_Proof Env_Proof TEnv_Proof EnvThm_Proof Link_Spec Link_Proof Move_Spec
  Split_Proof Relink_Proof Move_Proof MoveRoot_Proof Pair_Proof State_Spec State_Proof Contraction_Proof Mid_Proof
  Cache_Model Cache_Spec Cache_Proof CacheExact_Proof.
Import ListNotations.
Local Open Scope nat_scope.
Local Open Scope list_scope.
Local Open Scope py_scope.

Section Moved.
Variable K : StarRing.
Implicit Types h : heap K.
Variable csvd : arr K -> res (arr K * arr K * arr K).
Hypothesis Sv : some_svd csvd.

Lemma some_fitting (a : arr K) l : Forall (fun d => 0 < d) (shape a) -> Forall (fun k => k < ndim a) l -> fitting K csvd a l.
Proof.
  intros P F m (W & S & _). eapply Sv; eauto.
  - apply prod_pos, gather_pos; auto.
  - apply prod_pos, gather_pos; auto. apply Forall_forall. intros k Hk. apply in_rest in Hk. apply Hk.
Qed.
Lemma su_shape (an : arr K) i (ae : arr K) j (u s v : arr K) r (x x' y z : arr K) : i < ndim an -> j < ndim ae ->
  left_part an [i] 0 r u s x -> shape x' = shape x -> right_part an [i] i r v y -> contracts ae j x' 1 z ->
  wf y /\ shape y = ins i r (del i (shape an)) /\ wf z /\ shape z = ins j r (del j (shape ae)).
Proof.
  intros Hi Hj (Wx & Sx & _) Sx' (Wy & Sy & _) (Wz & Sz & _). rewrite rest_single in Sy by auto.
  assert (Gd : forall l : list nat, length l = ndim an -> gather l (del i (seq 0 (ndim an))) = del i l).
  { intros l El. unfold gather. rewrite <- El. apply map_nth_del. }
  rewrite Gd in Sy by reflexivity. split; auto. split; auto. split; auto.
  change (gather (shape an) [i]) with [nth i (shape an) 0] in Sx. change (ins 0 r [nth i (shape an) 0]) with [r; nth i (shape an) 0] in Sx.
  rewrite Sz, Sx', Sx. change (del 1 [r; nth i (shape an) 0]) with [r]. unfold ins, del. cbn [app].
  rewrite firstn_app, firstn_firstn, Nat.min_id, skipn_app, firstn_length.
  unfold ndim in Hj. rewrite Nat.min_l by lia. rewrite Nat.sub_diag. cbn [firstn skipn]. rewrite app_nil_r.
  f_equal. f_equal. rewrite (skipn_all2 (n := j)) by (rewrite firstn_length; lia). reflexivity.
Qed.
Lemma us_shape (an : arr K) i (ae : arr K) j (c c' u s v : arr K) r (x y : arr K) : i < ndim an -> j < ndim ae -> contracts an i ae j c -> shape c' = shape c ->
  left_part c' (seq i (ndim ae - 1)) j r u s x -> right_part c' (seq i (ndim ae - 1)) i r v y ->
  wf y /\ shape y = ins i r (del i (shape an)) /\ wf x /\ shape x = ins j r (del j (shape ae)).
Proof.
  intros Hi Hj (_ & Sc & _) Sc' (Wx & Sx & _) (Wy & Sy & _).
  assert (Nc : ndim c' = ndim an - 1 + (ndim ae - 1)).
  { unfold ndim. rewrite Sc', Sc, !app_length, firstn_length, skipn_length, length_del by exact Hj. unfold ndim in *. lia. }
  rewrite rest_block in Sy by lia.
  assert (Gl : forall l1 l2 l3 : list nat, length l1 = i -> length l2 = ndim ae - 1 -> length l3 = ndim an - 1 - i ->
     gather (l1 ++ l2 ++ l3) (seq i (ndim ae - 1)) = l2 /\
     gather (l1 ++ l2 ++ l3) (seq 0 i ++ seq (i + (ndim ae - 1)) (ndim c' - (i + (ndim ae - 1)))) = l1 ++ l3).
  { intros l1 l2 l3 E1 E2 E3. split; [apply map_nth_seq_app; auto|]. rewrite gather_app. f_equal.
    - apply (map_nth_seq_app 0 [] l1 (l2 ++ l3)); auto.
    - unfold gather. rewrite app_assoc. apply map_nth_seq_last; [rewrite app_length; lia|lia]. }
  assert (L1 : length (firstn i (shape an)) = i) by (rewrite firstn_length; unfold ndim in *; lia).
  assert (L2 : length (del j (shape ae)) = ndim ae - 1) by (rewrite length_del by exact Hj; reflexivity).
  assert (L3 : length (skipn (S i) (shape an)) = ndim an - 1 - i) by (rewrite skipn_length; unfold ndim in *; lia).
  destruct (Gl _ _ _ L1 L2 L3) as (Q1 & Q2). rewrite Sc', Sc in Sx, Sy. rewrite Q1 in Sx. rewrite Q2 in Sy. auto.
Qed.

Definition moved_any h n k1 k2 i e cks j (r : res (id * id * id * heap K)) : Prop :=
  exists h' c1 c2 A', let t' := Nd e (c1 ++ (j, Nd n (k1 ++ k2), i) :: c2) in
    r = Ok (n, length h, e, h') /\ cks = c1 ++ c2 /\ network h' t' A' /\ length h <= length h' /\
    (forall t, oacc (hget h' t) = oacc (hget h t)) /\
    (forall t, t <> length h -> oname (hget h' t) = oname (hget h t) /\ oleaf (hget h' t) = oleaf (hget h t) /\ onorm (hget h' t) = onorm (hget h t)) /\
    (forall t, t <> n -> t <> e -> t <> length h -> oaxis (hget h' t) = oaxis (hget h t) /\ (oleaf (hget h t) = false -> oarr (hget h' t) = oarr (hget h t))) /\
    Permutation (ids (Nd n (k1 ++ (i, Nd e cks, j) :: k2))) (ids t').

(** What a move of the root from [n] across axis [i] to [e] does to links and axes. *)
Definition shifted h (R : tree) n i e h' : Prop :=
  (forall t, oacc (hget h' t) = oacc (hget h t)) /\
  (forall t, t < length h -> oleaf (hget h' t) = oleaf (hget h t)) /\
  (forall t, t < length h -> t <> n -> t <> e -> oaxis (hget h' t) = oaxis (hget h t)) /\
  oaxis (hget h' n) = Some i /\ oaxis (hget h' e) = None /\ length h <= length h' /\
  exists R' A', network h' R' A' /\ top R' = e /\ Permutation (ids R) (ids R').
Lemma shifted_of h R n i e j k1 k2 c1 c2 A' h' : network h' (Nd e (c1 ++ (j, Nd n (k1 ++ k2), i) :: c2)) A' -> length h <= length h' ->
  (forall t, oacc (hget h' t) = oacc (hget h t)) ->
  (forall t, t <> length h -> oname (hget h' t) = oname (hget h t) /\ oleaf (hget h' t) = oleaf (hget h t) /\ onorm (hget h' t) = onorm (hget h t)) ->
  (forall t, t <> n -> t <> e -> t <> length h -> oaxis (hget h' t) = oaxis (hget h t) /\ (oleaf (hget h t) = false -> oarr (hget h' t) = oarr (hget h t))) ->
  Permutation (ids R) (ids (Nd e (c1 ++ (j, Nd n (k1 ++ k2), i) :: c2))) -> shifted h R n i e h'.
Proof.
  intros N Gr Lk Nm Rm Pm. pose proof N as (_ & _ & _ & _ & Or & _). apply oriented_kids in Or. destruct Or as (Ax & Ok).
  split; auto. split. { intros t Ht. destruct (Nm t ltac:(lia)) as (_ & X & _). auto. }
  split. { intros t Ht X Y. destruct (Rm t X Y ltac:(lia)) as (Z & _). auto. }
  split. { rewrite Forall_forall in Ok. specialize (Ok (j, Nd n (k1 ++ k2), i) ltac:(apply in_app_iff; right; left; auto)). cbn in Ok. inversion Ok; auto. }
  split; auto. split; auto. exists (Nd e (c1 ++ (j, Nd n (k1 ++ k2), i) :: c2)), A'. auto.
Qed.

Lemma shifted_perm h R R2 n i e h' : Permutation (ids R2) (ids R) -> shifted h R2 n i e h' -> shifted h R n i e h'.
Proof.
  intros P (S1 & S2 & S3 & S4 & S5 & S6 & R' & A' & N & Et & Pm). repeat (split; auto). exists R', A'. split; auto. split; auto.
  eapply Permutation_trans; [apply Permutation_sym; exact P|exact Pm].
Qed.
Definition lawful (op : heap K -> id -> res (id * heap K)) : Prop :=
  forall hA mid, exists hB, op hA mid = Ok (mid, hB) /\ edits hA mid hB.

Lemma split_any h A n k1 k2 i e cks j op nz : network h (Nd n (k1 ++ (i, Nd e cks, j) :: k2)) A -> lawful op ->
  moved_any h n k1 k2 i e cks j (split_unite csvd h n i op nz).
Proof.
  intros N Q. pose proof N as (_ & _ & _ & _ & Or & _).
  destruct (network_joint K h A n k1 k2 i e cks j N) as (nn & ne & d1 & d2 & Ed & J & Pn & Pe & Li & Lj & Hi & Hj & _).
  apply oriented_kids in Or. destruct Or as (Ax & _).
  pose proof J as (_ & _ & Sn & Se & Hne & P & Only & Sfn & Sfe & Hd).
  pose proof (some_fitting (A n) [i] ltac:(apply Sn) ltac:(constructor; auto)) as Ft.
  destruct (split_unite_ok K csvd h n i e j (A n) (A e) nn ne op nz J Ax ltac:(lia) Ft Q) as
    (hA & hB & h' & m & u & s & v & k & x & y & x' & z & E & Mm & Es & Tr & K0 & Lp & Rp & E2 & Edt & XA & XB & Wx' & Sx' & C & Yn & Ye & Xn & Xe & Hl & D' & S' & Lk & _ & _ & Nm & Rm).
  destruct (su_shape (A n) i (A e) j u s v k x x' y z Hi Hj Lp Sx' Rp C) as (W1 & S1 & W2 & S2).
  destruct (after_move_shape K h h' A n k1 k2 i e cks j y z k N D' S' Lk) as (c1 & c2 & -> & N' & Pm & Am); auto.
  { intros t Ht. destruct (Nm t Ht) as (Y1 & Y2 & _). auto. }
  exists h', c1, c2, (upd2 K A n e y z). cbn zeta. auto 10.
Qed.

(** Heaps that differ in the axes of two objects only. *)
Definition twins (n e : id) hx h : Prop := length hx = length h /\ forall t,
  oacc (hget hx t) = oacc (hget h t) /\ oleaf (hget hx t) = oleaf (hget h t) /\ oarr (hget hx t) = oarr (hget h t) /\
  oname (hget hx t) = oname (hget h t) /\ onorm (hget hx t) = onorm (hget h t) /\ (t <> n -> t <> e -> oaxis (hget hx t) = oaxis (hget h t)).
Lemma twins_refl n e h : twins n e h h.
Proof. split; auto. intros t. repeat (split; auto). Qed.
Lemma twins_shaped n e hx h t A : twins n e hx h -> network hx t A -> shaped h t A.
Proof.
  intros (Le & Tw) (D & Sy & NS & H & _ & F & At).
  assert (Ac : forall x, oacc (hget hx x) = oacc (hget h x)) by apply Tw.
  split; [intros x; rewrite <- Ac; apply D|]. split; [intros a i b j X; unfold points in *; rewrite <- Ac in *; apply Sy; auto|].
  split; [intros x i; rewrite <- Ac; apply NS|].
  split; [apply (hangs_on K hx); auto; intros x _; destruct (Tw x) as (Y1 & Y2 & _); auto|]. split; auto.
  intros x Hx. destruct (Tw x) as (_ & _ & <- & <- & _). destruct (At x Hx) as (Y & s & Z & _). eauto.
Qed.
Lemma unite_any fuel hx h A n k1 k2 i e cks j op nz : network hx (Nd n (k1 ++ (i, Nd e cks, j) :: k2)) A -> twins n e hx h ->
  (oaxis (hget h n) = None \/ oaxis (hget h e) = None) -> lawful op ->
  height (Nd n (k1 ++ (i, Nd e cks, j) :: k2)) <= fuel ->
  moved_any h n k1 k2 i e cks j (unite_split csvd fuel h n i op nz).
Proof.
  intros N Tw Ax Q Hf. pose proof (twins_shaped n e hx h _ A Tw N) as Sh. pose proof Sh as (_ & _ & _ & H & _).
  destruct (shaped_joint K h A n k1 k2 i e cks j Sh) as (nn & ne & d1 & d2 & Ed & J & Li & Lj & Hi & Hj & _).
  pose proof J as (_ & _ & Sn & Se & Hne & P & Only & Sfn & Sfe & Hd). destruct Tw as (Tl & Tw).
  assert (Pn : count_ascii plus nn = 0 /\ count_ascii plus ne = 0).
  { destruct (network_joint K hx A n k1 k2 i e cks j N) as (nn' & ne' & _ & _ & _ & Jx & Pn & Pe & _). pose proof Jx as (_ & _ & Sn' & Se' & _).
    destruct Sn as (_ & _ & _ & _ & _ & _ & _ & Y1). destruct Se as (_ & _ & _ & _ & _ & _ & _ & Y2).
    destruct Sn' as (_ & _ & _ & _ & _ & _ & _ & Y1'). destruct Se' as (_ & _ & _ & _ & _ & _ & _ & Y2').
    destruct (Tw n) as (_ & _ & _ & T1 & _). destruct (Tw e) as (_ & _ & _ & T2 & _). split; congruence. }
  destruct Pn as (Pn & Pe).
  assert (Fit : forall c : arr K, shape c = firstn i (shape (A n)) ++ del j (shape (A e)) ++ skipn (S i) (shape (A n)) ->
    fitting K csvd c (seq i (ndim (A e) - 1))).
  { intros c Sc. assert (Pn' : Forall (fun d => 0 < d) (shape (A n))) by apply Sn. assert (Pe' : Forall (fun d => 0 < d) (shape (A e))) by apply Se.
    apply some_fitting.
    - rewrite Sc. rewrite Forall_forall in *. intros d Hd'. rewrite !in_app_iff in Hd'. destruct Hd' as [Y|[Y|Y]].
      + apply Pn'. rewrite <- (firstn_skipn i (shape (A n))). apply in_app_iff; auto.
      + apply Pe'. unfold del in Y. apply in_app_iff in Y. destruct Y as [Y|Y].
        * rewrite <- (firstn_skipn j (shape (A e))). apply in_app_iff; auto.
        * rewrite <- (firstn_skipn (S j) (shape (A e))). apply in_app_iff; auto.
      + apply Pn'. rewrite <- (firstn_skipn (S i) (shape (A n))). apply in_app_iff; auto.
    - apply Forall_forall. intros k Hk. apply in_seq in Hk. unfold ndim in *. rewrite Sc, !app_length, firstn_length, skipn_length, length_del by exact Hj. lia. }
  destruct (unite_split_ok K csvd fuel h n i e j (A n) (A e) nn ne op nz (edges (Nd n (k1 ++ (i, Nd e cks, j) :: k2))) J Ax Pn Pe) as
    (hA & hB & h' & m & u & s & v & k & c & c' & x & y & E & C & E2 & Edt & XA & XB & Wc' & Sc' & Mm & Es & Tr & K0 & Lp & Rp & Ye & Yn & Xn & Xe & Hl & D' & S' & Lk & _ & _ & Nm & Rm); auto.
  { apply (linkage_hangs K h _ None fuel true H Hf). }
  destruct (us_shape (A n) i (A e) j c c' u s v k x y Hi Hj C Sc' Lp Rp) as (W1 & S1 & W2 & S2).
  destruct (after_move_shape K hx h' A n k1 k2 i e cks j y x k N D' S') as (c1 & c2 & -> & N' & Pm & Am); auto.
  { intros t. rewrite Lk. symmetry. apply Tw. }
  { rewrite Tl. intros t Ht. destruct (Nm t Ht) as (Y1 & Y2 & _). destruct (Tw t) as (_ & Z1 & _ & Z2 & _). split; congruence. }
  { rewrite Tl. intros t Y1 Y2 Ht. destruct (Rm t Y1 Y2 Ht) as (Z1 & Z2). destruct (Tw t) as (_ & T1 & T2 & _ & _ & T3).
    split; [rewrite T3; auto|]. rewrite T1, T2. auto. }
  exists h', c1, c2, (upd2 K A n e y x). cbn zeta. auto 10.
Qed.
End Moved.

Section MoveRun.
Variable K : StarRing.
Implicit Types h : heap K.
Variable T : Type.
Variable sys : system K T.
Variable fuel : nat.
Notation hl := (h_list K T sys).
Notation state := (state K).
Notation sheap := (sheap K).
Notation sroot := (sroot K).
Notation senv := (senv K).
Notation env_ok := (env_ok K T sys).
Notation ready := (ready K T sys fuel).
Notation good := (good K T sys fuel).

(** ** Operations as functions on heaps *)
Lemma calls_near t cache : forall cs s l s', foreach K T (do_call K T sys fuel t cache) cs s = (l, Ok s') -> near K t s s'.
Proof.
  induction cs as [|c cs IH]; intros s l s' E; cbn [foreach] in E; [injection E as _ <-; apply near_refl|].
  unfold andthen in E. destruct (do_call K T sys fuel t cache c s) as (l1, [s1|e]) eqn:E1; [|discriminate].
  destruct (foreach K T (do_call K T sys fuel t cache) cs s1) as (l2, r2) eqn:E2. injection E as _ ->.
  eapply near_trans; [eapply call_near; eauto|eauto].
Qed.
Lemma op_near op t s l s' : run_op K T sys fuel op t s = (l, Ok s') -> near K t (mkState K (sheap s) (sroot s') (senv s)) s'.
Proof.
  destruct op as [(cache, cs)|]; cbn [run_op].
  - unfold split_prop. destruct (negb _); [discriminate|]. intros E. pose proof (calls_near _ _ _ _ _ _ E) as N. pose proof N as (_ & Er & _).
    cbn [Cache_Model.sroot] in Er. rewrite Er. exact N.
  - intros X. injection X as _ <-. apply near_core; auto. apply core_refl.
Qed.
Definition as_operator (op : option (bool * list (call K T))) (s : state) : heap K -> id -> res (id * heap K) :=
  fun hx m => if oleaf (hget hx m) then Ok (m, hx) else
    match run_op K T sys fuel op m (with_heap K s hx) with (_, Ok s') => Ok (m, sheap s') | _ => Ok (m, hx) end.
Lemma near_edits t s s' : oleaf (hget (sheap s) t) = false -> near K t s s' -> edits (sheap s) t (sheap s').
Proof.
  intros Lf (L & _ & Q & At & B). split; auto. split; [|split].
  - intros x. destruct (At x) as (P1 & P2 & P3 & P4 & P5). auto.
  - intros x Hx Lx. apply Q; auto.
  - intros a E W. eapply B; eauto.
Qed.
Lemma edits_refl h n : edits h n h.
Proof. split; auto. split; auto. split; auto. intros a E W. eauto. Qed.
Lemma as_operator_lawful op s : lawful K (as_operator op s).
Proof.
  intros hA mid. unfold as_operator. destruct (oleaf (hget hA mid)) eqn:L; [exists hA; split; auto; apply edits_refl|].
  destruct (run_op K T sys fuel op mid (with_heap K s hA)) as (l, [s'|e]) eqn:E; [|exists hA; split; auto; apply edits_refl].
  exists (sheap s'). split; auto. apply op_near in E. apply near_edits in E; auto.
Qed.

(** ** Heaps grow *)
Lemma link_length h a i b j : length (link h a i b j) = length h.
Proof. unfold link. rewrite !length_modify. auto. Qed.
Lemma linkM_length l : forall h, length (linkM h l) = length h.
Proof. induction l as [|(((s, i), t), j) l IH]; intros h; cbn [linkM]; auto. rewrite IH. apply link_length. Qed.
Lemma unlink_length h a i b j h' : unlink h a i b j = Ok h' -> length h' = length h.
Proof.
  unfold unlink, unlink_run. destruct (bind (dindex (oacc (hget h a)) i) _) as [[]|]; try discriminate.
  destruct (dpop (oacc (hget h a)) i) as [d|]; [|discriminate]. cbv zeta. destruct (dpop _ j) as [d'|]; [|discriminate].
  intros X. injection X as <-. rewrite !length_modify. auto.
Qed.
Lemma unlinkM_length l : forall h h', unlinkM h l = Ok h' -> length h' = length h.
Proof.
  induction l as [|(((s, i), t), j) l IH]; intros h h' E; cbn [unlinkM] in E; [injection E as <-; auto|].
  destruct (unlink h s i t j) as [h1|] eqn:E1; [|discriminate]. cbn [bind] in E. apply IH in E. apply unlink_length in E1. congruence.
Qed.
Lemma unite_grows h n i rt nz x h' : unite h n i rt nz = Ok (x, h') -> length h <= length h'.
Proof.
  unfold unite. destruct (dindex _ i) as [(e, j)|]; [|discriminate]. cbn [bind].
  destruct (negb (is_none _) && negb (is_none _)); [discriminate|]. destruct (oarr (hget h n)) as [a1|]; [|discriminate].
  destruct (oarr (hget h e)) as [a2|]; [|discriminate]. destruct (negb _); [discriminate|].
  destruct (partial_product a1 i (Some a2) j) as [a|]; [|discriminate]. cbn [bind].
  destruct (unite_name _ _) as [nm|]; [|discriminate]. cbn [bind].
  set (q := match rt with None => _ | Some r => _ end). destruct q as (r, h1) eqn:Eq.
  assert (L : length h <= length h1).
  { unfold q in Eq. destruct rt; injection Eq as _ <-; rewrite ?length_modify, ?app_length; lia. }
  clear q Eq. destruct (unlink h1 n i e j) as [h2|] eqn:E2; [|discriminate]. cbn [bind]. apply unlink_length in E2.
  destruct (unlinkM h2 _) as [h3|] eqn:E3; [|discriminate]. cbn [bind]. apply unlinkM_length in E3. intros X. injection X as _ <-.
  rewrite linkM_length. lia.
Qed.
Lemma split_grows csvd h n ax ind rt ch nz x y h' : split csvd h n ax ind rt ch nz = Ok (x, y, h') -> length h <= length h'.
Proof.
  unfold split. destruct (negb (is_none _)); [discriminate|]. set (axes1 := match ax with AxInt i => [i] | AxList l => nsort l end).
  destruct (match ind with Some p => p | None => _ end) as (i1, i2). destruct (oarr (hget h n)) as [a|]; [|discriminate].
  destruct (negb (forallb _ _)); [discriminate|]. destruct (oname (hget h n)) as [nm|]; [|discriminate]. destruct (negb _); [discriminate|].
  destruct (move_front a 0 axes1) as [a1|]; [|discriminate]. cbn [bind]. destruct (reshape a1 _) as [a2|]; [|discriminate]. cbn [bind].
  destruct (csvd a2) as [((u, s), vh)|]; [|discriminate]. cbn [bind]. destruct (matmul u s) as [us|]; [|discriminate]. cbn [bind].
  destruct (reshape_infer us _ _) as [ra|]; [|discriminate]. cbn [bind]. destruct (moveaxis ra _ _) as [ra'|]; [|discriminate]. cbn [bind].
  destruct (reshape_infer vh _ _) as [ca|]; [|discriminate]. cbn [bind]. destruct (moveaxis ca _ _) as [ca'|]; [|discriminate]. cbn [bind].
  set (q := match rt with None => _ | Some r => _ end). destruct q as (r, h1) eqn:Eq.
  assert (L : length h <= length h1).
  { unfold q in Eq. destruct rt; injection Eq as _ <-; rewrite ?length_modify, ?app_length; lia. }
  clear q Eq. set (q := match ch with None => _ | Some r => _ end). destruct q as (c, h2) eqn:Eq.
  assert (L2 : length h1 <= length h2).
  { unfold q in Eq. destruct ch; injection Eq as _ <-; rewrite ?length_modify, ?app_length; lia. }
  clear q Eq. destruct (unlinkM h2 _) as [h3|] eqn:E3; [|discriminate]. cbn [bind]. apply unlinkM_length in E3. intros X. injection X as _ _ <-.
  rewrite linkM_length, link_length. lia.
Qed.

(** ** Removing entries *)
Lemma fold_keep {A B} (P : A -> Prop) (f : A -> B -> A) l : forall a, P a -> (forall a x, P a -> P (f a x)) -> P (fold_left f l a).
Proof. induction l; cbn; auto. Qed.
Lemma fold_hit {A B} (P : A -> Prop) (f : A -> B -> A) x l : forall a, In x l -> (forall a, P (f a x)) -> (forall a x, P a -> P (f a x)) -> P (fold_left f l a).
Proof.
  induction l as [|y l IH]; intros a H H1 H2; [destruct H|]. cbn. destruct H as [->|H]; [apply fold_keep; auto|auto].
Qed.
Lemma env_del_sub e n t i n' t' i' v : env_del K e n t i n' t' i' = Some v -> e n' t' i' = Some v.
Proof. unfold env_del. destruct (same_key _ _ _ _ _ _); [discriminate|auto]. Qed.
Lemma env_del_none e n t i n' t' i' : e n' t' i' = None -> env_del K e n t i n' t' i' = None.
Proof. unfold env_del. destruct (same_key _ _ _ _ _ _); auto. Qed.
Lemma env_del_same e n t i : env_del K e n t i n t i = None.
Proof. unfold env_del. rewrite (proj2 (same_key_eq n t i n t i)); auto. Qed.
Lemma remove_sub ts s n t j v : senv (remove_env K T sys ts s) n t j = Some v -> senv s n t j = Some v.
Proof.
  unfold remove_env. cbn [with_env Cache_Model.senv].
  apply (fold_keep (fun e : envs K => e n t j = Some v -> senv s n t j = Some v)); auto. intros e n' H1.
  apply (fold_keep (fun e : envs K => e n t j = Some v -> senv s n t j = Some v)); auto. intros e2 t' H2.
  apply (fold_keep (fun e : envs K => e n t j = Some v -> senv s n t j = Some v)); auto. intros e3 x H3 E. apply H3. eapply env_del_sub; eauto.
Qed.
Lemma remove_hit ts s n t j : n < length hl -> In t ts -> In j (map fst (oacc (hget (sheap s) t))) -> senv (remove_env K T sys ts s) n t j = None.
Proof.
  intros Hn Ht Hj. unfold remove_env. cbn [with_env Cache_Model.senv].
  apply (fold_hit (fun e : envs K => e n t j = None)) with (x := n); [apply in_seq; lia| |].
  - intros e. apply (fold_hit (fun e : envs K => e n t j = None)) with (x := t); auto.
    + intros e2. apply in_map_iff in Hj. destruct Hj as (x & <- & Hx).
      apply (fold_hit (fun e : envs K => e n t (fst x) = None)) with (x := (fst x, fst (snd x), snd (snd x))).
      * unfold linkages. apply in_map_iff. exists x. auto.
      * intros e3. cbn [fst]. apply env_del_same.
      * intros e3 y H. apply env_del_none. auto.
    + intros e2 t' H. apply fold_keep; auto. intros e3 y H3. apply env_del_none. auto.
  - intros e n' H. apply fold_keep; auto. intros e2 t' H2. apply fold_keep; auto. intros e3 y H3. apply env_del_none. auto.
Qed.
Lemma remove_heap ts s : sheap (remove_env K T sys ts s) = sheap s /\ sroot (remove_env K T sys ts s) = sroot s.
Proof. auto. Qed.

(** ** Entries that survive *)
Definition alike h h' (x : id) : Prop := x < length h /\ x < length h' /\ oleaf (hget h' x) = oleaf (hget h x) /\
  oaxis (hget h' x) = oaxis (hget h x) /\ onorm (hget h' x) = onorm (hget h x) /\ (oleaf (hget h x) = false -> oarr (hget h' x) = oarr (hget h x)).
Lemma env_transfer R R' h h' e e' : env_ok R h e ->
  (forall n t j u i v, n < length hl -> edge_in R' t j u i -> e' n t j = Some v ->
     e n t j = Some v /\ edge_in R t j u i /\ forall x, In x (ids u) -> alike h h' x) -> env_ok R' h' e'.
Proof.
  intros O H n term Ht t j u i v Ed Ev. assert (Hn : n < length hl) by (apply nth_error_Some; congruence).
  destruct (H n t j u i v Hn Ed Ev) as (Ev' & Ed' & Al). rewrite <- (O n term Ht t j u i v Ed' Ev'). apply tenv_local.
  intros x Hx. destruct (Al x Hx) as (L1 & L2 & E1 & E2 & E3 & E4). rewrite !dressed_get by auto. rewrite E1.
  destruct (oleaf (hget h x)) eqn:Lf; cbn; repeat split; auto; discriminate.
Qed.

(** Links below the two tensors of a move. *)
Definition deep (ks : list (nat * tree * nat)) t j u i : Prop := exists k, In k ks /\ edge_in (k_t k) t j u i.
Lemma deep_up n ks t j u i : deep ks t j u i -> edge_in (Nd n ks) t j u i.
Proof. intros (k & Hk & E). eapply edge_deep; eauto. Qed.
Lemma deep_in ks ks' t j u i : incl ks ks' -> deep ks t j u i -> deep ks' t j u i.
Proof. intros I (k & Hk & E). exists k. auto. Qed.
Lemma edge_cases n ks t j u i : edge_in (Nd n ks) t j u i -> (t = n /\ In j (map k_i ks)) \/ deep ks t j u i.
Proof.
  intros E. inversion E as [? ? ? ? ? H|? ? k ? ? ? ? H E']; subst.
  - left. split; auto. apply in_map_iff. exists (j, u, i). auto.
  - right. exists k. auto.
Qed.
Lemma deep_avoid n ks k1 k2 i e cks j t p u q x : NoDup (ids (Nd n ks)) -> ks = k1 ++ (i, Nd e cks, j) :: k2 -> deep (k1 ++ k2 ++ cks) t p u q -> In x (ids u) ->
  x <> n /\ x <> e /\ In x (ids (Nd n ks)).
Proof.
  intros D -> (k & Hk & E) Hx. apply (proj1 (edge_ids _ _ _ _ _ E)) in Hx.
  assert (P : Permutation (ids (Nd n (k1 ++ (i, Nd e cks, j) :: k2))) (n :: e :: flat_map (fun k => ids (k_t k)) (k1 ++ k2 ++ cks))).
  { cbn [ids]. apply perm_skip. rewrite !flat_map_app. cbn [flat_map k_t fst snd ids app]. rewrite <- Permutation_middle. apply perm_skip.
    apply Permutation_app_head. apply Permutation_app_comm. }
  assert (Hin : In x (flat_map (fun k => ids (k_t k)) (k1 ++ k2 ++ cks))) by (apply in_flat_map; eauto).
  pose proof (Permutation_NoDup P D) as D'. inversion D' as [|? ? N1 D2]; subst. inversion D2 as [|? ? N2 _]; subst.
  split; [intros ->; apply N1; right; auto|]. split; [intros ->; auto|].
  eapply Permutation_in; [symmetry; exact P|]. right. right. auto.
Qed.
Lemma attrs_alike h h' x : x < length h -> x < length h' -> attrs (hget h x) (hget h' x) -> alike h h' x.
Proof.
  intros L L' A. unfold attrs, put_acc in A. destruct (hget h x) eqn:E1, (hget h' x) eqn:E2. injection A as -> -> -> -> -> -> ->.
  unfold alike. rewrite E1, E2. cbn. auto 10.
Qed.
Lemma alike_trans h1 h2 h3 x : alike h1 h2 x -> alike h2 h3 x -> alike h1 h3 x.
Proof.
  intros (A1 & A2 & A3 & A4 & A5 & A6) (B1 & B2 & B3 & B4 & B5 & B6). repeat split; auto; try congruence.
  intros L. rewrite B6, A6; auto. congruence.
Qed.
Lemma alike_sym h h' x : alike h h' x -> alike h' h x.
Proof. intros (A1 & A2 & A3 & A4 & A5 & A6). repeat split; auto. intros L. symmetry. apply A6. congruence. Qed.
Lemma edits_alike h n h' x : x < length h -> x <> n -> edits h n h' -> alike h h' x.
Proof.
  intros L Hx (E1 & E2 & E3 & _). destruct (E2 x) as (_ & _ & P1 & P2 & P3). repeat split; auto; lia.
Qed.

(** ** The network of a state *)
Lemma fits_shape (A A' : id -> arr K) : forall t ax d, (forall x, In x (nids t) -> wf (A' x) /\ shape (A' x) = shape (A x)) -> fits A ax d t -> fits A' ax d t.
Proof.
  induction t as [n|n ks IH] using tree_ind'; intros ax d H F; [inversion F; subst; constructor; auto|].
  inversion F as [|? ? ? ? W P X I F2]; subst. destruct (H n) as (W' & S'); [left; auto|].
  assert (N' : ndim (A' n) = ndim (A n)) by (unfold ndim; congruence).
  constructor; auto; try (rewrite S'; auto); try (rewrite N'; auto).
  assert (G : forall k, In k ks -> forall x, In x (nids (k_t k)) -> wf (A' x) /\ shape (A' x) = shape (A x)).
  { intros k Hk x Hx. apply H. right. apply in_flat_map. eauto. }
  clear -IH F2 G. induction F2 as [|k m ks ms Hk F2 IH2]; constructor.
  - inversion IH; subst. apply H1; auto. apply G. left. auto.
  - inversion IH; subst. apply IH2; auto. intros k' Hk'. apply G. right. auto.
Qed.
Lemma oriented_on h h' : forall t ax, (forall x, oaxis (hget h' x) = oaxis (hget h x)) -> oriented h ax t -> oriented h' ax t.
Proof.
  induction t as [n|n ks IH] using tree_ind'; intros ax H O; [constructor|]. inversion O as [|? ? ? E F]; subst. constructor; auto.
  rewrite Forall_forall in *. auto.
Qed.
Lemma Forall2_in_l {X Y} (P : X -> Y -> Prop) l m x : Forall2 P l m -> In x l -> exists y, In y m /\ P x y.
Proof.
  induction 1 as [|a b l m Hab F IH]; intros H; [destruct H|]. destruct H as [<-|H]; [exists b; split; auto; left; auto|].
  destruct (IH H) as (y & Hy & Py). exists y. split; auto. right. auto.
Qed.
Lemma network_near R A t s s' : network (sheap s) R A -> near K t s s' -> In t (nids R) -> exists A', network (sheap s') R A'.
Proof.
  intros (D & Sy & NS & H & Or & Ft & Ar) (L & _ & Q & At & B) Ht.
  assert (Ac : forall x, oacc (hget (sheap s') x) = oacc (hget (sheap s) x)) by (intros x; apply At).
  assert (AR : forall x, In x (nids R) -> exists a', oarr (hget (sheap s') x) = Some a' /\ wf a' /\ shape a' = shape (A x)).
  { intros x Hx. destruct (Ar x Hx) as (Ea & _). pose proof (nids_inner K _ _ _ H x Hx) as Lx.
    assert (Wx : wf (A x)).
    { clear -Ft Hx. revert Ft Hx. generalize (@None nat), 0. induction R as [y|y ks IH] using tree_ind'; intros ax d Ft Hx; [destruct Hx|].
      inversion Ft as [|? ? ? ? W P X I F2]; subst. destruct Hx as [<-|Hx]; auto. apply in_flat_map in Hx. destruct Hx as (k & Hk & Hx).
      rewrite Forall_forall in IH. destruct (Forall2_in_l _ _ _ _ F2 Hk) as (m & _ & Fm). eapply IH; eauto. }
    destruct (Nat.eq_dec x t) as [->|Hn].
    - destruct (B Lx (A t) Ea Wx) as (a' & E' & W' & S'). eauto.
    - destruct (Q x Hn) as (_ & _ & _ & _ & _ & P). exists (A x). rewrite P; auto. }
  exists (fun x => match oarr (hget (sheap s') x) with Some a => a | None => A x end).
  split; [intros x; rewrite Ac; apply D|]. split; [intros a i b j X; unfold points in *; rewrite Ac in *; apply Sy; auto|].
  split; [intros x i; rewrite Ac; apply NS|].
  split; [apply (hangs_on K (sheap s)); auto; intros x _; destruct (At x) as (_ & -> & _ & _ & ->); auto|].
  split; [apply (oriented_on (sheap s)); auto; intros x; apply At|]. split.
  - apply (fits_shape A); auto. intros x Hx. destruct (AR x Hx) as (a' & -> & W & S'). auto.
  - intros x Hx. destruct (AR x Hx) as (a' & -> & _). split; auto. destruct (At x) as (-> & _). apply Ar. auto.
Qed.

Lemma network_top R A h : network h R A -> exists ks, R = Nd (top R) ks /\ map k_i ks = seq 0 (length ks).
Proof.
  intros (_ & _ & _ & H & _ & Ft & _). destruct R as [x|x ks]; [inversion H|]. exists ks. split; auto.
  inversion Ft as [|? ? ? ? W P X I F2]; subst. cbn [others] in I, F2.
  assert (E : length (map k_i ks) = length (seq 0 (ndim (A x)))) by congruence. rewrite map_length, seq_length in E. rewrite E. auto.
Qed.

Definition steady (s : state) : Prop := exists R A, network (sheap s) R A /\ ready R s /\ S (length (ids R)) <= fuel.

Lemma steady_near s s' R A : network (sheap s) R A -> S (length (ids R)) <= fuel -> top R = sroot s -> near K (sroot s) s s' -> ready R s' -> steady s'.
Proof.
  intros N Hf Et Nr Rd. destruct (network_near R A (sroot s) s s' N Nr) as (A' & N').
  - destruct N as (_ & _ & _ & H & _). destruct R; [inversion H|]. cbn in *. left. auto.
  - exists R, A'. auto.
Qed.

(** ** One move *)
Section OneMove.
Variables (s : state) (A : id -> arr K) (n : id) (k1 k2 cks : list (nat * tree * nat)) (i : nat) (e : id) (j : nat).
Let R := Nd n (k1 ++ (i, Nd e cks, j) :: k2).
Let w := length (sheap s).
(** [hx] is the heap of the state, with the axes as they are if [n] is the root; the stored
    environments belong to the tree [Rr]. *)
Variables (hx : heap K) (Rr : tree).
Hypothesis Net : network hx R A.
Hypothesis Tw : twins K n e hx (sheap s).
Hypothesis Rd : ready Rr s.
Hypothesis Sub : forall t p u q, deep (k1 ++ k2 ++ cks) t p u q -> edge_in Rr t p u q.
Hypothesis Fu : S (length (ids R)) <= fuel.
Let s1 := remove_env K T sys [n; e] s.

Lemma mv_shaped : shaped (sheap s) R A. Proof. eapply twins_shaped; eauto. Qed.
Lemma mv_hangs : hangs (sheap s) None R. Proof. apply mv_shaped. Qed.
Lemma mv_nodup : NoDup (ids R).
Proof. eapply hangs_nodup; [|apply mv_hangs]. apply mv_shaped. Qed.
Lemma mv_gone t p u q n0 : n0 < length hl -> edge_in R t p u q -> t = n \/ t = e -> senv s1 n0 t p = None.
Proof.
  intros Hn Ed Ht. apply remove_hit; auto; [destruct Ht as [->| ->]; cbn; auto|].
  destruct (edge_down_acc K (sheap s) R t p u q Ed None mv_hangs) as (Hin & _). apply in_map_iff. exists (p, (top u, q)). auto.
Qed.
Lemma mv_deep t p u q : deep (k1 ++ k2 ++ cks) t p u q -> edge_in R t p u q.
Proof.
  intros (k & Hk & E). rewrite !in_app_iff in Hk. unfold R. destruct Hk as [Hk|[Hk|Hk]].
  - eapply edge_deep; eauto. apply in_app_iff. auto.
  - eapply edge_deep; eauto. apply in_app_iff. right. right. auto.
  - eapply (edge_deep n _ (i, Nd e cks, j)); [apply in_app_iff; right; left; auto|]. cbn. eapply edge_deep; eauto.
Qed.
Lemma mv_kid_n k : In k (k1 ++ k2) -> edge_in R n (k_i k) (k_t k) (k_j k).
Proof. intros Hk. apply edge_kid. apply in_app_iff in Hk. apply in_app_iff. cbn. tauto. Qed.
Lemma mv_kid_e k : In k cks -> edge_in R e (k_i k) (k_t k) (k_j k).
Proof.
  intros Hk. eapply (edge_deep n _ (i, Nd e cks, j)); [apply in_app_iff; right; left; auto|]. cbn. apply edge_kid. auto.
Qed.

Section Mid.
Variables (hA : heap K) (kk : list (nat * tree * nat)).
Let Rm := Nd w kk.
Hypothesis HA : hangs hA None Rm.
Hypothesis Nk : map k_i kk = seq 0 (length kk).
Hypothesis DA : NoDup (ids Rm).
Hypothesis LA : length (ids Rm) <= S (length (ids R)).
Hypothesis GA : length (sheap s) <= length hA.
Hypothesis AA : forall x, In x (ids R) -> x <> n -> x <> e -> attrs (hget (sheap s) x) (hget hA x).
Hypothesis E1 : forall t p u q, edge_in Rm t p u q -> t = w \/ ((t = n \/ t = e) /\ edge_in R t p u q) \/ deep (k1 ++ k2 ++ cks) t p u q.
Hypothesis E2 : forall t p u q, deep (k1 ++ k2 ++ cks) t p u q -> edge_in Rm t p u q.

Lemma mid_ready : ready Rm (mkState K hA w (senv s1)).
Proof.
  constructor; cbn [Cache_Model.sheap Cache_Model.sroot Cache_Model.senv]; auto.
  - exists kk. auto.
  - lia.
  - apply (env_transfer Rr Rm (sheap s) hA (senv s)); [apply Rd|]. intros n0 t p u q v Hn Ed Ev.
    destruct (E1 t p u q Ed) as [->|[(Ht & Ed')|Dp]].
    + apply remove_sub in Ev. apply (rd_keys K T sys fuel Rr s Rd) in Ev. unfold w in Ev. lia.
    + rewrite (mv_gone t p u q n0 Hn Ed' Ht) in Ev. discriminate.
    + apply remove_sub in Ev. split; auto. split; [apply Sub; auto|]. intros x Hx.
      destruct (deep_avoid n _ k1 k2 i e cks j t p u q x mv_nodup eq_refl Dp Hx) as (X1 & X2 & X3).
      pose proof (hangs_lt K _ _ _ mv_hangs x X3). apply attrs_alike; auto; lia.
  - intros n0 t p v Ev. cbn [Cache_Model.sheap Cache_Model.senv] in *. apply remove_sub in Ev. apply (rd_keys K T sys fuel Rr s Rd) in Ev. lia.
Qed.
Lemma mid_op op l r : run_op K T sys fuel op w (with_heap K s1 hA) = (l, r) ->
  good l /\ forall s2, r = Ok s2 -> env_ok Rm (sheap s2) (senv s2) /\ keyed K s2 /\ edits hA w (sheap s2) /\
    as_operator op s1 hA w = Ok (w, sheap s2).
Proof.
  intros E. assert (Lw : oleaf (hget hA w) = false) by (inversion HA; auto).
  assert (C : forall s2, r = Ok s2 -> edits hA w (sheap s2) /\ as_operator op s1 hA w = Ok (w, sheap s2)).
  { intros s2 ->. split; [|unfold as_operator; rewrite Lw, E; auto]. apply op_near in E. apply near_edits in E; auto. }
  destruct op as [(cache, cs)|]; cbn [run_op] in E.
  - destruct (prop_ready K T sys fuel Rm (with_heap K s1 hA) w cache cs l r mid_ready E) as (G & X). split; auto.
    intros s2 Er. destruct (X s2 Er) as (Rd2 & _). split; [apply Rd2|]. split; [apply Rd2|apply C; auto].
  - injection E as <- <-. split; [apply good_nil|]. intros s2 Er. specialize (C s2 Er). injection Er as <-.
    split; [apply mid_ready|]. split; [|auto]. exact (rd_keys K T sys fuel Rm _ mid_ready).
Qed.

Lemma mid_done s2 h' c1 c2 A' : env_ok Rm (sheap s2) (senv s2) -> keyed K s2 -> edits hA w (sheap s2) ->
  cks = c1 ++ c2 -> network h' (Nd e (c1 ++ (j, Nd n (k1 ++ k2), i) :: c2)) A' ->
  (forall t, t <> w -> oname (hget h' t) = oname (hget (sheap s) t) /\ oleaf (hget h' t) = oleaf (hget (sheap s) t) /\ onorm (hget h' t) = onorm (hget (sheap s) t)) ->
  (forall t, t <> n -> t <> e -> t <> w -> oaxis (hget h' t) = oaxis (hget (sheap s) t) /\ (oleaf (hget (sheap s) t) = false -> oarr (hget h' t) = oarr (hget (sheap s) t))) ->
  Permutation (ids R) (ids (Nd e (c1 ++ (j, Nd n (k1 ++ k2), i) :: c2))) -> length (sheap s2) <= length h' ->
  steady (remove_env K T sys [n; w; e] (mkState K h' e (senv s2))).
Proof.
  intros EO Ky Ed Ec N' Nm Rm' Pm Gr. set (R' := Nd e (c1 ++ (j, Nd n (k1 ++ k2), i) :: c2)) in *.
  assert (L2 : length (sheap s2) = length hA) by apply Ed. pose proof N' as (_ & _ & NS & H' & _).
  exists R', A'. split; [exact N'|]. split; [|rewrite <- (Permutation_length Pm); auto].
  constructor.
  - destruct (network_top R' A' h' N') as (ks & X1 & X2). exists ks. auto.
  - exact H'.
  - eapply hangs_nodup; eauto.
  - rewrite <- (Permutation_length Pm). lia.
  - apply (env_transfer Rm R' (sheap s2) h' (senv s2)); auto. intros n0 t p u q v Hn Ed' Ev.
    assert (Dp : deep (k1 ++ k2 ++ cks) t p u q).
    { assert (G : t = n \/ t = e -> False).
      { intros Ht. rewrite remove_hit in Ev; auto; [discriminate|cbn; destruct Ht as [->| ->]; auto|].
        destruct (edge_down_acc K h' R' t p u q Ed' None H') as (Hin & _). apply in_map_iff. exists (p, (top u, q)). auto. }
      unfold R' in Ed'. apply edge_cases in Ed'. destruct Ed' as [(-> & _)|(k & Hk & Ek)]; [exfalso; auto|].
      apply in_app_iff in Hk. destruct Hk as [Hk|[<-|Hk]].
      - exists k. split; auto. rewrite Ec. rewrite !in_app_iff. auto.
      - cbn in Ek. apply edge_cases in Ek. destruct Ek as [(-> & _)|Dk]; [exfalso; auto|]. eapply deep_in; [|exact Dk].
        intros y. rewrite !in_app_iff. tauto.
      - exists k. split; auto. rewrite Ec. rewrite !in_app_iff. auto. }
    split; [exact (remove_sub _ _ _ _ _ _ Ev)|]. split; auto. intros x Hx.
    destruct (deep_avoid n _ k1 k2 i e cks j t p u q x mv_nodup eq_refl Dp Hx) as (X1 & X2 & X3).
    pose proof (hangs_lt K _ _ _ mv_hangs x X3) as Lx. assert (Xw : x <> w) by (unfold w; lia).
    apply (alike_trans _ hA); [apply alike_sym, (edits_alike hA w); auto; lia|].
    apply (alike_trans _ (sheap s)); [apply alike_sym, attrs_alike; auto; lia|].
    destruct (Nm x Xw) as (_ & Y1 & Y2). destruct (Rm' x X1 X2 Xw) as (Y3 & Y4). repeat split; auto; lia.
  - intros n0 t p v Ev. apply remove_sub in Ev. cbn [Cache_Model.senv] in Ev. apply Ky in Ev. cbn. lia.
Qed.
End Mid.

Lemma mv_perm : Permutation (ids R) (n :: e :: flat_map (fun k => ids (k_t k)) (k1 ++ k2 ++ cks)).
Proof.
  unfold R. cbn [ids]. apply perm_skip. rewrite !flat_map_app. cbn [flat_map k_t fst snd ids app]. rewrite <- Permutation_middle. apply perm_skip.
  apply Permutation_app_head. apply Permutation_app_comm.
Qed.
Lemma mv_w x : In x (ids R) -> x <> w.
Proof. intros Hx. pose proof (hangs_lt K _ _ _ mv_hangs x Hx). unfold w. lia. Qed.
Lemma mv_dindex : dindex (oacc (hget (sheap s) n)) i = Ok (e, j).
Proof.
  pose proof mv_shaped as (D & _). assert (P : points (sheap s) n i e j).
  { assert (Ed : edge_in R n i (Nd e cks) j) by (unfold R; constructor; apply in_app_iff; right; left; auto).
    apply (edge_down_acc K (sheap s) R n i (Nd e cks) j Ed None mv_hangs). }
  apply (points_get K (sheap s) n i e j D) in P. unfold dindex. rewrite P. auto.
Qed.
Lemma mv_fit csvd : some_svd csvd -> fitting K csvd (A n) [i].
Proof.
  intros Sv. pose proof mv_shaped as N. unfold R in N. destruct (shaped_joint K (sheap s) A n k1 k2 i e cks j N) as (nn & ne & d1 & d2 & Ed & J & Li & Lj & Hi & Hj & _).
  pose proof J as (_ & _ & Sn & _). apply (some_fitting K csvd Sv); [apply Sn|constructor; auto].
Qed.

Lemma split_op_ready csvd op l r : network (sheap s) R A -> some_svd csvd -> split_unite_op K T sys fuel csvd n i op s1 = (l, r) ->
  good l /\ forall s', r = Ok s' -> steady s' /\ sroot s' = e /\ shifted K (sheap s) R n i e (sheap s').
Proof.
  intros Nt Sv E. unfold split_unite_op in E. change (sheap s1) with (sheap s) in E. rewrite mv_dindex in E. cbv zeta in E.
  set (nz := onorm (hget (sheap s) n) && onorm (hget (sheap s) e)) in E.
  destruct (split_mid K csvd (sheap s) A n k1 k2 i e cks j nz Nt (mv_fit csvd Sv)) as (hA & x & Es & HA & _ & Lw & _ & _ & _ & AA).
  fold w in HA, Es, Lw, AA.
  destruct (split_any K csvd Sv (sheap s) A n k1 k2 i e cks j (as_operator op s1) None Nt (as_operator_lawful op s1)) as
    (h' & c1 & c2 & A' & E' & Ec & N' & Gr & Lk & Nm & Rm & Pm).
  unfold split_unite in E'. rewrite mv_dindex in E'. cbn [bind] in E'. fold nz in E'. rewrite Es in E, E'. cbn [bind] in E'.
  set (kk := [(0, Nd n (k1 ++ k2), i); (1, Nd e cks, j)]) in HA.
  assert (Pk : Permutation (ids (Nd w kk)) (w :: ids R)).
  { unfold kk. cbn [ids flat_map k_t fst snd]. apply perm_skip. rewrite mv_perm. rewrite app_nil_r. cbn [app]. apply perm_skip.
    rewrite <- Permutation_middle. apply perm_skip. rewrite !flat_map_app, app_assoc. reflexivity. }
  assert (DA : NoDup (ids (Nd w kk))).
  { eapply Permutation_NoDup; [symmetry; exact Pk|]. constructor; [|apply mv_nodup]. intros X. apply mv_w in X. congruence. }
  assert (LA : length (ids (Nd w kk)) <= S (length (ids R))) by (rewrite (Permutation_length Pk); cbn; lia).
  assert (AA' : forall y, In y (ids R) -> y <> n -> y <> e -> attrs (hget (sheap s) y) (hget hA y)) by (intros y Hy Y1 Y2; apply AA; auto; apply mv_w; auto).
  assert (X1 : forall t p u q, edge_in (Nd w kk) t p u q -> t = w \/ ((t = n \/ t = e) /\ edge_in R t p u q) \/ deep (k1 ++ k2 ++ cks) t p u q).
  { intros t p u q Ed. apply edge_cases in Ed. destruct Ed as [(-> & _)|(k & Hk & Ek)]; auto. right. unfold kk in Hk.
    assert (G : forall y ks, (y = n \/ y = e) -> incl ks (k1 ++ k2 ++ cks) -> (forall k, In k ks -> edge_in R y (k_i k) (k_t k) (k_j k)) ->
      edge_in (Nd y ks) t p u q -> ((t = n \/ t = e) /\ edge_in R t p u q) \/ deep (k1 ++ k2 ++ cks) t p u q).
    { intros y ks Hy I Q Z. inversion Z as [? ? ? ? ? H|? ? k' ? ? ? ? H Z']; subst; [left; split; auto; apply (Q _ H)|].
      right. exists k'. auto. }
    destruct Hk as [<-|[<-|[]]]; cbn [k_t fst snd] in Ek.
    - eapply (G n); [auto| |apply mv_kid_n|exact Ek]. intros y Hy. rewrite app_assoc. apply in_app_iff. auto.
    - eapply (G e); [auto| |apply mv_kid_e|exact Ek]. intros y Hy. apply in_app_iff. right. apply in_app_iff. auto. }
  assert (X2 : forall t p u q, deep (k1 ++ k2 ++ cks) t p u q -> edge_in (Nd w kk) t p u q).
  { intros t p u q (k & Hk & Ek). rewrite app_assoc in Hk. apply in_app_iff in Hk. destruct Hk as [Hk|Hk].
    - eapply (edge_deep w kk (0, Nd n (k1 ++ k2), i)); [left; auto|]. eapply edge_deep; eauto.
    - eapply (edge_deep w kk (1, Nd e cks, j)); [right; left; auto|]. eapply edge_deep; eauto. }
  assert (GA : length (sheap s) <= length hA) by (unfold w in Lw; lia).
  unfold andthen in E. destruct (run_op K T sys fuel op w (with_heap K s1 hA)) as (l1, r1) eqn:Er.
  destruct (mid_op hA kk HA eq_refl DA LA GA AA' X1 op l1 r1 Er) as (G1 & G2).
  destruct r1 as [s2|x1]; [|injection E as <- <-; split; auto; discriminate].
  destruct (G2 s2 eq_refl) as (EO & Ky & Edt & Eop). rewrite Eop in E'. cbn [bind] in E'.
  destruct (unite (sheap s2) e j (Some e) nz) as [(y, h2)|] eqn:Eu; [|discriminate]. cbn [bind] in E'. injection E' as ->.
  injection E as <- <-. rewrite app_nil_r. split; auto. intros s' X. injection X as <-. apply unite_grows in Eu.
  split; [apply (mid_done hA kk LA GA AA' X2 s2 h' c1 c2 A'); auto|]. split; auto. apply (shifted_of K (sheap s) R n i e j k1 k2 c1 c2 A'); auto.
Qed.

Lemma unite_op_ready csvd op l r : (oaxis (hget (sheap s) n) = None \/ oaxis (hget (sheap s) e) = None) -> some_svd csvd -> unite_split_op K T sys fuel csvd n i op s1 = (l, r) ->
  good l /\ forall s', r = Ok s' -> steady s' /\ sroot s' = e /\ shifted K (sheap s) R n i e (sheap s').
Proof.
  intros Ax Sv E. unfold unite_split_op in E. change (sheap s1) with (sheap s) in E. rewrite mv_dindex in E. cbv zeta in E.
  set (nz := onorm (hget (sheap s) n) && onorm (hget (sheap s) e)) in E.
  destruct (unite_mid_any K (sheap s) A n k1 k2 i e cks j nz mv_shaped Ax) as (hA & x & Es & _ & HA & _ & Lw & _ & _ & AA).
  fold w in HA, Es, Lw, AA.
  assert (Hf : height R <= fuel) by (pose proof (size_height R); lia).
  destruct (unite_any K csvd Sv fuel hx (sheap s) A n k1 k2 i e cks j (as_operator op s1) None Net Tw Ax (as_operator_lawful op s1) Hf) as
    (h' & c1 & c2 & A' & E' & Ec & N' & Gr & Lk & Nm & Rm & Pm).
  unfold unite_split in E'. destruct (linkage_visitor fuel (sheap s) n None true false) as [lo|]; [|discriminate]. cbn [bind] in E'.
  rewrite mv_dindex in E'. cbn [bind] in E'. fold nz in E'. rewrite Es in E, E'. cbn [bind] in E'.
  set (kk := renum 0 (k1 ++ cks ++ k2)) in HA.
  assert (Pk : Permutation (flat_map (fun k => ids (k_t k)) kk) (flat_map (fun k => ids (k_t k)) (k1 ++ k2 ++ cks))).
  { unfold kk. rewrite (renum_flat ids), !flat_map_app. apply Permutation_app_head, Permutation_app_comm. }
  pose proof (Permutation_NoDup mv_perm mv_nodup) as DR.
  assert (DA : NoDup (ids (Nd w kk))).
  { cbn [ids]. apply NoDup_cons_iff in DR. destruct DR as (_ & D1). apply NoDup_cons_iff in D1. destruct D1 as (_ & D2). constructor; [|eapply Permutation_NoDup; [symmetry; exact Pk|auto]].
    intros X. apply (Permutation_in _ Pk) in X. apply (mv_w w); auto. eapply Permutation_in; [symmetry; apply mv_perm|]. right. right. auto. }
  assert (LA : length (ids (Nd w kk)) <= S (length (ids R))).
  { rewrite (Permutation_length mv_perm). cbn [ids length]. rewrite (Permutation_length Pk). lia. }
  assert (AA' : forall y, In y (ids R) -> y <> n -> y <> e -> attrs (hget (sheap s) y) (hget hA y)) by (intros y Hy Y1 Y2; apply AA; auto; apply mv_w; auto).
  assert (X1 : forall t p u q, edge_in (Nd w kk) t p u q -> t = w \/ ((t = n \/ t = e) /\ edge_in R t p u q) \/ deep (k1 ++ k2 ++ cks) t p u q).
  { intros t p u q Ed. apply edge_cases in Ed. destruct Ed as [(-> & _)|(k & Hk & Ek)]; auto. right. right. unfold kk in Hk.
    apply renum_in in Hk. destruct Hk as (z & k0 & Hz & ->). apply nth_error_In in Hz. exists k0. split; [rewrite ?in_app_iff in *; tauto|exact Ek]. }
  assert (X2 : forall t p u q, deep (k1 ++ k2 ++ cks) t p u q -> edge_in (Nd w kk) t p u q).
  { intros t p u q (k & Hk & Ek). assert (Hk' : In (k_t k) (map (fun k => k_t k) kk)).
    { unfold kk. rewrite (renum_map (fun t _ => t)). apply in_map_iff. exists k. split; auto. rewrite ?in_app_iff in *. tauto. }
    apply in_map_iff in Hk'. destruct Hk' as (k' & Ek' & Hk'). apply (edge_deep w kk k'); auto. rewrite Ek'. auto. }
  assert (GA : length (sheap s) <= length hA) by (unfold w in Lw; lia).
  assert (Nk : map k_i kk = seq 0 (length kk)) by (unfold kk; rewrite renum_axes, renum_length; auto).
  unfold andthen in E. destruct (run_op K T sys fuel op w (with_heap K s1 hA)) as (l1, r1) eqn:Er.
  destruct (mid_op hA kk HA Nk DA LA GA AA' X1 op l1 r1 Er) as (G1 & G2).
  destruct r1 as [s2|x1]; [|injection E as <- <-; split; auto; discriminate].
  destruct (G2 s2 eq_refl) as (EO & Ky & Edt & Eop). rewrite Eop in E'. cbn [bind] in E'.
  destruct (split csvd (sheap s2) w _ (Some (j, i)) (Some e) (Some n) nz) as [((y, y'), h2)|] eqn:Eu; [|discriminate]. cbn [bind] in E'.
  destruct (linkage_visitor fuel h2 n None true false) as [ln|]; [|discriminate]. cbn [bind] in E'.
  destruct (edges_eqb lo ln); [|discriminate]. injection E' as ->.
  injection E as <- <-. rewrite app_nil_r. split; auto. intros s' X. injection X as <-. apply split_grows in Eu.
  split; [apply (mid_done hA kk LA GA AA' X2 s2 h' c1 c2 A'); auto|]. split; auto. apply (shifted_of K (sheap s) R n i e j k1 k2 c1 c2 A'); auto.
Qed.
End OneMove.

(** The same network seen from a neighbour of the root. *)
Lemma other_end (h : heap K) R A n i e j : network h R A -> top R = e -> dget (oacc (hget h n)) i = Some (e, j) -> oleaf (hget h n) = false ->
  exists k1 k2 c1 c2 A' hx, R = Nd e (c1 ++ (j, Nd n (k1 ++ k2), i) :: c2) /\
    network hx (Nd n (k1 ++ (i, Nd e (c1 ++ c2), j) :: k2)) A' /\ twins K n e hx h /\ (oaxis (hget h n) = None \/ oaxis (hget h e) = None) /\
    Permutation (ids R) (ids (Nd n (k1 ++ (i, Nd e (c1 ++ c2), j) :: k2))).
Proof.
  intros N Et Eg Le. pose proof N as (D & Sy & _ & H & Or & _). apply (points_get K h n i e j D) in Eg. apply Sy in Eg.
  destruct (point_kid K h R A e j n i N Et Eg Le) as (c1 & cks & c2 & ->). pose proof (oriented_kids K h _ _ _ Or) as (Ax & _).
  destruct (network_joint K h A e c1 c2 j n cks i N) as (ne & nn & d1 & d2 & Ed & J & Pn & Pe & Li & Lj & Hi & Hj & _).
  pose proof J as (_ & _ & Se & Sn & Hne & P & Only & Sfn & Sfe & Hd).
  destruct Se as (Lte & Lfe & Nue & Ae & We & Pse & De & Nme). destruct Sn as (Ltn & Lfn & Nun & An & Wn & Psn & Dn & Nmn).
  set (hx := Sweep_Proof.moved K h e j n).
  assert (Get : forall t, exists x, hget hx t = put_axis x (hget h t) /\ (t <> n -> t <> e -> hget hx t = hget h t) /\ (t = n -> x = None) /\ (t = e -> x = Some j)).
  { intros t. unfold hx. rewrite moved_axis by auto. destruct (Nat.eqb_spec t n) as [->|Tn].
    - exists None. rewrite hget_modify_neq by auto. split; auto. split; [tauto|]. split; auto. intros; congruence.
    - destruct (Nat.eqb_spec t e) as [->|Te].
      + exists (Some j). split; auto. split; [tauto|]. split; [tauto|]. auto.
      + exists (oaxis (hget h t)). split; [destruct (hget h t); reflexivity|]. split; auto. split; tauto. }
  assert (Tw : twins K n e hx h).
  { split; [unfold hx, Sweep_Proof.moved; rewrite !length_modify; auto|]. intros t. destruct (Get t) as (x & E & G & _).
    split; [rewrite E; auto|]. split; [rewrite E; auto|]. split; [rewrite E; auto|]. split; [rewrite E; auto|]. split; [rewrite E; auto|].
    intros T1 T2. rewrite G; auto. }
  pose proof Tw as (Tl & Tw'). 
  assert (Acc : forall t, oacc (hget hx t) = oacc (hget h t)) by apply Tw'.
  destruct (after_move_shape K h hx A e c1 c2 j n cks i (A e) (A n) (nth j (shape (A e)) 0) N) as (k1 & k2 & Ek & N' & Pm & _); auto.
  - intros t. rewrite Acc. apply D.
  - intros a i' b j' X. unfold points in *. rewrite Acc in *. apply Sy. auto.
  - intros t _. destruct (Tw' t) as (_ & -> & _ & -> & _). auto.
  - intros t T1 T2 _. destruct (Tw' t) as (_ & _ & -> & _ & _ & T3). auto.
  - destruct (Tw' e) as (_ & _ & -> & _). auto.
  - destruct (Tw' n) as (_ & _ & -> & _). auto.
  - destruct (Get e) as (x & E & _ & _ & X). rewrite E. cbn. auto.
  - destruct (Get n) as (x & E & _ & X & _). rewrite E. cbn. auto.
  - symmetry. apply ins_nth_del. apply nth_error_nth'. exact Hi.
  - rewrite Hd. symmetry. apply ins_nth_del. apply nth_error_nth'. exact Hj.
  - rewrite Forall_forall in Pse. apply Pse, nth_In. exact Hi.
  - exists k1, k2, c1, c2, (upd2 K A e n (A e) (A n)), hx. rewrite <- Ek. auto 10.
Qed.
Lemma other_deep e c1 c2 j n k1 k2 i t p u q : deep (k1 ++ k2 ++ c1 ++ c2) t p u q -> edge_in (Nd e (c1 ++ (j, Nd n (k1 ++ k2), i) :: c2)) t p u q.
Proof.
  intros (k & Hk & E). rewrite !in_app_iff in Hk.
  assert (G : In k (k1 ++ k2) -> edge_in (Nd e (c1 ++ (j, Nd n (k1 ++ k2), i) :: c2)) t p u q).
  { intros X. eapply (edge_deep e _ (j, Nd n (k1 ++ k2), i)); [apply in_app_iff; right; left; auto|]. cbn. eapply edge_deep; eauto. }
  destruct Hk as [Hk|[Hk|[Hk|Hk]]]; [apply G, in_app_iff; auto|apply G, in_app_iff; auto| |]; eapply edge_deep; eauto; apply in_app_iff; cbn; auto.
Qed.

(** ** Programs *)
Section Programs.
Variables csvd1 csvd2 : arr K -> res (arr K * arr K * arr K).
Hypothesis Sv1 : some_svd csvd1.
Hypothesis Sv2 : some_svd csvd2.

Lemma steady_top s R A : network (sheap s) R A -> ready R s -> top R = sroot s.
Proof. intros _ Rd. destruct (rd_top K T sys fuel R s Rd) as (ks & -> & _). auto. Qed.
Lemma form_steady s R A time s' : network (sheap s) R A -> top R = sroot s -> S (length (ids R)) <= fuel ->
  form_env K T sys fuel false time s = Ok s' -> steady s'.
Proof.
  intros N Et Hf E. pose proof N as (_ & _ & NS & H & _). destruct (network_top R A (sheap s) N) as (ks & ER & Ek). rewrite Et in ER.
  assert (Rd : ready R s') by (eapply form_ready; eauto; [eapply hangs_nodup; eauto|lia]).
  apply (steady_near s s' R A); auto. apply form_frame in E. destruct E as (C & Ro & _). apply near_core; auto.
Qed.
Lemma move_steady s R A i e j op uf l r : network (sheap s) R A -> ready R s -> S (length (ids R)) <= fuel ->
  dget (oacc (hget (sheap s) (sroot s))) i = Some (e, j) -> oleaf (hget (sheap s) e) = false -> move K T sys fuel csvd1 csvd2 (sroot s) i op uf s = (l, r) ->
  good l /\ forall s', r = Ok s' -> steady s' /\ sroot s' = e /\ shifted K (sheap s) R (sroot s) i e (sheap s').
Proof.
  intros N Rd Hf Eg Le E. pose proof (steady_top s R A N Rd) as Et. unfold move in E.
  assert (Ed : dindex (oacc (hget (sheap s) (sroot s))) i = Ok (e, j)) by (unfold dindex; rewrite Eg; auto). rewrite Ed in E.
    unfold andthen in E. 
    destruct ((if uf then unite_split_op K T sys fuel csvd2 else split_unite_op K T sys fuel csvd1) (sroot s) i op (remove_env K T sys [sroot s; e] s)) as (l2, r2) eqn:E2.
    assert (E3 : l = Moved K T s i :: l2 /\ r = r2) by (destruct uf; rewrite E2 in E; injection E as <- <-; auto). destruct E3 as (-> & ->).
    pose proof N as (D & _). apply (points_get K (sheap s) _ _ _ _ D) in Eg.
    destruct (point_kid K (sheap s) R A (sroot s) i e j N Et Eg Le) as (k1 & cks & k2 & ->).
    assert (Z : good l2 /\ forall s', r2 = Ok s' -> steady s' /\ sroot s' = e /\ shifted K (sheap s) (Nd (sroot s) (k1 ++ (i, Nd e cks, j) :: k2)) (sroot s) i e (sheap s')).
    { pose proof (twins_refl K (sroot s) e (sheap s)) as Tw. pose proof (mv_deep (sroot s) k1 k2 cks i e j) as Sub.
      destruct uf; [eapply unite_op_ready with (csvd := csvd2) (hx := sheap s)|eapply split_op_ready with (csvd := csvd1) (hx := sheap s)]; eauto.
      left. pose proof N as (_ & _ & _ & _ & Or & _). apply oriented_kids in Or. apply Or. }
    destruct Z as (Z1 & Z2). split; [|auto]. intros s0 cache time y [X|X]; [discriminate|eauto].
Qed.
(** The united move when the root is the tensor that is moved to. *)
Lemma unite_steady s R A n i j op l r : network (sheap s) R A -> ready R s -> S (length (ids R)) <= fuel ->
  dget (oacc (hget (sheap s) n)) i = Some (sroot s, j) -> oleaf (hget (sheap s) n) = false -> move K T sys fuel csvd1 csvd2 n i op true s = (l, r) ->
  good l /\ forall s', r = Ok s' -> steady s' /\ sroot s' = sroot s /\ shifted K (sheap s) R n i (sroot s) (sheap s').
Proof.
  intros N Rd Hf Eg Le E. pose proof (steady_top s R A N Rd) as Et. unfold move in E.
  assert (Ed : dindex (oacc (hget (sheap s) n)) i = Ok (sroot s, j)) by (unfold dindex; rewrite Eg; auto). rewrite Ed in E.
  unfold andthen in E.
  destruct (unite_split_op K T sys fuel csvd2 n i op (remove_env K T sys [n; sroot s] s)) as (l2, r2) eqn:E2. injection E as <- <-.
  destruct (other_end (sheap s) R A n i (sroot s) j N Et Eg Le) as (k1 & k2 & c1 & c2 & A' & hx & ER & N' & Tw & Ax & Pm).
  assert (Z : good l2 /\ forall s', r2 = Ok s' -> steady s' /\ sroot s' = sroot s /\ shifted K (sheap s) (Nd n (k1 ++ (i, Nd (sroot s) (c1 ++ c2), j) :: k2)) n i (sroot s) (sheap s')).
  { eapply unite_op_ready with (csvd := csvd2) (hx := hx) (Rr := R); eauto.
    - intros t p u q Dp. rewrite ER. apply (other_deep (sroot s) c1 c2 j n k1 k2 i). auto.
    - rewrite <- (Permutation_length Pm). auto. }
  destruct Z as (Z1 & Z2). split; [intros s0 cache time y [X|X]; [discriminate|eauto]|]. intros s' X. destruct (Z2 s' X) as (Y1 & Y2 & Y3). split; auto. split; auto.
  eapply shifted_perm; [|exact Y3]. apply Permutation_sym. auto.
Qed.
Lemma command_steady c s l r : steady s -> do_command K T sys fuel csvd1 csvd2 c s = (l, r) ->
  inner_moves l -> good l /\ forall s', r = Ok s' -> steady s'.
Proof.
  intros (R & A & N & Rd & Hf) E IM. pose proof (steady_top s R A N Rd) as Et. destruct c as [time|cache cs|i op uf]; cbn [do_command] in E.
  - injection E as <- E. split; [apply good_nil|]. intros s' ->. eapply form_steady; eauto.
  - assert (Rd' : ready R (mkState K (sheap s) (sroot s) (senv s))) by (destruct s; exact Rd).
    destruct (prop_ready K T sys fuel R s (sroot s) cache cs l r Rd' E) as (G & X). split; auto. intros s' Er.
    destruct (X s' Er) as (Y1 & Y2 & Y3). apply (steady_near (mkState K (sheap s) (sroot s) (senv s)) s' R A); auto.
  - unfold move in E. destruct (dindex (oacc (hget (sheap s) (sroot s))) i) as [(e, j)|x] eqn:Ed; [|injection E as <- <-; split; [apply good_nil|discriminate]].
    assert (Em : move K T sys fuel csvd1 csvd2 (sroot s) i op uf s = (l, r)).
    { unfold move. rewrite Ed. exact E. }
    assert (Hm : In (Moved K T s i) l).
    { unfold andthen in E. destruct ((if uf then unite_split_op K T sys fuel csvd2 else split_unite_op K T sys fuel csvd1) (sroot s) i op (remove_env K T sys [sroot s; e] s)) as (l2, r2) eqn:E2.
      destruct uf; rewrite E2 in E; injection E as <- <-; left; auto. }
    destruct (IM s i Hm) as (e' & j' & Eg & Le).
    assert (Q : e' = e /\ j' = j) by (unfold dindex in Ed; rewrite Eg in Ed; injection Ed; auto). destruct Q as (-> & ->).
    destruct (move_steady s R A i e j op uf l r N Rd Hf Eg Le Em) as (Z1 & Z2). split; auto. intros s' X. apply (Z2 s' X).
Qed.
Lemma inner_app (l l' : list (record K T)) : inner_moves (l ++ l') -> inner_moves l /\ inner_moves l'.
Proof. intros H. split; intros s i X; apply (H s i); apply in_app_iff; auto. Qed.
Lemma exec_steady cs : forall s l r, steady s -> exec K T sys fuel csvd1 csvd2 cs s = (l, r) -> inner_moves l -> good l /\ forall s', r = Ok s' -> steady s'.
Proof.
  induction cs as [|c cs IH]; intros s l r St E IM; unfold exec in *; cbn [foreach] in E.
  - injection E as <- <-. split; [apply good_nil|]. intros s' X. injection X as <-. auto.
  - unfold andthen in E. destruct (do_command K T sys fuel csvd1 csvd2 c s) as (l1, [s1|x]) eqn:E1.
    + destruct (foreach K T _ cs s1) as (l2, r2) eqn:E2. injection E as <- <-. apply inner_app in IM. destruct IM as (I1 & I2).
      destruct (command_steady c s l1 (Ok s1) St E1 I1) as (G1 & G2). destruct (IH s1 l2 r2 (G2 s1 eq_refl) E2 I2) as (G3 & G4).
      split; auto. apply good_app; auto.
    + injection E as <- <-. destruct (command_steady c s l1 (Raise x) St E1 IM) as (G1 & _). split; auto. discriminate.
Qed.
(** A program that starts with [_form_env]. *)
Lemma program_good s R A time cs l r : network (sheap s) R A -> top R = sroot s -> S (length (ids R)) <= fuel ->
  exec K T sys fuel csvd1 csvd2 (Form K T time :: cs) s = (l, r) -> inner_moves l -> good l.
Proof.
  intros N Et Hf E IM. unfold exec in E. cbn [foreach do_command andthen] in E.
  destruct (form_env K T sys fuel false time s) as [s1|x] eqn:E1; [|injection E as <- <-; apply good_nil].
  destruct (foreach K T _ cs s1) as (l2, r2) eqn:E2. injection E as <- <-.
  apply (exec_steady cs s1 l2 r2); auto. eapply form_steady; eauto.
Qed.
End Programs.
End MoveRun.
