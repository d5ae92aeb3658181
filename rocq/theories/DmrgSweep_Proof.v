(** The environments during the sweeps. *)
From Coq Require Import String Ascii List Arith Bool Lia Ring.
From Verif Require Import Py Alg Ord ListX NdArray_Model NdArray_Proof Svd_Model Svd_Spec Mps_Model Mps_Spec Mps_Proof MpsEnv_Proof Dmrg_Spec Dmrg_Proof.
Import ListNotations.
Local Open Scope nat_scope.
Notation length := Datatypes.length.

Section Eff.
Variable K : StarRing.
Add Ring Kds : (r_theory K).
Local Open Scope star_scope.
Ltac sw0 := etransitivity; [apply sumn_swap|].
Ltac sw1 := etransitivity; [apply sumn_ext; intros ? _; apply sumn_swap|].
Ltac sw2 := etransitivity; [apply sumn_ext; intros ? _; apply sumn_ext; intros ? _; apply sumn_swap|].

Tactic Notation "swd" integer(k) := etransitivity; [do k (apply sumn_ext; intros ? _); apply sumn_swap|].

(** ** The effective Hamiltonian *)
Lemma effective d D Do (l lo r ro : list (arr K)) L W R A B n dd :
  length lo = length l -> length ro = length r -> fits d D O l -> fits_op d d Do O lo -> D O = 1%nat -> Do O = 1%nat ->
  let p := length l in
  lenv K l lo l (Do p) (D p) (D p) L -> renv K r ro r (Do n) (D n) (D n) R ->
  wf A -> shape A = [dd; D p; D n] -> wf B -> shape B = [dd; D p; D n] -> wf W -> shape W = [Do p; Do n; dd; dd] ->
  exists v, matvec L W R A = Ok v /\ shape v = [prod [dd; D p; D n]] /\
  sumn dd (fun t => sumn (D p) (fun j => sumn (D n) (fun k => get B [t; j; k] * get v [ravel [dd; D p; D n] [t; j; k]])))
  = dense_element (l ++ A :: r) (lo ++ W :: ro) (l ++ B :: r).
Proof.
  intros Llo Lro F Fo D0 Do0 p (WL & SL & GL) (WR & SR & GR) WA SA WB SB WW SW.
  destruct (matvec_ok K L W R A dd _ _ _ _ WA SL SW SR) as (v & Ev & Wv & Sv & Gv); [unfold size; unfold wf in WA; rewrite WA, SA; reflexivity|].
  exists v. split; [exact Ev|]. split; [exact Sv|].
  change (dense_element (l ++ A :: r) (lo ++ W :: ro) (l ++ B :: r)) with (element (l ++ A :: r) (lo ++ W :: ro) (l ++ B :: r) O O O O O O).
  rewrite (element_app K d d D Do D O l (A :: r) lo (W :: ro) l (B :: r)); auto; try lia. cbn [Nat.add]. fold p.
  set (D' := fun x => if (x =? O)%nat then D p else D n). set (Do' := fun x => if (x =? O)%nat then Do p else Do n).
  assert (FA : fits (fun _ => dd) D' O [A]) by (split; [split; auto|exact I]). assert (FB : fits (fun _ => dd) D' O [B]) by (split; [split; auto|exact I]).
  assert (FW : fits_op (fun _ => dd) (fun _ => dd) Do' O [W]) by (split; [split; auto|exact I]).
  transitivity (sumn dd (fun t => sumn (D p) (fun j => sumn (D n) (fun k => sumn (D p) (fun i' => sumn (Do p) (fun a' => sumn (D n) (fun k' => sumn (Do n) (fun b' => sumn dd (fun s' =>
     get L [a'; i'; j] * (get A [s'; i'; k'] * get W [a'; b'; s'; t] * get B [t; j; k]) * get R [b'; k'; k]))))))))).
  { apply sumn_ext. intros t Ht. apply sumn_ext. intros j Hj. apply sumn_ext. intros k Hk. rewrite Gv by auto.
    rewrite <- sumn_scal_l. apply sumn_ext. intros i' Hi. rewrite <- sumn_scal_l. apply sumn_ext. intros a' Ha. rewrite <- sumn_scal_l. apply sumn_ext. intros k' Hk'.
    rewrite <- sumn_scal_l. apply sumn_ext. intros b' Hb. rewrite <- sumn_scal_l. apply sumn_ext. intros s' Hs.
    replace (nth (ravel [dd; D p; D n] [s'; i'; k']) (data A) 0) with (get A [s'; i'; k']) by (unfold get; rewrite SA; reflexivity). ring. }
  symmetry.
  transitivity (sumn (D p) (fun i' => sumn (Do p) (fun a' => sumn (D p) (fun j => sumn (D n) (fun k' => sumn (Do n) (fun b' => sumn (D n) (fun k => sumn dd (fun s' => sumn dd (fun t =>
     get L [a'; i'; j] * (get A [s'; i'; k'] * get W [a'; b'; s'; t] * get B [t; j; k]) * get R [b'; k'; k]))))))))).
  { apply sumn_ext. intros i' Hi. apply sumn_ext. intros a' Ha. apply sumn_ext. intros j Hj.
    change (A :: r) with ([A] ++ r). change (W :: ro) with ([W] ++ ro). change (B :: r) with ([B] ++ r).
    rewrite (element_app K (fun _ => dd) (fun _ => dd) D' Do' D' O [A] r [W] ro [B] r); auto. cbn [length Nat.add]. change (D' 1%nat) with (D n). change (Do' 1%nat) with (Do n).
    rewrite <- sumn_scal_l. apply sumn_ext. intros k' Hk'. rewrite <- sumn_scal_l. apply sumn_ext. intros b' Hb. rewrite <- sumn_scal_l. apply sumn_ext. intros k Hk.
    rewrite (element_one K A W B dd dd i' a' j k' b' k _ _ _ _ _ _ SA SW SB Hk' Hb Hk), GL, GR by auto.
    rewrite <- sumn_scal_r, <- sumn_scal_l. apply sumn_ext. intros s' Hs. rewrite <- sumn_scal_r, <- sumn_scal_l. apply sumn_ext. intros t Ht. ring. }
  (* i a j k' b k s t  ->  t j k i a k' b s *)
  swd 6; swd 5; swd 4; swd 3; swd 2; swd 1; sw0.   (* t i a j k' b k s *)
  swd 2; swd 1.                                     (* t j i a k' b k s *)
  swd 5; swd 4; swd 3; swd 2.                       (* t j k i a k' b s *)
  reflexivity.
Qed.
End Eff.

Section Sweeps.
Variable K : StarRing.
Variable F : OrdRing.
Variable inj : F -> K.
Variable eig : arr K -> arr K -> arr K -> arr K -> arr K.
Variable svd : arr K -> arr K * list F * arr K.
Variable mpo : list (arr K).
Variable trunc : nat.
Variable n : nat.
Variable d Do : nat -> nat.
Hypothesis Heig : eig_sizes eig.
Hypothesis Hsvd : svd_shapes svd.
Hypothesis Htrunc : 0 < trunc.
Hypothesis Hd : forall x, x < n -> 0 < d x.
Hypothesis Hmpo : chain_op n d d Do mpo.

Definition positive (D : nat -> nat) := forall x, x <= n -> 0 < D x.

Definition Lok (D : nat -> nat) (mps : list (arr K)) (p : nat) (Ls : list (arr K)) : Prop :=
  length Ls = S p /\ forall q L, nth_error Ls q = Some L -> left_env mpo mps (p - q) (Do (p - q)) (D (p - q)) L.
Definition Rok (D : nat -> nat) (mps : list (arr K)) (p : nat) (Rs : list (arr K)) : Prop :=
  p <= n /\ length Rs = S n - p /\ forall q R, nth_error Rs q = Some R -> right_env mpo mps (p + q) (Do (p + q)) (D (p + q)) R.

Lemma Lok_cons D mps p L Ls : Lok D mps p Ls -> left_env mpo mps (S p) (Do (S p)) (D (S p)) L -> Lok D mps (S p) (L :: Ls).
Proof. intros (H1 & H2) H. split; [cbn; auto|]. intros [|q] X E; cbn in E; [injection E as <-; exact H|]. replace (S p - S q) with (p - q) by lia. auto. Qed.
Lemma Lok_tl D mps p L Ls : Lok D mps (S p) (L :: Ls) -> Lok D mps p Ls.
Proof. intros (H1 & H2). split; [cbn in H1; lia|]. intros q X E. apply (H2 (S q)). exact E. Qed.
Lemma Lok_top D mps p Ls : Lok D mps p Ls -> exists L, top_ Ls = Ok L /\ left_env mpo mps p (Do p) (D p) L.
Proof. intros (H1 & H2). destruct Ls as [|L Ls]; [discriminate|]. exists L. split; auto. specialize (H2 0 L eq_refl). rewrite Nat.sub_0_r in H2. exact H2. Qed.
Lemma left_env_ext D D' mps mps' p L : firstn p mps' = firstn p mps -> D' p = D p -> left_env mpo mps p (Do p) (D p) L -> left_env mpo mps' p (Do p) (D' p) L.
Proof. intros E1 E2 H. unfold left_env in *. rewrite E1, E2. exact H. Qed.
Lemma Lok_ext D D' mps mps' p Ls : (forall q, q <= p -> firstn q mps' = firstn q mps /\ D' q = D q) -> Lok D mps p Ls -> Lok D' mps' p Ls.
Proof. intros E (H1 & H2). split; auto. intros q L X. destruct (E (p - q)) as [E1 E2]; [lia|]. eapply left_env_ext; eauto. Qed.

Lemma Rok_cons D mps p R Rs : Rok D mps (S p) Rs -> right_env mpo mps p (Do p) (D p) R -> Rok D mps p (R :: Rs).
Proof.
  intros (H0 & H1 & H2) H. split; [lia|]. split; [cbn [length]; lia|]. intros [|q] X E; cbn in E; [injection E as <-; rewrite Nat.add_0_r; exact H|].
  replace (p + S q) with (S p + q) by lia. auto.
Qed.
Lemma Rok_tl D mps p R Rs : p < n -> Rok D mps p (R :: Rs) -> Rok D mps (S p) Rs.
Proof. intros Hp (H0 & H1 & H2). split; [lia|]. split; [cbn [length] in H1; lia|]. intros q X E. replace (S p + q) with (p + S q) by lia. apply (H2 (S q)). exact E. Qed.
Lemma Rok_top D mps p Rs : Rok D mps p Rs -> exists R, top_ Rs = Ok R /\ right_env mpo mps p (Do p) (D p) R.
Proof. intros (H0 & H1 & H2). destruct Rs as [|R Rs]; [cbn [length] in H1; lia|]. exists R. split; auto. specialize (H2 0 R eq_refl). rewrite Nat.add_0_r in H2. exact H2. Qed.
Lemma right_env_ext D D' mps mps' p R : skipn p mps' = skipn p mps -> D' p = D p -> right_env mpo mps p (Do p) (D p) R -> right_env mpo mps' p (Do p) (D' p) R.
Proof. intros E1 E2 H. unfold right_env in *. rewrite E1, E2. exact H. Qed.
Lemma Rok_ext D D' mps mps' p Rs : (forall q, p <= q -> skipn q mps' = skipn q mps /\ D' q = D q) -> Rok D mps p Rs -> Rok D' mps' p Rs.
Proof. intros E (H0 & H1 & H2). split; auto. split; auto. intros q L X. destruct (E (p + q)) as [E1 E2]; [lia|]. eapply right_env_ext; eauto. Qed.

Lemma at_nth {X} (l : list X) i x : nth_error l i = Some x -> at_ l i = Ok x.
Proof. unfold at_. intros ->. reflexivity. Qed.
Lemma at_mpo i : i < n -> exists W, at_ mpo i = Ok W /\ nth_error mpo i = Some W /\ wf W /\ shape W = [Do i; Do (S i); d i; d i].
Proof.
  intros Hi. destruct Hmpo as (L & Fo & _). destruct (split_at mpo i) as (a & W & b & E & La); [lia|]. exists W.
  assert (N : nth_error mpo i = Some W) by (rewrite E, <- La, nth_error_app2, Nat.sub_diag by lia; reflexivity).
  split; [apply at_nth; auto|]. split; auto. rewrite E in Fo. apply fits_op_app in Fo as (_ & (WW & SW) & _). rewrite La in SW. auto.
Qed.
Lemma at_mps D (mps : list (arr K)) i : chain n d D mps -> i < n -> exists A, at_ mps i = Ok A /\ nth_error mps i = Some A /\ wf A /\ shape A = [d i; D i; D (S i)].
Proof.
  intros (L & Fo & _) Hi. destruct (split_at mps i) as (a & W & b & E & La); [lia|]. exists W.
  assert (N : nth_error mps i = Some W) by (rewrite E, <- La, nth_error_app2, Nat.sub_diag by lia; reflexivity).
  split; [apply at_nth; auto|]. split; auto. rewrite E in Fo. apply fits_app in Fo as (_ & (WW & SW) & _). rewrite La in SW. auto.
Qed.

(** ** One contraction *)
Lemma left_step D (mps : list (arr K)) p L A W : chain n d D mps -> p < n -> at_ mps p = Ok A -> at_ mpo p = Ok W -> left_env mpo mps p (Do p) (D p) L ->
  exists N, contract_from_left L A (Some W) A = Ok N /\ left_env mpo mps (S p) (Do (S p)) (D (S p)) N.
Proof.
  intros (Lm & Fm & D0 & Dn) Hp EA EW HL. pose proof Hmpo as (Lo & Fo & Do0 & Don).
  destruct (split_at mps p) as (l & A0 & r & Em & Ll); [lia|]. destruct (split_at mpo p) as (lo & W0 & ro & Eo & Llo); [lia|].
  subst p mps. rewrite (at_app l A0 r) in EA. injection EA as <-. rewrite Eo, <- Llo, (at_app lo W0 ro) in EW. injection EW as <-.
  unfold left_env in *. rewrite (firstn_S_app l r A0). rewrite (firstn_app_eq l (A0 :: r)) in HL.
  rewrite Eo in HL, Fo |- *. replace (firstn (length l) (lo ++ W0 :: ro)) with lo in HL by (rewrite <- Llo; symmetry; apply firstn_app_eq).
  replace (firstn (S (length l)) (lo ++ W0 :: ro)) with (lo ++ [W0]) by (rewrite <- Llo; symmetry; apply firstn_S_app).
  rewrite (split_cons l A0 r) in Fm. apply fits_app in Fm as (Fm & _). rewrite (split_cons lo W0 ro) in Fo. apply fits_op_app in Fo as (Fo & _).
  apply (lenv_snoc K d d D Do D l lo l A0 W0 A0 L); auto; lia.
Qed.
Lemma right_step D (mps : list (arr K)) p R A W : chain n d D mps -> p < n -> at_ mps p = Ok A -> at_ mpo p = Ok W -> right_env mpo mps (S p) (Do (S p)) (D (S p)) R ->
  exists N, contract_from_right R A (Some W) A = Ok N /\ right_env mpo mps p (Do p) (D p) N.
Proof.
  intros (Lm & Fm & D0 & Dn) Hp EA EW HR. pose proof Hmpo as (Lo & Fo & Do0 & Don).
  destruct (split_at mps p) as (l & A0 & r & Em & Ll); [lia|]. destruct (split_at mpo p) as (lo & W0 & ro & Eo & Llo); [lia|].
  subst p mps. rewrite (at_app l A0 r) in EA. injection EA as <-. rewrite Eo, <- Llo, (at_app lo W0 ro) in EW. injection EW as <-.
  unfold right_env in *. rewrite (skipn_S_app l r A0) in HR. rewrite (skipn_app_eq l (A0 :: r)).
  rewrite Eo in HR, Fo |- *. replace (skipn (S (length l)) (lo ++ W0 :: ro)) with ro in HR by (rewrite <- Llo; symmetry; apply skipn_S_app).
  replace (skipn (length l) (lo ++ W0 :: ro)) with (W0 :: ro) by (rewrite <- Llo; symmetry; apply skipn_app_eq).
  apply fits_app in Fm as (_ & Fm). apply fits_op_app in Fo as (_ & Fo). rewrite Llo in Fo. cbn [Nat.add] in Fm, Fo.
  apply (renv_cons K d d D Do D (length l) r ro r A0 W0 A0 R); auto.
Qed.

Lemma contract_Rs_ok D (mps : list (arr K)) k : chain n d D mps -> S k <= n ->
  exists Rs, contract_Rs mpo mps (down n k) [one3] = Ok Rs /\ Rok D mps (S k) Rs.
Proof.
  intros Hc Hk. unfold down. replace (k + 1) with (S k) by lia.
  assert (G : forall m p Rs, p + m <= n -> Rok D mps (p + m) Rs -> exists Rs', contract_Rs mpo mps (rev (seq p m)) Rs = Ok Rs' /\ Rok D mps p Rs').
  { induction m as [|m IH]; intros p Rs Hm HR.
    - exists Rs. rewrite Nat.add_0_r in HR. split; auto.
    - rewrite seq_S, rev_app_distr. cbn [rev app contract_Rs].
      destruct (Rok_top D mps _ Rs HR) as (R & ET & HT). rewrite ET. cbn [bind].
      destruct (at_mps D mps (p + m) Hc) as (A & EA & _); [lia|]. rewrite EA. cbn [bind]. destruct (at_mpo (p + m)) as (W & EW & _); [lia|]. rewrite EW. cbn [bind].
      rewrite <- plus_n_Sm in *. destruct (right_step D mps (p + m) R A W) as (N & EN & HN); auto. rewrite EN. cbn [bind].
      apply IH; [lia|]. apply Rok_cons; auto. }
  apply G; [lia|]. replace (S k + (n - 1 - k)) with n by lia.
  split; [lia|]. split; [cbn [length]; lia|]. intros [|q] R E; [|destruct q; discriminate]. cbn in E. injection E as <-. rewrite Nat.add_0_r.
  destruct Hc as (Lm & Fm & D0 & Dn). destruct Hmpo as (Lo & Fo & Do0 & Don).
  unfold right_env. rewrite Dn, Don, !skipn_all2 by lia. apply renv_nil.
Qed.

(** ** Solving and moving *)
Lemma opt_ok L W R A x y x' y' dd : shape L = [x; y; y] -> shape W = [x; x'; dd; dd] -> shape R = [x'; y'; y'] -> wf A -> shape A = [dd; y; y'] ->
  exists A', opt_one_site eig L W R A = Ok A' /\ wf A' /\ shape A' = [dd; y; y'].
Proof.
  intros SL SW SR WA SA. unfold opt_one_site.
  assert (I : io_shape L W R = [dd; y; y']) by (unfold io_shape; rewrite SL, SW, SR; reflexivity). rewrite I.
  rewrite (NdArray_Proof.reshape_ok K A) by (auto; rewrite SA; cbn; lia). cbn [bind]. set (A1 := mkArr [prod [dd; y; y']] (data A)).
  pose proof (Heig L W R A1) as Hl. rewrite SL, SW, SR in Hl. cbn [nth] in Hl. unfold reshape, size. rewrite Hl, Nat.eqb_refl.
  eexists. split; [reflexivity|]. split; [exact Hl|reflexivity].
Qed.

Definition set_bond (D : nat -> nat) (p m : nat) : nat -> nat := fun x => if x =? p then m else D x.
Lemma set_eq D p m : set_bond D p m p = m. Proof. unfold set_bond. now rewrite Nat.eqb_refl. Qed.
Lemma set_ne D p m x : x <> p -> set_bond D p m x = D x. Proof. intros. unfold set_bond. now rewrite (proj2 (Nat.eqb_neq x p)). Qed.

(** Replacing the matrices of two neighbours *)
Lemma replace_pair D (mps : list (arr K)) i m A' B' : chain n d D mps -> positive D -> S i < n -> 0 < m -> wf A' -> shape A' = [d i; D i; m] -> wf B' -> shape B' = [d (S i); m; D (S (S i))] ->
  let D' := set_bond D (S i) m in let mps' := upd (S i) B' (upd i A' mps) in
  chain n d D' mps' /\ positive D' /\ at_ mps' i = Ok A' /\ at_ mps' (S i) = Ok B' /\
  (forall q, q <= i -> firstn q mps' = firstn q mps /\ D' q = D q) /\ (forall q, S (S i) <= q -> skipn q mps' = skipn q mps /\ D' q = D q).
Proof.
  intros (Lm & Fm & D0 & Dn) HP Hi Hm WA SA WB SB D' mps'.
  destruct (split_at2 mps i) as (l & A & B & r & E & Ll); [lia|].
  assert (Em : mps' = l ++ A' :: B' :: r).
  { unfold mps'. rewrite E, <- Ll, upd_app. rewrite (split_cons l A' (B :: r)). replace (S (length l)) with (length (l ++ [A'])) by (rewrite app_length; cbn; lia).
    rewrite upd_app, <- app_assoc. reflexivity. }
  clearbody mps'. subst mps'. subst mps. rewrite app_length in Lm. cbn [length] in Lm. subst i.
  apply fits_app in Fm as (F1 & (WA0 & SA0) & (WB0 & SB0) & F2). cbn [Nat.add] in *.
  split; [|split; [|split; [|split; [|split]]]].
  - split; [rewrite app_length; cbn [length]; lia|]. split; [|unfold D'; rewrite !set_ne by lia; auto].
    apply fits_app. split; [eapply fits_before; [..|exact F1]; auto; intros x Hx; unfold D'; apply set_ne; lia|].
    cbn [Nat.add fits]. unfold D'. rewrite set_eq, !set_ne by lia. split; [auto|]. split; [auto|].
    eapply fits_before; [..|exact F2]; auto. intros x Hx. apply set_ne. lia.
  - intros x Hx. unfold D', set_bond. destruct (x =? S (length l)); auto.
  - apply at_app.
  - rewrite (split_cons l A' (B' :: r)). replace (S (length l)) with (length (l ++ [A'])) by (rewrite app_length; cbn; lia). apply at_app.
  - intros q Hq. split; [rewrite !firstn_pre by lia; reflexivity|unfold D'; apply set_ne; lia].
  - intros q Hq. split; [|unfold D'; apply set_ne; lia]. rewrite !skipn_post by lia. destruct (q - length l) as [|[|x]] eqn:Q; try lia. reflexivity.
Qed.

Lemma right_shapes (A N : arr K) s i j t k : wf A -> wf N -> shape A = [s; i; j] -> shape N = [t; j; k] -> 0 < s -> 0 < i -> 0 < j ->
  exists A' N' m, move_right inj svd A N trunc = Ok (A', N') /\ wf A' /\ wf N' /\ shape A' = [s; i; m] /\ shape N' = [t; m; k] /\ 0 < m.
Proof.
  intros WA WN SA SN Hs Hi Hj. pose proof (Hsvd (mkArr [s * i; j] (data A)) (s * i) j) as H. destruct (svd (mkArr [s * i; j] (data A))) as [[U sv] V] eqn:E.
  destruct H as (H0 & WU & SU & WV & SV); auto; [unfold wf in *; cbn [data shape]; rewrite WA, SA; cbn; lia|nia|].
  destruct (move_right_ok K F inj svd A N s i j t k trunc U sv V) as (A' & N' & EM & W1 & W2 & S1 & S2 & _); auto.
  exists A', N', (min (length sv) trunc). do 5 (split; auto). lia.
Qed.
Lemma left_shapes (A P : arr K) s i j t h : wf A -> wf P -> shape A = [s; i; j] -> shape P = [t; h; i] -> 0 < s -> 0 < i -> 0 < j ->
  exists A' P' m, move_left inj svd A P trunc = Ok (A', P') /\ wf A' /\ wf P' /\ shape A' = [s; m; j] /\ shape P' = [t; h; m] /\ 0 < m.
Proof.
  intros WA WP SA SP Hs Hi Hj. set (M := mkArr [i; s * j] (data (transpose A [1; 0; 2]))).
  assert (WM : wf M). { pose proof (wf_build K (gather (shape A) [1; 0; 2]) (fun idx => get A (map (fun m => nth (index_of m [1; 0; 2]) idx 0) (seq 0 (ndim A))))) as W. unfold wf in *. unfold M. cbn [data shape]. unfold transpose. rewrite W. rewrite shape_build, SA. cbn. lia. }
  pose proof (Hsvd M i (s * j)) as H. destruct (svd M) as [[U sv] V] eqn:E.
  destruct H as (H0 & WU & SU & WV & SV); auto; [nia|].
  destruct (move_left_ok K F inj svd A P s i j t h trunc U sv V) as (A' & N' & EM & W1 & W2 & S1 & S2 & _); auto.
  exists A', N', (min (length sv) trunc). do 5 (split; auto). lia.
Qed.
Lemma fine_shapes (C : arr K) d1 d2 i k right : wf C -> shape C = [d1 * d2; i; k] -> 0 < d1 -> 0 < d2 -> 0 < i -> 0 < k ->
  exists A B m, fine_grain_mps inj svd C d1 d2 right trunc = Ok (A, B) /\ wf A /\ wf B /\ shape A = [d1; i; m] /\ shape B = [d2; m; k] /\ 0 < m.
Proof.
  intros WC SC H1 H2 Hi Hk. set (T := mkArr [d1; d2; i; k] (data C)). set (M := mkArr [d1 * i; d2 * k] (data (transpose T [0; 2; 1; 3]))).
  assert (WM : wf M). { assert (W : wf (transpose T [0; 2; 1; 3])) by apply wf_build. unfold wf in *. unfold M. cbn [data shape]. rewrite W. unfold transpose. rewrite shape_build. cbn. lia. }
  pose proof (Hsvd M (d1 * i) (d2 * k)) as H. destruct (svd M) as [[U sv] V] eqn:E.
  destruct H as (H0 & WU & SU & WV & SV); auto; try nia.
  destruct (fine_ok K F inj svd C d1 d2 i k right trunc U sv V) as (A & B & EF & W1 & W2 & S1 & S2 & _); auto.
  exists A, B, (if trunc =? 0 then length sv else min (length sv) trunc). do 5 (split; auto). destruct (Nat.eqb_spec trunc 0); lia.
Qed.

(** ** One-site sweeps *)
Definition good1 (c : call K) : Prop := up_to_date1 n d Do mpo (c_site c) (c_mps c) (c_L c) (c_W c) (c_R c).
Definition good2 (c : call K) : Prop := up_to_date2 n d Do mpo (c_site c) (c_mps c) (c_L c) (c_W c) (c_R c).
(** [k] sites are active. *)
Definition Inv (k : nat) (good : call K -> Prop) (p : nat) (w : sweep K) : Prop :=
  exists D, chain n d D (w_mps w) /\ positive D /\ Lok D (w_mps w) p (w_L w) /\ Rok D (w_mps w) (p + k) (w_R w) /\ Forall good (w_log w).

Lemma tops_L D mps p Ls : Lok D mps p Ls -> exists L Ls', Ls = L :: Ls' /\ left_env mpo mps p (Do p) (D p) L.
Proof. intros H. pose proof (Lok_top D mps p Ls H) as (L & E & HL). destruct Ls as [|L' Ls]; [discriminate|]. injection E as <-. eauto. Qed.
Lemma tops_R D mps p Rs : Rok D mps p Rs -> exists R Rs', Rs = R :: Rs' /\ right_env mpo mps p (Do p) (D p) R.
Proof. intros H. pose proof (Rok_top D mps p Rs H) as (L & E & HL). destruct Rs as [|L' Ls]; [discriminate|]. injection E as <-. eauto. Qed.

Lemma upd_comm_in {X} i (x y : X) l : upd i x (upd i y l) = upd i x l.
Proof. apply upd_upd. Qed.
Lemma at_upd_other {X} i j (x : X) l : i <> j -> at_ (upd i x l) j = at_ l j.
Proof.
  intros H. unfold at_, upd. destruct (Nat.ltb_spec i (length l)); [|reflexivity].
  destruct (split_at l i) as (a & y & b & -> & La); [auto|]. rewrite <- La, firstn_app_eq, skipn_S_app.
  destruct (Nat.lt_ge_cases j (length a)).
  - rewrite !nth_error_app1 by auto. reflexivity.
  - rewrite !nth_error_app2 by auto. destruct (j - length a) as [|q] eqn:E; [lia|]. reflexivity.
Qed.

Lemma right1_ok i w : S i < n -> Inv 1 good1 i w ->
  exists w', right1 inj eig svd mpo trunc w i = Ok w' /\ Inv 1 good1 (S i) w' /\ map c_site (w_log w') = i :: map c_site (w_log w).
Proof.
  intros Hi (D & Hc & HP & HL & HR & Hlog). destruct w as [mps Ls Rs log]. cbn [w_mps w_L w_R w_log] in *.
  destruct (tops_L _ _ _ _ HL) as (L & Ls' & -> & EL). destruct (tops_R _ _ _ _ HR) as (R & Rs' & -> & ER). rewrite Nat.add_1_r in *.
  unfold right1. cbn [w_mps w_L w_R w_log top_ bind tl].
  destruct (at_mpo i) as (W & EW & NW & WW & SW); [lia|]. rewrite EW. cbn [bind].
  destruct (at_mps D mps i Hc) as (A & EA & _ & WA & SA); [lia|]. rewrite EA. cbn [bind].
  pose proof EL as (_ & SL & _). pose proof ER as (_ & SR & _).
  destruct (opt_ok L W R A _ _ _ _ _ SL SW SR WA SA) as (A1 & EO & WA1 & SA1). rewrite EO. cbn [bind].
  replace (i + 1) with (S i) by lia. rewrite at_upd_other by lia. destruct (at_mps D mps (S i) Hc) as (N & EN & _ & WN & SN); [lia|]. rewrite EN. cbn [bind].
  destruct (right_shapes A1 N _ _ _ _ _ WA1 WN SA1 SN) as (A2 & N2 & m & EM & WA2 & WN2 & SA2 & SN2 & Hm); try (apply Hd; lia); try (apply HP; lia).
  rewrite EM. cbn [bind fst snd]. rewrite upd_comm_in.
  destruct (replace_pair D mps i m A2 N2 Hc HP Hi Hm WA2 SA2 WN2 SN2) as (Hc' & HP' & EA' & EB' & HF & HS).
  set (D' := set_bond D (S i) m) in *. set (mps' := upd (S i) N2 (upd i A2 mps)) in *.
  destruct (HF i (Nat.le_refl i)) as (E1 & E2). pose proof (left_env_ext D D' mps mps' i L E1 E2 EL) as EL'.
  destruct (left_step D' mps' i L A2 W Hc') as (L2 & EC & HL2); auto; [lia|]. rewrite EC. cbn [bind].
  eexists. split; [reflexivity|]. split; [|reflexivity]. exists D'. cbn [w_mps w_L w_R w_log].
  split; [exact Hc'|]. split; [exact HP'|]. split; [apply Lok_cons; auto; eapply Lok_ext; [exact HF|exact HL]|]. split.
  - rewrite Nat.add_1_r. eapply Rok_ext; [exact HS|]. eapply Rok_tl; [lia|exact HR].
  - constructor; auto. exists D. cbn [c_site c_mps c_L c_W c_R]. split; [exact Hc|]. split; [lia|]. auto.
Qed.

Lemma left1_ok i w : S i < n -> Inv 1 good1 (S i) w ->
  exists w', left1 inj eig svd mpo trunc w (S i) = Ok w' /\ Inv 1 good1 i w' /\ map c_site (w_log w') = S i :: map c_site (w_log w).
Proof.
  intros Hi (D & Hc & HP & HL & HR & Hlog). destruct w as [mps Ls Rs log]. cbn [w_mps w_L w_R w_log] in *.
  destruct (tops_L _ _ _ _ HL) as (L & Ls' & -> & EL). destruct (tops_R _ _ _ _ HR) as (R & Rs' & -> & ER). rewrite Nat.add_1_r in *.
  unfold left1. cbn [w_mps w_L w_R w_log top_ bind tl].
  destruct (at_mpo (S i)) as (W & EW & NW & WW & SW); [lia|]. rewrite EW. cbn [bind].
  destruct (at_mps D mps (S i) Hc) as (A & EA & _ & WA & SA); [lia|]. rewrite EA. cbn [bind].
  pose proof EL as (_ & SL & _). pose proof ER as (_ & SR & _).
  destruct (opt_ok L W R A _ _ _ _ _ SL SW SR WA SA) as (A1 & EO & WA1 & SA1). rewrite EO. cbn [bind].
  replace (S i - 1) with i by lia. rewrite at_upd_other by lia. destruct (at_mps D mps i Hc) as (P & EP & _ & WP & SP); [lia|]. rewrite EP. cbn [bind].
  destruct (left_shapes A1 P _ _ _ _ _ WA1 WP SA1 SP) as (A2 & P2 & m & EM & WA2 & WP2 & SA2 & SP2 & Hm); try (apply Hd; lia); try (apply HP; lia).
  rewrite EM. cbn [bind fst snd]. rewrite upd_comm_in.
  destruct (replace_pair D mps i m P2 A2 Hc HP Hi Hm WP2 SP2 WA2 SA2) as (Hc' & HP' & EA' & EB' & HF & HS).
  assert (EU : upd i P2 (upd (S i) A2 mps) = upd (S i) A2 (upd i P2 mps)).
  { destruct Hc as (Lm & _). destruct (split_at2 mps i) as (l & X & Y & r & E & Ll); [lia|]. rewrite E, <- Ll, upd_app.
    rewrite (split_cons l P2 (Y :: r)), (split_cons l X (Y :: r)). replace (S (length l)) with (length (l ++ [X])) at 1 by (rewrite app_length; cbn; lia).
    replace (S (length l)) with (length (l ++ [P2])) by (rewrite app_length; cbn; lia). rewrite !upd_app, <- !app_assoc. cbn [app]. apply upd_app. }
  rewrite EU. set (D' := set_bond D (S i) m) in *. set (mps' := upd (S i) A2 (upd i P2 mps)) in *.
  destruct (HS (S (S i)) (Nat.le_refl _)) as (E1 & E2). pose proof (right_env_ext D D' mps mps' _ R E1 E2 ER) as ER'.
  destruct (right_step D' mps' (S i) R A2 W Hc') as (R2 & EC & HR2); auto. rewrite EC. cbn [bind].
  eexists. split; [reflexivity|]. split; [|reflexivity]. exists D'. cbn [w_mps w_L w_R w_log].
  split; [exact Hc'|]. split; [exact HP'|]. split; [eapply Lok_ext; [exact HF|]; eapply Lok_tl; exact HL|]. split.
  - rewrite Nat.add_1_r. apply Rok_cons; auto. eapply Rok_ext; [exact HS|exact HR].
  - constructor; auto. exists D. cbn [c_site c_mps c_L c_W c_R]. split; [exact Hc|]. split; [lia|]. auto.
Qed.

(** Loops *)
Lemma fold_up (f : sweep K -> nat -> res (sweep K)) (P : nat -> sweep K -> Prop) hi :
  (forall i w, i < hi -> P i w -> exists w', f w i = Ok w' /\ P (S i) w' /\ map c_site (w_log w') = i :: map c_site (w_log w)) ->
  forall m p w, p + m <= hi -> P p w -> exists w', foldM f (seq p m) w = Ok w' /\ P (p + m) w' /\ map c_site (w_log w') = rev (seq p m) ++ map c_site (w_log w).
Proof.
  intros H. induction m as [|m IH]; intros p w Hm Hw.
  - exists w. rewrite Nat.add_0_r. auto.
  - destruct (H p w) as (w1 & E1 & P1 & L1); [lia|auto|]. cbn [seq foldM]. rewrite E1. cbn [bind].
    destruct (IH (S p) w1) as (w2 & E2 & P2 & L2); [lia|auto|]. exists w2. rewrite <- plus_n_Sm. split; [exact E2|]. split; [exact P2|].
    rewrite L2, L1. cbn [rev]. rewrite <- app_assoc. reflexivity.
Qed.
Lemma fold_down (f : sweep K -> nat -> res (sweep K)) (P : nat -> sweep K -> Prop) (site : nat -> nat) lo :
  forall m, (forall i w, lo <= i < lo + m -> P (S i - lo) w -> exists w', f w i = Ok w' /\ P (i - lo) w' /\ map c_site (w_log w') = site i :: map c_site (w_log w)) ->
  forall w, P m w -> exists w', foldM f (rev (seq lo m)) w = Ok w' /\ P 0 w' /\ map c_site (w_log w') = map site (seq lo m) ++ map c_site (w_log w).
Proof.
  induction m as [|m IH]; intros H w Hw.
  - exists w. auto.
  - rewrite seq_S, rev_app_distr. cbn [rev app foldM]. destruct (H (lo + m) w) as (w1 & E1 & P1 & L1); [lia|replace (S (lo + m) - lo) with (S m) by lia; auto|].
    rewrite E1. cbn [bind]. replace (lo + m - lo) with m in P1 by lia.
    destruct (IH ltac:(intros; apply H; auto; lia) w1 P1) as (w2 & E2 & P2 & L2). exists w2. split; [exact E2|]. split; [exact P2|].
    rewrite L2, L1, map_app, <- app_assoc. reflexivity.
Qed.

(** The order of the sites in one turn *)
Definition order1 : list nat := seq 0 (n - 1) ++ rev (seq 1 (n - 1)).
Definition order2 : list nat := seq 0 (n - 2) ++ rev (seq 1 (n - 2)).

Lemma turn1_ok w : 1 <= n -> Inv 1 good1 0 w -> exists w', turn1 inj eig svd mpo trunc w = Ok w' /\ Inv 1 good1 0 w' /\ map c_site (w_log w') = rev order1 ++ map c_site (w_log w).
Proof.
  intros Hn H0. unfold turn1. destruct Hmpo as (Lo & _). rewrite Lo.
  destruct (fold_up (right1 inj eig svd mpo trunc) (Inv 1 good1) (n - 1)) with (m := n - 1) (p := 0) (w := w) as (w1 & E1 & P1 & L1); auto.
  { intros i x Hi Hx. apply right1_ok; auto. lia. }
  rewrite E1. cbn [bind Nat.add] in *. pose proof P1 as (D & (Lm & _) & _). rewrite Lm. unfold down. cbn [Nat.add]. rewrite Nat.sub_0_r.
  destruct (fold_down (left1 inj eig svd mpo trunc) (Inv 1 good1) (fun i => i) 1 (n - 1)) with (w := w1) as (w2 & E2 & P2 & L2); auto.
  { intros i x Hi Hx. destruct i as [|i]; [lia|]. replace (S (S i) - 1) with (S i) in Hx by lia. replace (S i - 1) with i by lia. apply left1_ok; auto. lia. }
  exists w2. split; [exact E2|]. split; [exact P2|]. unfold order1. rewrite L2, L1, map_id, rev_app_distr, rev_involutive, app_assoc. reflexivity.
Qed.

Lemma turns_ok (turn : sweep K -> res (sweep K)) (P : sweep K -> Prop) order :
  (forall w, P w -> exists w', turn w = Ok w' /\ P w' /\ map c_site (w_log w') = rev order ++ map c_site (w_log w)) ->
  forall m w, P w -> exists w', turns turn m w = Ok w' /\ P w' /\ map c_site (rev (w_log w')) = map c_site (rev (w_log w)) ++ concat (repeat order m).
Proof.
  intros H. induction m as [|m IH]; intros w Hw.
  - exists w. cbn. rewrite app_nil_r. auto.
  - destruct (H w Hw) as (w1 & E1 & P1 & L1). cbn [turns]. rewrite E1. cbn [bind]. destruct (IH w1 P1) as (w2 & E2 & P2 & L2). exists w2. split; auto. split; auto.
    rewrite L2, !map_rev, L1, rev_app_distr, rev_involutive. cbn [repeat concat]. rewrite <- app_assoc. reflexivity.
Qed.

Theorem dmrg1_ok D (mps : list (arr K)) sweeps : 1 <= n -> chain n d D mps -> positive D ->
  exists w, dmrg1 inj eig svd mpo trunc mps sweeps = Ok w /\ Forall good1 (w_log w) /\
    (exists D', chain n d D' (w_mps w)) /\ length (w_L w) = 1 /\ length (w_R w) = n /\
    map c_site (rev (w_log w)) = concat (repeat order1 (Nat.div sweeps 2)).
Proof.
  intros Hn Hc HP. unfold dmrg1, start1. pose proof Hmpo as (Lo & _). rewrite Lo.
  destruct (contract_Rs_ok D mps 0 Hc Hn) as (Rs & ER & HR). rewrite ER. cbn [bind].
  assert (H0 : Inv 1 good1 0 (mkSweep mps [one3] Rs [])).
  { exists D. cbn [w_mps w_L w_R w_log]. split; [exact Hc|]. split; [exact HP|]. split; [|split; [exact HR|constructor]].
    split; [reflexivity|]. intros [|q] L E; [|destruct q; discriminate]. cbn in E. injection E as <-. destruct Hc as (_ & _ & D0 & _). destruct Hmpo as (_ & _ & Do0 & _).
    cbn [Nat.sub]. unfold left_env. rewrite D0, Do0. apply lenv_nil. }
  destruct (turns_ok (turn1 inj eig svd mpo trunc) (Inv 1 good1 0) order1) with (m := Nat.div sweeps 2) (w := mkSweep mps [one3] Rs ([] : list (call K))) as (w & E & (D' & Hc' & _ & (HL & _) & (_ & HR' & _) & Hlog) & Lg); auto.
  { intros x Hx. apply turn1_ok; auto. }
  exists w. split; [exact E|]. split; [exact Hlog|]. split; [eauto|]. split; [exact HL|]. split; [cbn [Nat.add] in HR'; lia|]. exact Lg.
Qed.

(** ** Two-site sweeps *)
Lemma coarse_at D (mps : list (arr K)) i : chain n d D mps -> S i < n ->
  exists A B C, at_ mps i = Ok A /\ at_ mps (S i) = Ok B /\ coarse_grain_mps A B = Ok C /\ nth 0 (shape A) 0 = d i /\ nth 0 (shape B) 0 = d (S i) /\
    wf C /\ shape C = [d i * d (S i); D i; D (S (S i))].
Proof.
  intros Hc Hi. destruct (at_mps D mps i Hc) as (A & EA & _ & WA & SA); [lia|]. destruct (at_mps D mps (S i) Hc) as (B & EB & _ & WB & SB); [lia|].
  destruct (coarse_mps_ok K A B _ _ _ _ _ WA WB SA SB) as (C & EC & WC & SC & _). exists A, B, C. rewrite SA, SB. auto 10.
Qed.
Lemma coarse_mpo_at i : S i < n ->
  exists W X Y, at_ mpo i = Ok W /\ at_ mpo (S i) = Ok X /\ nth_error mpo i = Some W /\ nth_error mpo (S i) = Some X /\ coarse_grain_mpo W X = Ok Y /\
    merged (Do i) (Do (S i)) (Do (S (S i))) (d i) (d (S i)) W X Y.
Proof.
  intros Hi. destruct (at_mpo i) as (W & EW & NW & WW & SW); [lia|]. destruct (at_mpo (S i)) as (X & EX & NX & WX & SX); [lia|].
  destruct (coarse_mpo_ok K W X _ _ _ _ _ _ _ WW WX SW SX) as (Y & EY & WY & SY & GY). exists W, X, Y. do 5 (split; auto). split; [exact WY|]. split; [exact SY|].
  intros. apply GY; auto.
Qed.

Lemma right2_ok i w : S (S i) < n -> Inv 2 good2 i w ->
  exists w', right2 inj eig svd mpo trunc w i = Ok w' /\ Inv 2 good2 (S i) w' /\ map c_site (w_log w') = i :: map c_site (w_log w).
Proof.
  intros Hi (D & Hc & HP & HL & HR & Hlog). destruct w as [mps Ls Rs log]. cbn [w_mps w_L w_R w_log] in *.
  destruct (tops_L _ _ _ _ HL) as (L & Ls' & -> & EL). destruct (tops_R _ _ _ _ HR) as (R & Rs' & -> & ER). replace (i + 2) with (S (S i)) in * by lia.
  unfold right2. cbn [w_mps w_L w_R w_log top_ bind tl]. replace (i + 1) with (S i) by lia.
  destruct (coarse_at D mps i Hc) as (A & B & C & EA & EB & EC & NA & NB & WC & SC); [lia|]. rewrite EA. cbn [bind]. rewrite EB. cbn [bind]. rewrite EC. cbn [bind]. rewrite NA, NB.
  destruct (coarse_mpo_at i) as (W & X & Y & EW & EX & NW & NX & EY & HM); [lia|]. rewrite EW. cbn [bind]. rewrite EX. cbn [bind]. rewrite EY. cbn [bind].
  pose proof EL as (_ & SL & _). pose proof ER as (_ & SR & _). pose proof HM as (_ & SY & _).
  destruct (opt_ok L Y R C _ _ _ _ _ SL SY SR WC SC) as (C1 & EO & WC1 & SC1). rewrite EO. cbn [bind].
  destruct (fine_shapes C1 (d i) (d (S i)) (D i) (D (S (S i))) true WC1 SC1) as (A2 & B2 & m & EF & WA2 & WB2 & SA2 & SB2 & Hm); try (apply Hd; lia); try (apply HP; lia).
  rewrite EF. cbn [bind fst snd].
  destruct (replace_pair D mps i m A2 B2 Hc HP ltac:(lia) Hm WA2 SA2 WB2 SB2) as (Hc' & HP' & EA' & EB' & HF & HS).
  set (D' := set_bond D (S i) m) in *. set (mps' := upd (S i) B2 (upd i A2 mps)) in *.
  destruct (HF i (Nat.le_refl i)) as (E1 & E2). pose proof (left_env_ext D D' mps mps' i L E1 E2 EL) as EL'.
  destruct (left_step D' mps' i L A2 W Hc') as (L2 & ECC & HL2); auto; [lia|]. rewrite ECC. cbn [bind].
  eexists. split; [reflexivity|]. split; [|reflexivity]. exists D'. cbn [w_mps w_L w_R w_log].
  split; [exact Hc'|]. split; [exact HP'|]. split; [apply Lok_cons; auto; eapply Lok_ext; [exact HF|exact HL]|]. split.
  - replace (S i + 2) with (S (S (S i))) by lia. eapply Rok_tl in HR; [|lia]. eapply Rok_ext; [|exact HR]. intros q Hq. apply HS. lia.
  - constructor; auto. exists D, W, X. cbn [c_site c_mps c_L c_W c_R]. do 2 (split; [auto; lia|]). auto.
Qed.

Lemma left2_ok i w : S (S i) < n -> Inv 2 good2 (S i) w ->
  exists w', left2 inj eig svd mpo trunc w (S (S i)) = Ok w' /\ Inv 2 good2 i w' /\ map c_site (w_log w') = S i :: map c_site (w_log w).
Proof.
  intros Hi (D & Hc & HP & HL & HR & Hlog). destruct w as [mps Ls Rs log]. cbn [w_mps w_L w_R w_log] in *.
  destruct (tops_L _ _ _ _ HL) as (L & Ls' & -> & EL). destruct (tops_R _ _ _ _ HR) as (R & Rs' & -> & ER). replace (S i + 2) with (S (S (S i))) in * by lia.
  unfold left2. cbn [w_mps w_L w_R w_log top_ bind tl]. replace (S (S i) - 1) with (S i) by lia.
  destruct (coarse_at D mps (S i) Hc) as (A & B & C & EA & EB & EC & NA & NB & WC & SC); [lia|]. rewrite EA. cbn [bind]. rewrite EB. cbn [bind]. rewrite EC. cbn [bind]. rewrite NA, NB.
  destruct (coarse_mpo_at (S i)) as (W & X & Y & EW & EX & NW & NX & EY & HM); [lia|]. rewrite EW. cbn [bind]. rewrite EX. cbn [bind]. rewrite EY. cbn [bind].
  pose proof EL as (_ & SL & _). pose proof ER as (_ & SR & _). pose proof HM as (_ & SY & _).
  destruct (opt_ok L Y R C _ _ _ _ _ SL SY SR WC SC) as (C1 & EO & WC1 & SC1). rewrite EO. cbn [bind].
  destruct (fine_shapes C1 (d (S i)) (d (S (S i))) (D (S i)) (D (S (S (S i)))) false WC1 SC1) as (A2 & B2 & m & EF & WA2 & WB2 & SA2 & SB2 & Hm); try (apply Hd; lia); try (apply HP; lia).
  rewrite EF. cbn [bind fst snd].
  destruct (replace_pair D mps (S i) m A2 B2 Hc HP ltac:(lia) Hm WA2 SA2 WB2 SB2) as (Hc' & HP' & EA' & EB' & HF & HS).
  set (D' := set_bond D (S (S i)) m) in *. set (mps' := upd (S (S i)) B2 (upd (S i) A2 mps)) in *.
  destruct (HS (S (S (S i))) (Nat.le_refl _)) as (E1 & E2). pose proof (right_env_ext D D' mps mps' _ R E1 E2 ER) as ER'.
  destruct (right_step D' mps' (S (S i)) R B2 X Hc') as (R2 & ECC & HR2); auto. rewrite ECC. cbn [bind].
  eexists. split; [reflexivity|]. split; [|reflexivity]. exists D'. cbn [w_mps w_L w_R w_log].
  split; [exact Hc'|]. split; [exact HP'|]. split; [|split].
  - eapply Lok_tl in HL. eapply Lok_ext; [|exact HL]. intros q Hq. apply HF. lia.
  - replace (i + 2) with (S (S i)) by lia. apply Rok_cons; auto. eapply Rok_ext; [exact HS|exact HR].
  - constructor; auto. exists D, W, X. cbn [c_site c_mps c_L c_W c_R]. do 2 (split; [auto; lia|]). auto.
Qed.

Lemma turn2_ok w : 2 <= n -> Inv 2 good2 0 w -> exists w', turn2 inj eig svd mpo trunc w = Ok w' /\ Inv 2 good2 0 w' /\ map c_site (w_log w') = rev order2 ++ map c_site (w_log w).
Proof.
  intros Hn H0. unfold turn2. destruct Hmpo as (Lo & _). rewrite Lo.
  destruct (fold_up (right2 inj eig svd mpo trunc) (Inv 2 good2) (n - 2)) with (m := n - 2) (p := 0) (w := w) as (w1 & E1 & P1 & L1); auto.
  { intros i x Hi Hx. apply right2_ok; auto. lia. }
  rewrite E1. cbn [bind Nat.add] in *. pose proof P1 as (D & (Lm & _) & _). rewrite Lm. unfold down. cbn [Nat.add]. replace (n - 1 - 1) with (n - 2) by lia.
  destruct (fold_down (left2 inj eig svd mpo trunc) (Inv 2 good2) pred 2 (n - 2)) with (w := w1) as (w2 & E2 & P2 & L2); auto.
  { intros i x Hi Hx. destruct i as [|[|i]]; try lia. replace (S (S (S i)) - 2) with (S i) in Hx by lia. replace (S (S i) - 2) with i by lia. apply left2_ok; auto. lia. }
  exists w2. split; [exact E2|]. split; [exact P2|]. unfold order2. rewrite L2, L1, rev_app_distr, rev_involutive, app_assoc. do 2 f_equal.
  rewrite <- (seq_shift (n - 2) 1), map_map. cbn [pred]. apply map_id.
Qed.

Theorem dmrg2_ok D (mps : list (arr K)) sweeps : 2 <= n -> chain n d D mps -> positive D ->
  exists w, dmrg2 inj eig svd mpo trunc mps sweeps = Ok w /\ Forall good2 (w_log w) /\
    (exists D', chain n d D' (w_mps w)) /\ length (w_L w) = 1 /\ length (w_R w) = n - 1 /\
    map c_site (rev (w_log w)) = concat (repeat order2 (Nat.div sweeps 2)).
Proof.
  intros Hn Hc HP. unfold dmrg2, start2. pose proof Hmpo as (Lo & _). rewrite Lo.
  destruct (contract_Rs_ok D mps 1 Hc Hn) as (Rs & ER & HR). rewrite ER. cbn [bind].
  assert (H0 : Inv 2 good2 0 (mkSweep mps [one3] Rs [])).
  { exists D. cbn [w_mps w_L w_R w_log]. split; [exact Hc|]. split; [exact HP|]. split; [|split; [exact HR|constructor]].
    split; [reflexivity|]. intros [|q] L E; [|destruct q; discriminate]. cbn in E. injection E as <-. destruct Hc as (_ & _ & D0 & _). destruct Hmpo as (_ & _ & Do0 & _).
    cbn [Nat.sub]. unfold left_env. rewrite D0, Do0. apply lenv_nil. }
  destruct (turns_ok (turn2 inj eig svd mpo trunc) (Inv 2 good2 0) order2) with (m := Nat.div sweeps 2) (w := mkSweep mps [one3] Rs ([] : list (call K))) as (w & E & (D' & Hc' & _ & (HL & _) & (_ & HR' & _) & Hlog) & Lg); auto.
  { intros x Hx. apply turn2_ok; auto. }
  exists w. split; [exact E|]. split; [exact Hlog|]. split; [eauto|]. split; [exact HL|]. split; [cbn [Nat.add] in HR'; lia|]. exact Lg.
Qed.
End Sweeps.

Section Exact.
Variable K : StarRing.
Add Ring Kdx : (r_theory K).
Local Open Scope star_scope.

(** Two neighbours with the same product give the same state. *)
Lemma pair_dense n d D (l r : list (arr K)) A B A' B' m ss :
  chain n d D (l ++ A :: B :: r) -> let p := length l in
  shape A' = [d p; D p; m] -> shape B' = [d (S p); m; D (S (S p))] ->
  (forall s t i k, (s < d p)%nat -> (t < d (S p))%nat -> (i < D p)%nat -> (k < D (S (S p)))%nat ->
    sumn m (fun j => get A' [s; i; j] * get B' [t; j; k]) = sumn (D (S p)) (fun j => get A [s; i; j] * get B [t; j; k])) ->
  in_range ss (map d (seq 0 n)) -> dense (l ++ A' :: B' :: r) ss = dense (l ++ A :: B :: r) ss.
Proof.
  intros (L & F & D0 & Dn) p SA' SB' H R. rewrite app_length in L. cbn [length] in L.
  pose proof (in_range_len _ _ R) as Ls. rewrite map_length, seq_length in Ls.
  apply fits_app in F as (Fl & (WA & SA) & (WB & SB) & Fr). cbn [Nat.add] in *. fold p in SA, SB, Fr.
  assert (X : exists s1 s t s2, ss = s1 ++ s :: t :: s2 /\ length s1 = length l) by (apply split_at2; lia).
  destruct X as (s1 & s & t & s2 & -> & L1). rewrite app_length in Ls. cbn [length] in Ls.
  assert (Bs : (s < d p)%nat /\ (t < d (S p))%nat).
  { pose proof (in_range_nth p _ _ R) as Q1. pose proof (in_range_nth (S p) _ _ R) as Q2. rewrite map_length, seq_length in Q1, Q2.
    rewrite app_nth2 in Q1, Q2 by lia. replace (p - length s1)%nat with O in Q1 by lia. replace (S p - length s1)%nat with 1%nat in Q2 by lia. cbn [nth] in Q1, Q2.
    assert (E : forall x, (x < n)%nat -> nth x (map d (seq 0 n)) O = d x) by (intros x Hx; rewrite (nth_indep _ O (d O)) by (rewrite map_length, seq_length; auto); rewrite map_nth, seq_nth by auto; reflexivity).
    rewrite E in Q1, Q2 by lia. split; [apply Q1|apply Q2]; lia. }
  destruct Bs as (Bs & Bt). unfold dense.
  rewrite (amp_app K d D O l (A' :: B' :: r) s1 _ O O Fl L1), (amp_app K d D O l (A :: B :: r) s1 _ O O Fl L1) by lia.
  cbn [Nat.add]. fold p. apply sumn_ext. intros i Hi. f_equal. cbn [amp]. rewrite SA, SB, SA', SB'. cbn [nth].
  transitivity (sumn (D (S (S p))) (fun k => sumn m (fun j => get A' [s; i; j] * get B' [t; j; k]) * amp r s2 k O)).
  - etransitivity; [apply sumn_ext; intros j _; rewrite <- sumn_scal_l; reflexivity|]. rewrite sumn_swap. apply sumn_ext. intros k Hk. rewrite <- sumn_scal_r. apply sumn_ext. intros j _. ring.
  - symmetry. etransitivity; [apply sumn_ext; intros j _; rewrite <- sumn_scal_l; reflexivity|]. rewrite sumn_swap. apply sumn_ext. intros k Hk. rewrite H by auto. rewrite <- sumn_scal_r. apply sumn_ext. intros j _. ring.
Qed.

(** ** Environments that are up to date give the effective Hamiltonian. *)
Lemma effective1 n d Do (mpo mps : list (arr K)) s L W R A B :
  chain_op n d d Do mpo -> up_to_date1 n d Do mpo s mps L W R ->
  let y := nth 2 (shape L) O in let y' := nth 2 (shape R) O in
  wf A -> shape A = [d s; y; y'] -> wf B -> shape B = [d s; y; y'] ->
  exists v, matvec L W R A = Ok v /\ shape v = [prod [d s; y; y']] /\
  sumn (d s) (fun t => sumn y (fun j => sumn y' (fun k => get B [t; j; k] * get v [ravel [d s; y; y'] [t; j; k]])))
  = dense_element (upd s A mps) mpo (upd s B mps).
Proof.
  intros (Lo & Fo & Do0 & Don) (D & (Lm & Fm & D0 & Dn) & Hs & NW & HL & HR) y y' WA SA WB SB.
  pose proof HL as (_ & SL & _). pose proof HR as (_ & SR & _). unfold y, y' in *. rewrite SL, SR in *. cbn [nth] in *.
  destruct (split_at mps s) as (l & A0 & r & -> & Ll); [lia|]. destruct (split_at mpo s) as (lo & W0 & ro & -> & Llo); [lia|].
  rewrite <- Llo, nth_error_app2, Nat.sub_diag in NW by lia. injection NW as ->.
  rewrite app_length in Lm, Lo. cbn [length] in Lm, Lo. subst s. rewrite !upd_app.
  apply fits_app in Fm as (Fl & _). apply fits_op_app in Fo as (Flo & (WW & SW) & _). rewrite Llo in SW. cbn [Nat.add] in SW.
  assert (HL' : lenv K l lo l (Do (length l)) (D (length l)) (D (length l)) L).
  { unfold left_env in HL. rewrite (firstn_app_eq l) in HL. replace (firstn (length l) (lo ++ W :: ro)) with lo in HL by (rewrite <- Llo; symmetry; apply firstn_app_eq). exact HL. }
  assert (HR' : renv K r ro r (Do (S (length l))) (D (S (length l))) (D (S (length l))) R).
  { unfold right_env in HR. rewrite (skipn_S_app l r) in HR. replace (skipn (S (length l)) (lo ++ W :: ro)) with ro in HR by (rewrite <- Llo; symmetry; apply skipn_S_app). exact HR. }
  apply (effective K d D Do l lo r ro L W R A B (S (length l)) (d (length l))); auto. lia.
Qed.
Lemma effective2 n d Do (mpo mps : list (arr K)) s L Y R A B :
  chain_op n d d Do mpo -> up_to_date2 n d Do mpo s mps L Y R ->
  let y := nth 2 (shape L) O in let y' := nth 2 (shape R) O in let dd := (d s * d (S s))%nat in
  wf A -> shape A = [dd; y; y'] -> wf B -> shape B = [dd; y; y'] ->
  let put X l := firstn s l ++ X :: skipn (S (S s)) l in
  exists v, matvec L Y R A = Ok v /\ shape v = [prod [dd; y; y']] /\
  sumn dd (fun t => sumn y (fun j => sumn y' (fun k => get B [t; j; k] * get v [ravel [dd; y; y'] [t; j; k]])))
  = dense_element (put A mps) (put Y mpo) (put B mps).
Proof.
  intros (Lo & Fo & Do0 & Don) (D & W & X & (Lm & Fm & D0 & Dn) & Hs & NW & NX & (WY & SY & _) & HL & HR) y y' dd WA SA WB SB put.
  pose proof HL as (_ & SL & _). pose proof HR as (_ & SR & _). unfold y, y' in *. rewrite SL, SR in *. cbn [nth] in *.
  unfold put, left_env, right_env in *.
  rewrite <- (firstn_skipn s mps) in Fm. apply fits_app in Fm as (Fl & _). rewrite <- (firstn_skipn s mpo) in Fo. apply fits_op_app in Fo as (Flo & _).
  assert (L1 : length (firstn s mps) = s) by (rewrite firstn_length; lia). assert (L2 : length (firstn s mpo) = s) by (rewrite firstn_length; lia).
  pose proof (effective K d D Do (firstn s mps) (firstn s mpo) (skipn (S (S s)) mps) (skipn (S (S s)) mpo) L Y R A B (S (S s)) dd) as E.
  cbv zeta in E. rewrite L1 in E. apply E; auto; try lia. rewrite !skipn_length. lia.
Qed.
End Exact.
