(** Matrix elements, environments and coarse graining. *)
From Coq Require Import String Ascii List Arith Bool Lia Ring.
From Verif Require Import Py Alg Ord ListX NdArray_Model NdArray_Proof Svd_Model Mps_Model Mps_Spec Mps_Proof.
Import ListNotations.
Local Open Scope nat_scope.
Notation length := Datatypes.length.

Section P.
Variable K : StarRing.
Add Ring Kenv : (r_theory K).
Local Open Scope star_scope.

(** ** Environments with different bra and ket *)
Definition lenv (l o r : list (arr K)) (x y z : nat) (L : arr K) : Prop :=
  wf L /\ shape L = [x; y; z] /\
  forall b j k, (b < x)%nat -> (j < y)%nat -> (k < z)%nat -> get L [b; j; k] = element l o r O O O j b k.
Definition renv (l o r : list (arr K)) (x y z : nat) (R : arr K) : Prop :=
  wf R /\ shape R = [x; y; z] /\
  forall a i k, (a < x)%nat -> (i < y)%nat -> (k < z)%nat -> get R [a; i; k] = element l o r i a k O O O.

Lemma element_nil : element (K := K) [] [] [] O O O O O O = 1.
Proof. unfold element. cbn [phys map]. rewrite !sum_indices_nil. cbn. ring. Qed.
Lemma lt1 x : (x < 1)%nat -> x = O. Proof. lia. Qed.
Lemma lenv_nil : lenv [] [] [] 1 1 1 (one3 (K := K)).
Proof. split; [reflexivity|]. split; [reflexivity|]. intros b j k Hb Hj Hk. apply lt1 in Hb, Hj, Hk. subst. rewrite element_nil. reflexivity. Qed.
Lemma renv_nil : renv [] [] [] 1 1 1 (one3 (K := K)).
Proof. split; [reflexivity|]. split; [reflexivity|]. intros b j k Hb Hj Hk. apply lt1 in Hb, Hj, Hk. subst. rewrite element_nil. reflexivity. Qed.

Lemma lenv_snoc d1 d2 D1 Do D2 (l o r : list (arr K)) A W B L :
  fits d1 D1 O (l ++ [A]) -> fits_op d1 d2 Do O (o ++ [W]) -> fits d2 D2 O (r ++ [B]) -> length o = length l -> length r = length l ->
  (0 < D1 O)%nat -> (0 < Do O)%nat -> (0 < D2 O)%nat ->
  let q := length l in
  lenv l o r (Do q) (D1 q) (D2 q) L ->
  exists N, contract_from_left L A (Some W) B = Ok N /\ lenv (l ++ [A]) (o ++ [W]) (r ++ [B]) (Do (S q)) (D1 (S q)) (D2 (S q)) N.
Proof.
  intros F1 Fo F2 Lo Lr H1 Ho H2 q (WL & SL & GL).
  apply fits_app in F1 as (F1 & (_ & SA) & _). apply fits_app in F2 as (F2 & (_ & SB) & _). apply fits_op_app in Fo as (Fo & (_ & SW) & _).
  rewrite Lo in SW. rewrite Lr in SB. cbn [Nat.add] in SA, SB, SW. fold q in SA, SB, SW.
  destruct (from_left_ok K L A W B _ _ _ _ _ _ _ _ SA SL SW SB) as (N & E & WN & SN & GN).
  exists N. split; [exact E|]. split; [exact WN|]. split; [exact SN|]. intros b j k Hb Hj Hk.
  rewrite GN by auto. rewrite (element_app K d1 d2 D1 Do D2 O l [A] o [W] r [B]); auto. cbn [Nat.add]. fold q.
  apply sumn_ext. intros i Hi. apply sumn_ext. intros a Ha. apply sumn_ext. intros x Hx. rewrite GL by auto. reflexivity.
Qed.

Lemma renv_cons d1 d2 D1 Do D2 p (l o r : list (arr K)) A W B R :
  fits d1 D1 p (A :: l) -> fits_op d1 d2 Do p (W :: o) -> fits d2 D2 p (B :: r) ->
  renv l o r (Do (S p)) (D1 (S p)) (D2 (S p)) R ->
  exists N, contract_from_right R A (Some W) B = Ok N /\ renv (A :: l) (W :: o) (B :: r) (Do p) (D1 p) (D2 p) N.
Proof.
  intros F1 Fo F2 (WR & SR & GR). cbn [fits fits_op] in F1, Fo, F2.
  destruct F1 as ((WA & SA) & F1). destruct F2 as ((WB & SB) & F2). destruct Fo as ((WW & SW) & Fo).
  destruct (from_right_ok K R A W B _ _ _ _ _ _ _ _ SA SR SW SB) as (N & E & WN & SN & GN).
  exists N. split; [exact E|]. split; [exact WN|]. split; [exact SN|]. intros a i k Ha Hi Hk.
  rewrite GN by auto.
  rewrite (element_app K d1 d2 D1 Do D2 p [A] l [W] o [B] r); auto; try (cbn; auto; fail).
  cbn [length]. replace (p + 1)%nat with (S p) by lia.
  apply sumn_ext. intros j Hj. apply sumn_ext. intros b Hb. apply sumn_ext. intros x Hx. rewrite GR by auto. reflexivity.
Qed.

(** ** [mat_element] *)
Lemma at_app {X} (l : list X) x r : at_ (l ++ x :: r) (length l) = Ok x.
Proof. unfold at_. rewrite nth_error_app2, Nat.sub_diag by lia. reflexivity. Qed.

Lemma split_cons {X} (l : list X) x r : l ++ x :: r = (l ++ [x]) ++ r.
Proof. now rewrite <- app_assoc. Qed.

Lemma loop_ok d1 d2 D1 Do D2 (o' l l' o r r' : list (arr K)) L :
  fits d1 D1 O (l ++ l') -> fits_op d1 d2 Do O (o ++ o') -> fits d2 D2 O (r ++ r') ->
  length o = length l -> length r = length l -> length l' = length o' -> length r' = length o' ->
  (0 < D1 O)%nat -> (0 < Do O)%nat -> (0 < D2 O)%nat ->
  lenv l o r (Do (length l)) (D1 (length l)) (D2 (length l)) L ->
  exists N, element_loop (l ++ l') (Some (o ++ o')) (r ++ r') (seq (length l) (length o')) L = Ok N /\
    let n := (length l + length o')%nat in lenv (l ++ l') (o ++ o') (r ++ r') (Do n) (D1 n) (D2 n) N.
Proof.
  revert l l' o r r' L. induction o' as [|W o' IH]; intros l l' o r r' L F1 Fo F2 Lo Lr Ll' Lr' P1 Po P2 HL.
  - destruct l'; try discriminate. destruct r'; try discriminate. exists L. split; [reflexivity|]. cbn [length]. rewrite Nat.add_0_r, !app_nil_r. exact HL.
  - destruct l' as [|A l']; try discriminate. destruct r' as [|B r']; try discriminate.
    cbn [length seq element_loop]. rewrite at_app. cbn [bind].
    replace (at_ (o ++ W :: o') (length l)) with (Ok W) by (rewrite <- Lo, at_app; reflexivity). cbn [bind].
    replace (at_ (r ++ B :: r') (length l)) with (Ok B) by (rewrite <- Lr, at_app; reflexivity). cbn [bind].
    rewrite (split_cons l A l') in *. rewrite (split_cons o W o') in *. rewrite (split_cons r B r') in *.
    destruct (lenv_snoc d1 d2 D1 Do D2 l o r A W B L) as (N & E & HN); auto.
    { apply fits_app in F1. tauto. } { apply fits_op_app in Fo. tauto. } { apply fits_app in F2. tauto. }
    rewrite E. cbn [bind].
    destruct (IH (l ++ [A]) l' (o ++ [W]) (r ++ [B]) r' N) as (M & EM & HM); auto; rewrite ?app_length; cbn [length] in *; try lia.
    + replace (length l + 1)%nat with (S (length l)) by lia. exact HN.
    + rewrite app_length in EM, HM. cbn [length] in EM, HM. exists M.
      replace (length l + 1)%nat with (S (length l)) in EM, HM by lia. split; [exact EM|].
      cbn zeta in HM |- *. replace (length l + S (length o'))%nat with (S (length l) + length o')%nat by lia. exact HM.
Qed.

Theorem mat_element_ok n d1 d2 D1 Do D2 (m1 o m2 : list (arr K)) :
  chain n d1 D1 m1 -> chain_op n d1 d2 Do o -> chain n d2 D2 m2 ->
  mat_element m1 (Some o) m2 = Ok (dense_element m1 o m2).
Proof.
  intros (L1 & F1 & S1 & T1) (Lo & Fo & So & To) (L2 & F2 & S2 & T2).
  destruct (loop_ok d1 d2 D1 Do D2 o [] m1 [] [] m2 one3) as (N & E & WN & SN & GN); cbn [app length]; auto; try lia.
  - rewrite S1, So, S2. apply lenv_nil.
  - cbn [app length Nat.add] in *. unfold mat_element. rewrite E. cbn [bind]. rewrite GN; [reflexivity|..]; rewrite Lo; lia.
Qed.

(** The same from the right. *)
Fixpoint element_right (m1 o m2 : list (arr K)) : res (arr K) :=
  match m1, o, m2 with
  | A :: m1, W :: o, B :: m2 => bind (element_right m1 o m2) (fun R => contract_from_right R A (Some W) B)
  | _, _, _ => Ok one3
  end.

Lemma right_ok d1 d2 D1 Do D2 p (m1 o m2 : list (arr K)) :
  fits d1 D1 p m1 -> fits_op d1 d2 Do p o -> fits d2 D2 p m2 -> length m1 = length o -> length m2 = length o ->
  let n := (p + length o)%nat in D1 n = 1%nat -> Do n = 1%nat -> D2 n = 1%nat ->
  exists R, element_right m1 o m2 = Ok R /\ renv m1 o m2 (Do p) (D1 p) (D2 p) R.
Proof.
  revert p m1 m2. induction o as [|W o IH]; intros p m1 m2 F1 Fo F2 L1 L2 n H1 Ho H2; destruct m1 as [|A m1]; try discriminate; destruct m2 as [|B m2]; try discriminate.
  - cbn [length] in n. exists one3. split; [reflexivity|]. subst n. rewrite Nat.add_0_r in *. rewrite H1, Ho, H2. apply renv_nil.
  - cbn [length] in *. subst n. rewrite <- plus_n_Sm in *.
    destruct (IH (S p) m1 m2) as (R & E & HR); auto; try apply F1; try apply Fo; try apply F2.
    cbn [element_right]. rewrite E. cbn [bind]. eapply renv_cons; eauto.
Qed.

Theorem element_right_ok n d1 d2 D1 Do D2 (m1 o m2 : list (arr K)) :
  chain n d1 D1 m1 -> chain_op n d1 d2 Do o -> chain n d2 D2 m2 ->
  exists R, element_right m1 o m2 = Ok R /\ shape R = [1; 1; 1]%nat /\ get R [O; O; O] = dense_element m1 o m2.
Proof.
  intros (L1 & F1 & S1 & T1) (Lo & Fo & So & To) (L2 & F2 & S2 & T2).
  destruct (right_ok d1 d2 D1 Do D2 O m1 o m2) as (R & E & WR & SR & GR); auto; try congruence; cbn [Nat.add]; try (rewrite Lo; auto).
  exists R. rewrite S1, So, S2 in *. split; [exact E|]. split; [exact SR|]. rewrite GR by lia. reflexivity.
Qed.

(** ** Without operator *)
Definition lenv0 (l r : list (arr K)) (y z : nat) (L : arr K) : Prop :=
  wf L /\ shape L = [y; z] /\ forall j k, (j < y)%nat -> (k < z)%nat -> get L [j; k] = overlap l r O O j k.
Lemma loop0_ok d D1 D2 (l' l r r' : list (arr K)) L :
  fits d D1 O (l ++ l') -> fits d D2 O (r ++ r') -> length r = length l -> length r' = length l' ->
  (0 < D1 O)%nat -> (0 < D2 O)%nat ->
  lenv0 l r (D1 (length l)) (D2 (length l)) L ->
  exists N, element_loop (l ++ l') None (r ++ r') (seq (length l) (length l')) L = Ok N /\
    let n := (length l + length l')%nat in lenv0 (l ++ l') (r ++ r') (D1 n) (D2 n) N.
Proof.
  revert l r r' L. induction l' as [|A l' IH]; intros l r r' L F1 F2 Lr Lr' P1 P2 HL.
  - destruct r'; try discriminate. exists L. split; [reflexivity|]. cbn [length]. rewrite Nat.add_0_r, !app_nil_r. exact HL.
  - destruct r' as [|B r']; try discriminate.
    cbn [length seq element_loop]. rewrite at_app. cbn [bind].
    replace (at_ (r ++ B :: r') (length l)) with (Ok B) by (rewrite <- Lr, at_app; reflexivity). cbn [bind].
    rewrite (split_cons l A l') in *. rewrite (split_cons r B r') in *. pose proof F1 as F1'. pose proof F2 as F2'.
    apply fits_app in F1 as (F1 & _). apply fits_app in F2 as (F2 & _).
    apply fits_app in F1 as (F1 & (_ & SA) & _). apply fits_app in F2 as (F2 & (_ & SB) & _). rewrite Lr in SB. cbn [Nat.add] in SA, SB.
    destruct HL as (WL & SL & GL).
    destruct (from_left_none K L A B _ _ _ _ _ SA SL SB) as (N & E & WN & SN & GN). rewrite E. cbn [bind].
    destruct (IH (l ++ [A]) (r ++ [B]) r' N) as (M & EM & HM); auto; rewrite ?app_length; cbn [length] in *; try lia.
    + replace (length l + 1)%nat with (S (length l)) by lia. split; [exact WN|]. split; [exact SN|]. intros j k Hj Hk.
      rewrite GN by auto. rewrite (overlap_app K d D1 D2 O l [A] r [B]); auto.
      apply sumn_ext. intros i Hi. apply sumn_ext. intros x Hx. rewrite GL by auto. reflexivity.
    + rewrite app_length in EM, HM. cbn [length] in EM, HM. exists M.
      replace (length l + 1)%nat with (S (length l)) in EM, HM by lia. split; [exact EM|].
      cbn zeta in HM |- *. replace (length l + S (length l'))%nat with (S (length l) + length l')%nat by lia. exact HM.
Qed.
Theorem mat_element_none_ok n d D1 D2 (m1 m2 : list (arr K)) :
  chain n d D1 m1 -> chain n d D2 m2 -> mat_element m1 None m2 = Ok (dense_overlap m1 m2).
Proof.
  intros (L1 & F1 & S1 & T1) (L2 & F2 & S2 & T2).
  destruct (loop0_ok d D1 D2 m1 [] [] m2 one2) as (N & E & WN & SN & GN); cbn [app length]; auto; try lia.
  - rewrite S1, S2. split; [reflexivity|]. split; [reflexivity|]. intros j k Hj Hk. apply lt1 in Hj, Hk. subst.
    unfold overlap. cbn [phys map]. rewrite sum_indices_nil. cbn. ring.
  - cbn [app length Nat.add] in *. unfold mat_element. rewrite L1, L2, Nat.eqb_refl. cbn [negb]. rewrite L1 in *. rewrite E. cbn [bind].
    rewrite GN; [reflexivity|..]; lia.
Qed.

(** ** Coarse graining *)
Lemma coarse_mps_ok (A B : arr K) d1 d2 x y z : wf A -> wf B -> shape A = [d1; x; y] -> shape B = [d2; y; z] ->
  exists C, coarse_grain_mps A B = Ok C /\ wf C /\ shape C = [(d1 * d2)%nat; x; z] /\
  forall s t i k, (s < d1)%nat -> (t < d2)%nat -> (i < x)%nat -> (k < z)%nat ->
    get C [(s * d2 + t)%nat; i; k] = sumn y (fun j => get A [s; i; j] * get B [t; j; k]).
Proof.
  intros WA WB SA SB. unfold coarse_grain_mps. rewrite SA, SB. cbn [nth].
  destruct (es_sij_tjk K A B x y z d1 d2 SA SB) as (c & E & Wc & Sc & Gc). rewrite E. cbn [bind].
  rewrite (reshape_ok K c) by (auto; rewrite Sc; cbn; lia). eexists. split; [reflexivity|].
  split; [unfold wf in *; cbn [data shape]; rewrite Wc, Sc; cbn; lia|]. split; [reflexivity|].
  intros s t i k Hs Ht Hi Hk. rewrite <- Gc by auto. rewrite (arr_eta K c), Sc. apply get_reshape_data. cbn. lia.
Qed.
Lemma coarse_mpo_ok (W X : arr K) a b c ds dt du dv : wf W -> wf X -> shape W = [a; b; ds; dt] -> shape X = [b; c; du; dv] ->
  exists Y, coarse_grain_mpo W X = Ok Y /\ wf Y /\ shape Y = [a; c; (ds * du)%nat; (dt * dv)%nat] /\
  forall a' c' s u t v, (a' < a)%nat -> (c' < c)%nat -> (s < ds)%nat -> (u < du)%nat -> (t < dt)%nat -> (v < dv)%nat ->
    get Y [a'; c'; (s * du + u)%nat; (t * dv + v)%nat] = sumn b (fun b' => get W [a'; b'; s; t] * get X [b'; c'; u; v]).
Proof.
  intros WW WX SW SX. unfold coarse_grain_mpo. rewrite SW, SX. cbn [nth].
  destruct (es_abst_bcuv K W X a b c ds dt du dv SW SX) as (y & E & Wy & Sy & Gy). rewrite E. cbn [bind].
  rewrite (reshape_ok K y) by (auto; rewrite Sy; cbn; lia). eexists. split; [reflexivity|].
  split; [unfold wf in *; cbn [data shape]; rewrite Wy, Sy; cbn; lia|]. split; [reflexivity|].
  intros a' c' s u t v Ha Hc Hs Hu Ht Hv. rewrite <- Gy by auto. rewrite (arr_eta K y), Sy. apply get_reshape_data. cbn. lia.
Qed.

Lemma sumn_pair n m (f : nat -> K) : sumn (n * m) f = sumn n (fun s => sumn m (fun t => f (s * m + t)%nat)).
Proof.
  replace (n * m)%nat with (prod [n; m]) by (cbn; lia). rewrite sumn_ravel_gen, sum_indices_cons. apply sumn_ext. intros s _.
  rewrite sum_indices_single. apply sumn_ext. intros t _. f_equal. cbn. lia.
Qed.

Lemma amp_two (A B : arr K) d1 d2 x y z s t i k : shape A = [d1; x; y] -> shape B = [d2; y; z] -> (k < z)%nat ->
  amp [A; B] [s; t] i k = sumn y (fun j => get A [s; i; j] * get B [t; j; k]).
Proof.
  intros SA SB Hk. change (amp [A; B] [s; t] i k) with (sumn (nth 2 (shape A) O) (fun m => get A [s; i; m] * amp [B] [t] m k)).
  rewrite SA. cbn [nth]. apply sumn_ext. intros j Hj. rewrite (amp_one K B d2 y z); auto.
Qed.
Lemma oper_two (W X : arr K) a b c ds dt du dv s u t v a' c' : shape W = [a; b; ds; dt] -> shape X = [b; c; du; dv] -> (c' < c)%nat ->
  oper [W; X] [s; u] [t; v] a' c' = sumn b (fun b' => get W [a'; b'; s; t] * get X [b'; c'; u; v]).
Proof.
  intros SW SX Hk. change (oper [W; X] [s; u] [t; v] a' c') with (sumn (nth 1 (shape W) O) (fun m => get W [a'; m; s; t] * oper [X] [u] [v] m c')).
  rewrite SW. cbn [nth]. apply sumn_ext. intros j Hj. rewrite (oper_one K X b c du dv); auto.
Qed.

(** Two sites merged give the same transfer matrix. *)
Lemma element_merge (A B W X A' B' C Y C' : arr K) d1 d2 e1 e2 x y z a b c x' y' z' i al k j ga l :
  wf A -> wf B -> wf W -> wf X -> wf A' -> wf B' ->
  shape A = [d1; x; y] -> shape B = [d2; y; z] -> shape W = [a; b; d1; e1] -> shape X = [b; c; d2; e2] ->
  shape A' = [e1; x'; y'] -> shape B' = [e2; y'; z'] ->
  coarse_grain_mps A B = Ok C -> coarse_grain_mpo W X = Ok Y -> coarse_grain_mps A' B' = Ok C' ->
  (i < x)%nat -> (al < a)%nat -> (k < x')%nat -> (j < z)%nat -> (ga < c)%nat -> (l < z')%nat ->
  element [C] [Y] [C'] i al k j ga l = element [A; B] [W; X] [A'; B'] i al k j ga l.
Proof.
  intros WA WB WW WX WA' WB' SA SB SW SX SA' SB' EC EY EC' Hi Ha Hk Hj Hg Hl.
  destruct (coarse_mps_ok A B d1 d2 x y z WA WB SA SB) as (C0 & E0 & WC & SC & GC). assert (C0 = C) by congruence. subst C0.
  destruct (coarse_mps_ok A' B' e1 e2 x' y' z' WA' WB' SA' SB') as (C0 & E1 & WC' & SC' & GC'). assert (C0 = C') by congruence. subst C0.
  destruct (coarse_mpo_ok W X a b c d1 e1 d2 e2 WW WX SW SX) as (C0 & E2 & WY & SY & GY). assert (C0 = Y) by congruence. subst C0.
  rewrite (element_one K C Y C' _ _ i al k j ga l _ _ _ _ _ _ SC SY SC' Hj Hg Hl). rewrite sumn_pair.
  unfold element, phys. cbn [map]. rewrite SA, SB, SA', SB'. cbn [nth]. rewrite sum_indices_cons. apply sumn_ext. intros s Hs.
  rewrite sum_indices_single. apply sumn_ext. intros u Hu. rewrite sumn_pair, sum_indices_cons. apply sumn_ext. intros t Ht.
  rewrite sum_indices_single. apply sumn_ext. intros v Hv.
  rewrite (amp_two A B d1 d2 x y z), (amp_two A' B' e1 e2 x' y' z'), (oper_two W X a b c d1 e1 d2 e2); auto.
  rewrite GC, GC', GY; auto.
Qed.

(** Removing the bond [p + 1], joining the sites [p] and [p + 1]. *)
Definition drop_bond (p : nat) (D : nat -> nat) (x : nat) : nat := if (x <=? p)%nat then D x else D (S x).
Definition join_site (p : nat) (d : nat -> nat) (x : nat) : nat := if (x <? p)%nat then d x else if (x =? p)%nat then (d p * d (S p))%nat else d (S x).
Lemma fits_before d D d' D' p (l : list (arr K)) : (forall x, (p <= x < p + length l)%nat -> d' x = d x) -> (forall x, (p <= x <= p + length l)%nat -> D' x = D x) ->
  fits d D p l -> fits d' D' p l.
Proof.
  revert p. induction l as [|A l IH]; intros p H1 H2; cbn [fits length] in *; auto. intros ((WA & SA) & F). split.
  - split; auto. rewrite SA, H1, !H2 by lia. reflexivity.
  - apply IH; auto; intros; [apply H1|apply H2]; lia.
Qed.
Lemma fits_after d D d' D' p (l : list (arr K)) : (forall x, (p <= x)%nat -> d' x = d (S x)) -> (forall x, (p <= x)%nat -> D' x = D (S x)) ->
  fits d D (S p) l -> fits d' D' p l.
Proof.
  revert p. induction l as [|A l IH]; intros p H1 H2; cbn [fits] in *; auto. intros ((WA & SA) & F). split.
  - split; auto. rewrite SA, H1, !H2 by lia. reflexivity.
  - apply IH; auto; intros; [apply H1|apply H2]; lia.
Qed.
Lemma fits_op_before d e D d' e' D' p (l : list (arr K)) : (forall x, (p <= x < p + length l)%nat -> d' x = d x) -> (forall x, (p <= x < p + length l)%nat -> e' x = e x) -> (forall x, (p <= x <= p + length l)%nat -> D' x = D x) ->
  fits_op d e D p l -> fits_op d' e' D' p l.
Proof.
  revert p. induction l as [|A l IH]; intros p H1 H3 H2; cbn [fits_op length] in *; auto. intros ((WA & SA) & F). split.
  - split; auto. rewrite SA, H1, H3, !H2 by lia. reflexivity.
  - apply IH; auto; intros; [apply H1|apply H3|apply H2]; lia.
Qed.
Lemma fits_op_after d e D d' e' D' p (l : list (arr K)) : (forall x, (p <= x)%nat -> d' x = d (S x)) -> (forall x, (p <= x)%nat -> e' x = e (S x)) -> (forall x, (p <= x)%nat -> D' x = D (S x)) ->
  fits_op d e D (S p) l -> fits_op d' e' D' p l.
Proof.
  revert p. induction l as [|A l IH]; intros p H1 H3 H2; cbn [fits_op] in *; auto. intros ((WA & SA) & F). split.
  - split; auto. rewrite SA, H1, H3, !H2 by lia. reflexivity.
  - apply IH; auto; intros; [apply H1|apply H3|apply H2]; lia.
Qed.

Ltac jb := unfold drop_bond, join_site; repeat match goal with |- context[(?a <=? ?b)%nat] => destruct (Nat.leb_spec a b) | |- context[(?a <? ?b)%nat] => destruct (Nat.ltb_spec a b) | |- context[(?a =? ?b)%nat] => destruct (Nat.eqb_spec a b) end; try lia; auto.

Lemma join_fits d D (l r : list (arr K)) A B C p : p = length l -> fits d D O (l ++ A :: B :: r) ->
  coarse_grain_mps A B = Ok C -> fits (join_site p d) (drop_bond p D) O (l ++ C :: r).
Proof.
  intros -> F E. apply fits_app in F as (F & (WA & SA) & (WB & SB) & Fr). cbn [Nat.add] in *.
  destruct (coarse_mps_ok A B _ _ _ _ _ WA WB SA SB) as (C0 & E0 & WC & SC & _). assert (C0 = C) by congruence. subst C0.
  apply fits_app. split; [|split].
  - eapply fits_before; [..|exact F]; intros x Hx; jb.
  - cbn [Nat.add]. split; auto. rewrite SC. f_equal; [jb|]. f_equal; [jb|]. f_equal. jb.
  - cbn [Nat.add]. eapply fits_after; [..|exact Fr]; intros x Hx; jb.
Qed.
Lemma join_fits_op d e D (l r : list (arr K)) A B C p : p = length l -> fits_op d e D O (l ++ A :: B :: r) ->
  coarse_grain_mpo A B = Ok C -> fits_op (join_site p d) (join_site p e) (drop_bond p D) O (l ++ C :: r).
Proof.
  intros -> F E. apply fits_op_app in F as (F & (WA & SA) & (WB & SB) & Fr). cbn [Nat.add] in *.
  destruct (coarse_mpo_ok A B _ _ _ _ _ _ _ WA WB SA SB) as (C0 & E0 & WC & SC & _). assert (C0 = C) by congruence. subst C0.
  apply fits_op_app. split; [|split].
  - eapply fits_op_before; [..|exact F]; intros x Hx; jb.
  - cbn [Nat.add]. split; auto. rewrite SC. f_equal; [jb|]. f_equal; [jb|]. f_equal; [jb|]. f_equal; jb.
  - cbn [Nat.add]. eapply fits_op_after; [..|exact Fr]; intros x Hx; jb.
Qed.

Lemma join_chain n d D (l r : list (arr K)) A B C p : p = length l -> chain n d D (l ++ A :: B :: r) ->
  coarse_grain_mps A B = Ok C -> chain (pred n) (join_site p d) (drop_bond p D) (l ++ C :: r).
Proof.
  intros Ep (L & F & S1 & S2) E. rewrite app_length in L. cbn [length] in L. split; [rewrite app_length; cbn [length]; lia|].
  split; [eapply join_fits; eauto|]. split; [unfold drop_bond; cbn; auto|]. unfold drop_bond. destruct (Nat.leb_spec (pred n) p); [lia|].
  replace (S (pred n)) with n by lia. auto.
Qed.
Lemma join_chain_op n d e D (l r : list (arr K)) A B C p : p = length l -> chain_op n d e D (l ++ A :: B :: r) ->
  coarse_grain_mpo A B = Ok C -> chain_op (pred n) (join_site p d) (join_site p e) (drop_bond p D) (l ++ C :: r).
Proof.
  intros Ep (L & F & S1 & S2) E. rewrite app_length in L. cbn [length] in L. split; [rewrite app_length; cbn [length]; lia|].
  split; [eapply join_fits_op; eauto|]. split; [unfold drop_bond; cbn; auto|]. unfold drop_bond. destruct (Nat.leb_spec (pred n) p); [lia|].
  replace (S (pred n)) with n by lia. auto.
Qed.

(** The state itself: a merged local state stands for the pair. *)
Lemma dense_join n d D (l r : list (arr K)) A B C ss s t ts :
  chain n d D (l ++ A :: B :: r) -> coarse_grain_mps A B = Ok C -> length ss = length l -> (s < d (length l))%nat -> (t < d (S (length l)))%nat ->
  dense (l ++ C :: r) (ss ++ (s * d (S (length l)) + t)%nat :: ts) = dense (l ++ A :: B :: r) (ss ++ s :: t :: ts).
Proof.
  intros Hc E Ls Hs Ht. pose proof (join_chain n d D l r A B C _ eq_refl Hc E) as (_ & F' & _).
  destruct Hc as (L & F & S1 & S2). unfold dense. rewrite (split_cons l C r), (split_cons ss _ ts).
  pose proof F as F0. apply fits_app in F0 as (F0 & (WA & SA) & (WB & SB) & Fr). cbn [Nat.add] in *.
  destruct (coarse_mps_ok A B _ _ _ _ _ WA WB SA SB) as (C0 & E0 & WC & SC & GC). assert (C0 = C) by congruence. subst C0.
  rewrite <- !app_assoc. cbn [app].
  rewrite (amp_app K d D O l (C :: r) ss _ O O F0 Ls), (amp_app K d D O l (A :: B :: r) ss _ O O F0 Ls) by lia. cbn [Nat.add].
  apply sumn_ext. intros m Hm. f_equal.
  set (f2 := fun x => if (x =? S (length l))%nat then D (S (S (length l))) else D x).
  cbn [amp]. rewrite SC, SA, SB. cbn [nth].
  transitivity (sumn (D (S (S (length l)))) (fun k => sumn (D (S (length l))) (fun j => get A [s; m; j] * (get B [t; j; k] * amp r ts k O)))).
  - apply sumn_ext. intros k Hk. rewrite GC by auto. rewrite <- sumn_scal_r. apply sumn_ext. intros j Hj. ring.
  - rewrite sumn_swap. apply sumn_ext. intros j Hj. rewrite sumn_scal_l. reflexivity.
Qed.

Theorem element_join n d1 d2 D1 Do D2 (l1 r1 lo ro l2 r2 : list (arr K)) A B W X A' B' C Y C' :
  chain n d1 D1 (l1 ++ A :: B :: r1) -> chain_op n d1 d2 Do (lo ++ W :: X :: ro) -> chain n d2 D2 (l2 ++ A' :: B' :: r2) ->
  length lo = length l1 -> length l2 = length l1 ->
  coarse_grain_mps A B = Ok C -> coarse_grain_mpo W X = Ok Y -> coarse_grain_mps A' B' = Ok C' ->
  dense_element (l1 ++ C :: r1) (lo ++ Y :: ro) (l2 ++ C' :: r2) = dense_element (l1 ++ A :: B :: r1) (lo ++ W :: X :: ro) (l2 ++ A' :: B' :: r2).
Proof.
  intros H1 Ho H2 Elo El2 EC EY EC'.
  pose proof (join_chain n d1 D1 l1 r1 A B C _ eq_refl H1 EC) as (_ & G1 & Z1 & _).
  pose proof (join_chain n d2 D2 l2 r2 A' B' C' _ eq_refl H2 EC') as (_ & G2 & Z2 & _).
  pose proof (join_chain_op n d1 d2 Do lo ro W X Y _ eq_refl Ho EY) as (_ & Go & Zo & _).
  destruct H1 as (L1 & F1 & S1 & T1). destruct H2 as (L2 & F2 & S2 & T2). destruct Ho as (Lo & Fo & So & To).
  rewrite Elo in Go, Zo. rewrite El2 in G2, Z2.
  change (element (l1 ++ C :: r1) (lo ++ Y :: ro) (l2 ++ C' :: r2) O O O O O O = element (l1 ++ A :: B :: r1) (lo ++ W :: X :: ro) (l2 ++ A' :: B' :: r2) O O O O O O).
  apply fits_app in F1 as (F1 & F1r). apply fits_app in F2 as (F2 & F2r). apply fits_op_app in Fo as (Fo & For).
  apply fits_app in G1 as (_ & G1). apply fits_app in G2 as (_ & G2). apply fits_op_app in Go as (_ & Go).
  rewrite (element_app K d1 d2 D1 Do D2 O l1 _ lo _ l2); auto; try lia.
  rewrite (element_app K d1 d2 D1 Do D2 O l1 (A :: B :: r1) lo (W :: X :: ro) l2 (A' :: B' :: r2)); auto; try lia.
  rewrite Elo in For, Go. rewrite El2 in F2r, G2. cbn [Nat.add] in *. set (p := length l1) in *.
  apply sumn_ext. intros i Hi. apply sumn_ext. intros a Ha. apply sumn_ext. intros k Hk. f_equal.
  change (C :: r1) with ([C] ++ r1). change (Y :: ro) with ([Y] ++ ro). change (C' :: r2) with ([C'] ++ r2).
  change (A :: B :: r1) with ([A; B] ++ r1). change (W :: X :: ro) with ([W; X] ++ ro). change (A' :: B' :: r2) with ([A'; B'] ++ r2).
  cbn [fits fits_op] in F1r, F2r, For, G1, G2, Go.
  destruct F1r as ((WA & SA) & (WB & SB) & F1r). destruct F2r as ((WA' & SA') & (WB' & SB') & F2r). destruct For as ((WW & SW) & (WX & SX) & For).
  assert (P : forall D : nat -> nat, drop_bond p D p = D p) by (intros; jb). assert (Q : forall D : nat -> nat, drop_bond p D (p + 1) = D (p + 2)%nat) by (intros; unfold drop_bond; destruct (Nat.leb_spec (p + 1) p); [lia|]; f_equal; lia).
  rewrite (element_app K (join_site p d1) (join_site p d2) (drop_bond p D1) (drop_bond p Do) (drop_bond p D2) p [C] r1 [Y] ro [C'] r2); rewrite ?P; auto; try (split; [tauto|exact I]).
  rewrite (element_app K d1 d2 D1 Do D2 p [A; B] r1 [W; X] ro [A'; B'] r2); auto; try (split; [tauto|]; split; [tauto|exact I]).
  cbn [length]. rewrite !Q.
  apply sumn_ext. intros j Hj. apply sumn_ext. intros c Hc. apply sumn_ext. intros m Hm. f_equal.
  replace (p + 2)%nat with (S (S p)) in * by lia.
  eapply (element_merge A B W X A' B' C Y C'); eauto.
Qed.
End P.
