(** Contractions of matrix product states. *)
From Coq Require Import String Ascii List Arith Bool Lia Ring.
From Verif Require Import Py Alg Ord ListX NdArray_Model NdArray_Proof Svd_Model Mps_Model Mps_Spec.
Import ListNotations.
Local Open Scope nat_scope.
Notation length := Datatypes.length.

Section P.
Variable K : StarRing.
Add Ring Kmps : (r_theory K).
Local Open Scope star_scope.

(** ** Splitting chains *)
Lemma fits_app d D p (l1 l2 : list (arr K)) : fits d D p (l1 ++ l2) <-> fits d D p l1 /\ fits d D (p + length l1)%nat l2.
Proof.
  revert p. induction l1 as [|A l1 IH]; intros p; cbn [app fits length].
  - rewrite Nat.add_0_r. tauto.
  - rewrite IH, <- plus_n_Sm. cbn. tauto.
Qed.
Lemma fits_op_app d d' D p (l1 l2 : list (arr K)) : fits_op d d' D p (l1 ++ l2) <-> fits_op d d' D p l1 /\ fits_op d d' D (p + length l1)%nat l2.
Proof.
  revert p. induction l1 as [|A l1 IH]; intros p; cbn [app fits_op length].
  - rewrite Nat.add_0_r. tauto.
  - rewrite IH, <- plus_n_Sm. cbn. tauto.
Qed.

Lemma amp_app d D p (l1 l2 : list (arr K)) s1 s2 i j : fits d D p l1 -> length s1 = length l1 -> (i < D p)%nat ->
  amp (l1 ++ l2) (s1 ++ s2) i j = sumn (D (p + length l1)%nat) (fun m => amp l1 s1 i m * amp l2 s2 m j).
Proof.
  revert p s1 i. induction l1 as [|A l1 IH]; intros p s1 i F Ls Hi; destruct s1 as [|s s1]; try discriminate; cbn [app amp length].
  - rewrite Nat.add_0_r. rewrite (sumn_single K _ i); auto.
    + unfold delta. rewrite Nat.eqb_refl. ring.
    + intros m Hm Hne. unfold delta. rewrite (proj2 (Nat.eqb_neq i m)) by auto. ring.
  - destruct F as [[WA SA] F]. rewrite SA. cbn [nth].
    transitivity (sumn (D (S p)) (fun m => sumn (D (p + S (length l1))%nat) (fun m' => get A [s; i; m] * (amp l1 s1 m m' * amp l2 s2 m' j)))).
    + apply sumn_ext. intros m Hm. rewrite sumn_scal_l. f_equal. rewrite (IH (S p)); auto. now rewrite <- plus_n_Sm.
    + rewrite sumn_swap. apply sumn_ext. intros m' Hm'. rewrite <- sumn_scal_r. apply sumn_ext. intros m Hm. ring.
Qed.
Lemma oper_app d d' D p (l1 l2 : list (arr K)) s1 s2 t1 t2 a b : fits_op d d' D p l1 -> length s1 = length l1 -> length t1 = length l1 -> (a < D p)%nat ->
  oper (l1 ++ l2) (s1 ++ s2) (t1 ++ t2) a b = sumn (D (p + length l1)%nat) (fun c => oper l1 s1 t1 a c * oper l2 s2 t2 c b).
Proof.
  revert p s1 t1 a. induction l1 as [|A l1 IH]; intros p s1 t1 a F Ls Lt Hi; destruct s1 as [|s s1]; try discriminate; destruct t1 as [|t t1]; try discriminate; cbn [app oper length].
  - rewrite Nat.add_0_r. rewrite (sumn_single K _ a); auto.
    + unfold delta. rewrite Nat.eqb_refl. ring.
    + intros m Hm Hne. unfold delta. rewrite (proj2 (Nat.eqb_neq a m)) by auto. ring.
  - destruct F as [[WA SA] F]. rewrite SA. cbn [nth].
    transitivity (sumn (D (S p)) (fun m => sumn (D (p + S (length l1))%nat) (fun m' => get A [a; m; s; t] * (oper l1 s1 t1 m m' * oper l2 s2 t2 m' b)))).
    + apply sumn_ext. intros m Hm. rewrite sumn_scal_l. f_equal. rewrite (IH (S p)); auto. now rewrite <- plus_n_Sm.
    + rewrite sumn_swap. apply sumn_ext. intros m' Hm'. rewrite <- sumn_scal_r. apply sumn_ext. intros m Hm. ring.
Qed.

Lemma phys_app (l1 l2 : list (arr K)) : phys (l1 ++ l2) = phys l1 ++ phys l2.
Proof. apply map_app. Qed.
Lemma phys_len (l : list (arr K)) ss : in_range ss (phys l) -> length ss = length l.
Proof. intros H. apply in_range_len in H. rewrite H. apply map_length. Qed.

(** ** Composition of transfer matrices *)
Lemma sum3_prod n1 n2 n3 (f g h : nat -> K) :
  sumn n1 f * sumn n2 g * sumn n3 h = sumn n1 (fun m => sumn n2 (fun c => sumn n3 (fun n => f m * g c * h n))).
Proof.
  rewrite <- !sumn_scal_r. apply sumn_ext. intros m Hm.
  rewrite <- (sumn_scal_l K n2), <- (sumn_scal_r K n2). apply sumn_ext. intros c Hc.
  rewrite <- sumn_scal_l. reflexivity.
Qed.
Lemma sum_prod2 {X Y X' Y'} (lx : list X) (ly : list Y) (lx' : list X') (ly' : list Y') (f : X -> Y -> K) (g : X' -> Y' -> K) :
  sumL lx (fun x => sumL ly (f x)) * sumL lx' (fun x => sumL ly' (g x))
  = sumL lx (fun x => sumL lx' (fun x' => sumL ly (fun y => sumL ly' (fun y' => f x y * g x' y')))).
Proof.
  rewrite <- sumL_scal_r. apply sumL_ext. intros x. rewrite <- sumL_scal_l. apply sumL_ext. intros x'.
  rewrite <- sumL_scal_r. apply sumL_ext. intros y. rewrite <- sumL_scal_l. reflexivity.
Qed.
Lemma sum3_swap {X} (l : list X) n1 n2 n3 (f : X -> nat -> nat -> nat -> K) :
  sumn n1 (fun a => sumn n2 (fun b => sumn n3 (fun c => sumL l (fun x => f x a b c))))
  = sumL l (fun x => sumn n1 (fun a => sumn n2 (fun b => sumn n3 (fun c => f x a b c)))).
Proof.
  etransitivity; [|apply sumL_swap]. apply sumn_ext. intros a _.
  etransitivity; [|apply sumL_swap]. apply sumn_ext. intros b _. apply sumL_swap.
Qed.

Lemma element_app d1 d2 D1 Do D2 p (l1 l2 o1 o2 r1 r2 : list (arr K)) i a k j b l :
  fits d1 D1 p l1 -> fits_op d1 d2 Do p o1 -> fits d2 D2 p r1 -> length o1 = length l1 -> length r1 = length l1 ->
  (i < D1 p)%nat -> (a < Do p)%nat -> (k < D2 p)%nat ->
  let q := (p + length l1)%nat in
  element (l1 ++ l2) (o1 ++ o2) (r1 ++ r2) i a k j b l
  = sumn (D1 q) (fun m => sumn (Do q) (fun c => sumn (D2 q) (fun n => element l1 o1 r1 i a k m c n * element l2 o2 r2 m c n j b l))).
Proof.
  intros F1 Fo F2 Lo Lr Hi Ha Hk q. symmetry. unfold element at 1 2.
  etransitivity; [apply sumn_ext; intros m _; apply sumn_ext; intros c _; apply sumn_ext; intros n _; apply sum_prod2|].
  rewrite sum3_swap. unfold element. rewrite !phys_app, sum_indices_app. apply sum_indices_ext. intros s1 R1.
  rewrite sum3_swap. apply sum_indices_ext. intros s2 R2.
  rewrite sum3_swap, sum_indices_app. apply sum_indices_ext. intros t1 T1.
  rewrite sum3_swap. apply sum_indices_ext. intros t2 T2.
  apply phys_len in R1, T1.
  rewrite (amp_app d1 D1 p), (amp_app d2 D2 p), (oper_app d1 d2 Do p); auto; try congruence.
  rewrite Lo, Lr. fold q. rewrite sum3_prod.
  apply sumn_ext. intros m _. apply sumn_ext. intros c _. apply sumn_ext. intros n _. ring.
Qed.

Lemma overlap_app d D1 D2 p (l1 l2 r1 r2 : list (arr K)) i k j l :
  fits d D1 p l1 -> fits d D2 p r1 -> length r1 = length l1 -> (i < D1 p)%nat -> (k < D2 p)%nat ->
  let q := (p + length l1)%nat in
  overlap (l1 ++ l2) (r1 ++ r2) i k j l
  = sumn (D1 q) (fun m => sumn (D2 q) (fun n => overlap l1 r1 i k m n * overlap l2 r2 m n j l)).
Proof.
  intros F1 F2 Lr Hi Hk q. symmetry. unfold overlap.
  etransitivity; [apply sumn_ext; intros m _; apply sumn_ext; intros n _; rewrite <- sumL_scal_r; apply sumL_ext; intros x; rewrite <- sumL_scal_l; reflexivity|].
  etransitivity; [apply sumn_ext; intros m _; apply sumL_swap|].
  etransitivity; [apply sumL_swap|]. rewrite phys_app, sum_indices_app. apply sum_indices_ext. intros s1 R1.
  etransitivity; [apply sumn_ext; intros m _; apply sumL_swap|].
  etransitivity; [apply sumL_swap|]. apply sum_indices_ext. intros s2 R2.
  apply phys_len in R1. rewrite (amp_app d D1 p), (amp_app d D2 p); auto; try congruence.
  rewrite Lr. fold q. rewrite <- sumn_scal_r. apply sumn_ext. intros m _. rewrite <- sumn_scal_l. apply sumn_ext. intros n _. ring.
Qed.

(** One site *)
Lemma amp_one (A : arr K) d x y s i j : shape A = [d; x; y] -> (j < y)%nat -> amp [A] [s] i j = get A [s; i; j].
Proof.
  intros SA Hj. cbn [amp]. rewrite SA. cbn [nth]. rewrite (sumn_single K _ j); auto.
  - unfold delta. rewrite Nat.eqb_refl. ring.
  - intros m Hm Hne. unfold delta. rewrite (proj2 (Nat.eqb_neq m j)) by auto. ring.
Qed.
Lemma oper_one (W : arr K) x y d d' s t a b : shape W = [x; y; d; d'] -> (b < y)%nat -> oper [W] [s] [t] a b = get W [a; b; s; t].
Proof.
  intros SA Hj. cbn [oper]. rewrite SA. cbn [nth]. rewrite (sumn_single K _ b); auto.
  - unfold delta. rewrite Nat.eqb_refl. ring.
  - intros m Hm Hne. unfold delta. rewrite (proj2 (Nat.eqb_neq m b)) by auto. ring.
Qed.
Lemma element_one (A W B : arr K) d1 d2 i a k j b l x1 y1 x y x2 y2 :
  shape A = [d1; x1; y1] -> shape W = [x; y; d1; d2] -> shape B = [d2; x2; y2] -> (j < y1)%nat -> (b < y)%nat -> (l < y2)%nat ->
  element [A] [W] [B] i a k j b l = sumn d1 (fun s => sumn d2 (fun t => get A [s; i; j] * get W [a; b; s; t] * get B [t; k; l])).
Proof.
  intros SA SW SB Hj Hb Hl. unfold element, phys. cbn [map]. rewrite SA, SB. cbn [nth]. rewrite sum_indices_single.
  apply sumn_ext. intros s _. rewrite sum_indices_single. apply sumn_ext. intros t _.
  rewrite (amp_one A d1 x1 y1), (amp_one B d2 x2 y2), (oper_one W x y d1 d2); auto.
Qed.
Lemma overlap_one (A B : arr K) d i k j l x1 y1 x2 y2 :
  shape A = [d; x1; y1] -> shape B = [d; x2; y2] -> (j < y1)%nat -> (l < y2)%nat ->
  overlap [A] [B] i k j l = sumn d (fun s => get A [s; i; j] * get B [s; k; l]).
Proof.
  intros SA SB Hj Hl. unfold overlap, phys. cbn [map]. rewrite SA. cbn [nth]. rewrite sum_indices_single.
  apply sumn_ext. intros s _. rewrite (amp_one A d x1 y1), (amp_one B d x2 y2); auto.
Qed.

(** ** [np.einsum] *)
Ltac einsum_tac :=
  intros; unfold einsum, ndim;
  repeat match goal with H : shape ?a = _ |- context[shape ?a] => rewrite H end;
  cbn [list_ascii_of_string length combine app];
  match goal with |- exists c, (if ?b then _ else _) = _ /\ _ =>
    assert (Hb : b = true) by (cbv [forallb label_val fst snd Ascii.eqb Bool.eqb andb Nat.eqb]; fold Nat.eqb; rewrite ?Nat.eqb_refl; reflexivity); rewrite Hb; clear Hb end;
  eexists; split; [reflexivity|];
  cbv [distinct app filter has_label existsb Ascii.eqb Bool.eqb negb orb andb map label_val fst snd];
  split; [apply wf_build|]; split; [reflexivity|];
  intros; rewrite get_build by (repeat constructor; auto);
  rewrite ?sum_indices_cons;
  repeat (apply sumn_ext; intros; rewrite ?sum_indices_cons);
  rewrite ?sum_indices_nil;
  cbv [combine app label_val Ascii.eqb Bool.eqb]; reflexivity.

Lemma es_sij_aik (A B : arr K) a_ i_ j_ k_ s_ : shape A = [s_; i_; j_] -> shape B = [a_; i_; k_] ->
  exists c, einsum "sij" "aik" "sajk" A B = Ok c /\ wf c /\ shape c = [s_; a_; j_; k_] /\
  forall s' a' j' k', (s' < s_)%nat -> (a' < a_)%nat -> (j' < j_)%nat -> (k' < k_)%nat ->
    get c [s'; a'; j'; k'] = sumn i_ (fun i' => get A [s'; i'; j'] * get B [a'; i'; k']).
Proof. einsum_tac. Qed.
Lemma es_sajk_abst (A B : arr K) a_ b_ j_ k_ s_ t_ : shape A = [s_; a_; j_; k_] -> shape B = [a_; b_; s_; t_] ->
  exists c, einsum "sajk" "abst" "tbjk" A B = Ok c /\ wf c /\ shape c = [t_; b_; j_; k_] /\
  forall t' b' j' k', (t' < t_)%nat -> (b' < b_)%nat -> (j' < j_)%nat -> (k' < k_)%nat ->
    get c [t'; b'; j'; k'] = sumn s_ (fun s' => sumn a_ (fun a' => get A [s'; a'; j'; k'] * get B [a'; b'; s'; t'])).
Proof. einsum_tac. Qed.
Lemma es_tbjk_tkl (A B : arr K) b_ j_ k_ l_ t_ : shape A = [t_; b_; j_; k_] -> shape B = [t_; k_; l_] ->
  exists c, einsum "tbjk" "tkl" "bjl" A B = Ok c /\ wf c /\ shape c = [b_; j_; l_] /\
  forall b' j' l', (b' < b_)%nat -> (j' < j_)%nat -> (l' < l_)%nat ->
    get c [b'; j'; l'] = sumn t_ (fun t' => sumn k_ (fun k' => get A [t'; b'; j'; k'] * get B [t'; k'; l'])).
Proof. einsum_tac. Qed.
Lemma es_sij_bjl (A B : arr K) b_ i_ j_ l_ s_ : shape A = [s_; i_; j_] -> shape B = [b_; j_; l_] ->
  exists c, einsum "sij" "bjl" "sbil" A B = Ok c /\ wf c /\ shape c = [s_; b_; i_; l_] /\
  forall s' b' i' l', (s' < s_)%nat -> (b' < b_)%nat -> (i' < i_)%nat -> (l' < l_)%nat ->
    get c [s'; b'; i'; l'] = sumn j_ (fun j' => get A [s'; i'; j'] * get B [b'; j'; l']).
Proof. einsum_tac. Qed.
Lemma es_sbil_abst (A B : arr K) a_ b_ i_ l_ s_ t_ : shape A = [s_; b_; i_; l_] -> shape B = [a_; b_; s_; t_] ->
  exists c, einsum "sbil" "abst" "tail" A B = Ok c /\ wf c /\ shape c = [t_; a_; i_; l_] /\
  forall t' a' i' l', (t' < t_)%nat -> (a' < a_)%nat -> (i' < i_)%nat -> (l' < l_)%nat ->
    get c [t'; a'; i'; l'] = sumn s_ (fun s' => sumn b_ (fun b' => get A [s'; b'; i'; l'] * get B [a'; b'; s'; t'])).
Proof. einsum_tac. Qed.
Lemma es_tail_tkl (A B : arr K) a_ i_ k_ l_ t_ : shape A = [t_; a_; i_; l_] -> shape B = [t_; k_; l_] ->
  exists c, einsum "tail" "tkl" "aik" A B = Ok c /\ wf c /\ shape c = [a_; i_; k_] /\
  forall a' i' k', (a' < a_)%nat -> (i' < i_)%nat -> (k' < k_)%nat ->
    get c [a'; i'; k'] = sumn t_ (fun t' => sumn l_ (fun l' => get A [t'; a'; i'; l'] * get B [t'; k'; l'])).
Proof. einsum_tac. Qed.
Lemma es_sij_ik (A B : arr K) i_ j_ k_ s_ : shape A = [s_; i_; j_] -> shape B = [i_; k_] ->
  exists c, einsum "sij" "ik" "sjk" A B = Ok c /\ wf c /\ shape c = [s_; j_; k_] /\
  forall s' j' k', (s' < s_)%nat -> (j' < j_)%nat -> (k' < k_)%nat ->
    get c [s'; j'; k'] = sumn i_ (fun i' => get A [s'; i'; j'] * get B [i'; k']).
Proof. einsum_tac. Qed.
Lemma es_sjk_skl (A B : arr K) j_ k_ l_ s_ : shape A = [s_; j_; k_] -> shape B = [s_; k_; l_] ->
  exists c, einsum "sjk" "skl" "jl" A B = Ok c /\ wf c /\ shape c = [j_; l_] /\
  forall j' l', (j' < j_)%nat -> (l' < l_)%nat ->
    get c [j'; l'] = sumn s_ (fun s' => sumn k_ (fun k' => get A [s'; j'; k'] * get B [s'; k'; l'])).
Proof. einsum_tac. Qed.
Lemma es_sij_jl (A B : arr K) i_ j_ l_ s_ : shape A = [s_; i_; j_] -> shape B = [j_; l_] ->
  exists c, einsum "sij" "jl" "sil" A B = Ok c /\ wf c /\ shape c = [s_; i_; l_] /\
  forall s' i' l', (s' < s_)%nat -> (i' < i_)%nat -> (l' < l_)%nat ->
    get c [s'; i'; l'] = sumn j_ (fun j' => get A [s'; i'; j'] * get B [j'; l']).
Proof. einsum_tac. Qed.
Lemma es_sil_skl (A B : arr K) i_ k_ l_ s_ : shape A = [s_; i_; l_] -> shape B = [s_; k_; l_] ->
  exists c, einsum "sil" "skl" "ik" A B = Ok c /\ wf c /\ shape c = [i_; k_] /\
  forall i' k', (i' < i_)%nat -> (k' < k_)%nat ->
    get c [i'; k'] = sumn s_ (fun s' => sumn l_ (fun l' => get A [s'; i'; l'] * get B [s'; k'; l'])).
Proof. einsum_tac. Qed.
Lemma es_aij_sik (A B : arr K) a_ i_ j_ k_ s_ : shape A = [a_; i_; j_] -> shape B = [s_; i_; k_] ->
  exists c, einsum "aij" "sik" "ajsk" A B = Ok c /\ wf c /\ shape c = [a_; j_; s_; k_] /\
  forall a' j' s' k', (a' < a_)%nat -> (j' < j_)%nat -> (s' < s_)%nat -> (k' < k_)%nat ->
    get c [a'; j'; s'; k'] = sumn i_ (fun i' => get A [a'; i'; j'] * get B [s'; i'; k']).
Proof. einsum_tac. Qed.
Lemma es_ajsk_abst (A B : arr K) a_ b_ j_ k_ s_ t_ : shape A = [a_; j_; s_; k_] -> shape B = [a_; b_; s_; t_] ->
  exists c, einsum "ajsk" "abst" "bjtk" A B = Ok c /\ wf c /\ shape c = [b_; j_; t_; k_] /\
  forall b' j' t' k', (b' < b_)%nat -> (j' < j_)%nat -> (t' < t_)%nat -> (k' < k_)%nat ->
    get c [b'; j'; t'; k'] = sumn a_ (fun a' => sumn s_ (fun s' => get A [a'; j'; s'; k'] * get B [a'; b'; s'; t'])).
Proof. einsum_tac. Qed.
Lemma es_bjtk_bkl (A B : arr K) b_ j_ k_ l_ t_ : shape A = [b_; j_; t_; k_] -> shape B = [b_; k_; l_] ->
  exists c, einsum "bjtk" "bkl" "tjl" A B = Ok c /\ wf c /\ shape c = [t_; j_; l_] /\
  forall t' j' l', (t' < t_)%nat -> (j' < j_)%nat -> (l' < l_)%nat ->
    get c [t'; j'; l'] = sumn b_ (fun b' => sumn k_ (fun k' => get A [b'; j'; t'; k'] * get B [b'; k'; l'])).
Proof. einsum_tac. Qed.
Lemma es_sij_tjk (A B : arr K) i_ j_ k_ s_ t_ : shape A = [s_; i_; j_] -> shape B = [t_; j_; k_] ->
  exists c, einsum "sij" "tjk" "stik" A B = Ok c /\ wf c /\ shape c = [s_; t_; i_; k_] /\
  forall s' t' i' k', (s' < s_)%nat -> (t' < t_)%nat -> (i' < i_)%nat -> (k' < k_)%nat ->
    get c [s'; t'; i'; k'] = sumn j_ (fun j' => get A [s'; i'; j'] * get B [t'; j'; k']).
Proof. einsum_tac. Qed.
Lemma es_abst_bcuv (A B : arr K) a_ b_ c_ s_ t_ u_ v_ : shape A = [a_; b_; s_; t_] -> shape B = [b_; c_; u_; v_] ->
  exists c, einsum "abst" "bcuv" "acsutv" A B = Ok c /\ wf c /\ shape c = [a_; c_; s_; u_; t_; v_] /\
  forall a' c' s' u' t' v', (a' < a_)%nat -> (c' < c_)%nat -> (s' < s_)%nat -> (u' < u_)%nat -> (t' < t_)%nat -> (v' < v_)%nat ->
    get c [a'; c'; s'; u'; t'; v'] = sumn b_ (fun b' => get A [a'; b'; s'; t'] * get B [b'; c'; u'; v']).
Proof. einsum_tac. Qed.
Lemma es_mj_tjk (A B : arr K) j_ k_ m_ t_ : shape A = [m_; j_] -> shape B = [t_; j_; k_] ->
  exists c, einsum "mj" "tjk" "tmk" A B = Ok c /\ wf c /\ shape c = [t_; m_; k_] /\
  forall t' m' k', (t' < t_)%nat -> (m' < m_)%nat -> (k' < k_)%nat ->
    get c [t'; m'; k'] = sumn j_ (fun j' => get A [m'; j'] * get B [t'; j'; k']).
Proof. einsum_tac. Qed.
Lemma es_rhi_im (A B : arr K) h_ i_ m_ r_ : shape A = [r_; h_; i_] -> shape B = [i_; m_] ->
  exists c, einsum "rhi" "im" "rhm" A B = Ok c /\ wf c /\ shape c = [r_; h_; m_] /\
  forall r' h' m', (r' < r_)%nat -> (h' < h_)%nat -> (m' < m_)%nat ->
    get c [r'; h'; m'] = sumn i_ (fun i' => get A [r'; h'; i'] * get B [i'; m']).
Proof. einsum_tac. Qed.

(** ** Contractions *)
Ltac sw0 := etransitivity; [apply sumn_swap|].
Ltac sw1 := etransitivity; [apply sumn_ext; intros ? _; apply sumn_swap|].
Ltac sw2 := etransitivity; [apply sumn_ext; intros ? _; apply sumn_ext; intros ? _; apply sumn_swap|].
Ltac sw3 := etransitivity; [apply sumn_ext; intros ? _; apply sumn_ext; intros ? _; apply sumn_ext; intros ? _; apply sumn_swap|].

Lemma from_left_ok (L A W B : arr K) s i j a b t k l :
  shape A = [s; i; j] -> shape L = [a; i; k] -> shape W = [a; b; s; t] -> shape B = [t; k; l] ->
  exists N, contract_from_left L A (Some W) B = Ok N /\ wf N /\ shape N = [b; j; l] /\
  forall b' j' l', (b' < b)%nat -> (j' < j)%nat -> (l' < l)%nat ->
    get N [b'; j'; l'] = sumn i (fun i' => sumn a (fun a' => sumn k (fun k' => get L [a'; i'; k'] * element [A] [W] [B] i' a' k' j' b' l'))).
Proof.
  intros SA SL SW SB. unfold contract_from_left.
  destruct (es_sij_aik A L a i j k s SA SL) as (x & Ex & Wx & Sx & Gx). rewrite Ex. cbn [bind].
  destruct (es_sajk_abst x W a b j k s t Sx SW) as (y & Ey & Wy & Sy & Gy). rewrite Ey. cbn [bind].
  destruct (es_tbjk_tkl y B b j k l t Sy SB) as (z & Ez & Wz & Sz & Gz).
  exists z. split; [exact Ez|]. split; [exact Wz|]. split; [exact Sz|]. intros b' j' l' Hb Hj Hl. rewrite Gz by auto.
  transitivity (sumn t (fun t' => sumn k (fun k' => sumn s (fun s' => sumn a (fun a' => sumn i (fun i' =>
    get L [a'; i'; k'] * (get A [s'; i'; j'] * get W [a'; b'; s'; t'] * get B [t'; k'; l']))))))).
  { apply sumn_ext. intros t' Ht. apply sumn_ext. intros k' Hk. rewrite Gy by auto.
    rewrite <- sumn_scal_r. apply sumn_ext. intros s' Hs. rewrite <- sumn_scal_r. apply sumn_ext. intros a' Ha'. rewrite Gx by auto.
    rewrite <- !sumn_scal_r. apply sumn_ext. intros i' Hi'. ring. }
  sw3; sw2; sw1; sw0. sw3; sw2; sw1. sw2; sw3.
  apply sumn_ext. intros i' _. apply sumn_ext. intros a' _. apply sumn_ext. intros k' _.
  rewrite (element_one A W B s t i' a' k' j' b' l' i j a b k l SA SW SB Hj Hb Hl), <- sumn_scal_l. apply sumn_ext. intros s' _. rewrite <- sumn_scal_l. reflexivity.
Qed.

Lemma from_right_ok (R A W B : arr K) s i j a b t k l :
  shape A = [s; i; j] -> shape R = [b; j; l] -> shape W = [a; b; s; t] -> shape B = [t; k; l] ->
  exists N, contract_from_right R A (Some W) B = Ok N /\ wf N /\ shape N = [a; i; k] /\
  forall a' i' k', (a' < a)%nat -> (i' < i)%nat -> (k' < k)%nat ->
    get N [a'; i'; k'] = sumn j (fun j' => sumn b (fun b' => sumn l (fun l' => element [A] [W] [B] i' a' k' j' b' l' * get R [b'; j'; l']))).
Proof.
  intros SA SL SW SB. unfold contract_from_right.
  destruct (es_sij_bjl A R b i j l s SA SL) as (x & Ex & Wx & Sx & Gx). rewrite Ex. cbn [bind].
  destruct (es_sbil_abst x W a b i l s t Sx SW) as (y & Ey & Wy & Sy & Gy). rewrite Ey. cbn [bind].
  destruct (es_tail_tkl y B a i k l t Sy SB) as (z & Ez & Wz & Sz & Gz).
  exists z. split; [exact Ez|]. split; [exact Wz|]. split; [exact Sz|]. intros a' i' k' Ha Hi Hk. rewrite Gz by auto.
  transitivity (sumn t (fun t' => sumn l (fun l' => sumn s (fun s' => sumn b (fun b' => sumn j (fun j' =>
    get A [s'; i'; j'] * get W [a'; b'; s'; t'] * get B [t'; k'; l'] * get R [b'; j'; l'])))))).
  { apply sumn_ext. intros t' Ht. apply sumn_ext. intros l' Hl. rewrite Gy by auto.
    rewrite <- sumn_scal_r. apply sumn_ext. intros s' Hs. rewrite <- sumn_scal_r. apply sumn_ext. intros b' Hb'. rewrite Gx by auto.
    rewrite <- !sumn_scal_r. apply sumn_ext. intros j' Hj'. ring. }
  sw3; sw2; sw1; sw0. sw3; sw2; sw1. sw2; sw3.
  apply sumn_ext. intros j' Hj. apply sumn_ext. intros b' Hb. apply sumn_ext. intros l' Hl.
  rewrite (element_one A W B s t i' a' k' j' b' l' i j a b k l SA SW SB Hj Hb Hl), <- sumn_scal_r. apply sumn_ext. intros s' _. rewrite <- sumn_scal_r. reflexivity.
Qed.

Lemma from_left_none (L A B : arr K) s i j k l :
  shape A = [s; i; j] -> shape L = [i; k] -> shape B = [s; k; l] ->
  exists N, contract_from_left L A None B = Ok N /\ wf N /\ shape N = [j; l] /\
  forall j' l', (j' < j)%nat -> (l' < l)%nat ->
    get N [j'; l'] = sumn i (fun i' => sumn k (fun k' => get L [i'; k'] * overlap [A] [B] i' k' j' l')).
Proof.
  intros SA SL SB. unfold contract_from_left.
  destruct (es_sij_ik A L i j k s SA SL) as (x & Ex & Wx & Sx & Gx). rewrite Ex. cbn [bind].
  destruct (es_sjk_skl x B j k l s Sx SB) as (z & Ez & Wz & Sz & Gz).
  exists z. split; [exact Ez|]. split; [exact Wz|]. split; [exact Sz|]. intros j' l' Hj Hl. rewrite Gz by auto.
  transitivity (sumn s (fun s' => sumn k (fun k' => sumn i (fun i' => get L [i'; k'] * (get A [s'; i'; j'] * get B [s'; k'; l']))))).
  { apply sumn_ext. intros s' Hs. apply sumn_ext. intros k' Hk. rewrite Gx by auto.
    rewrite <- sumn_scal_r. apply sumn_ext. intros i' Hi. ring. }
  sw1; sw0; sw1. apply sumn_ext. intros i' _. apply sumn_ext. intros k' _.
  rewrite (overlap_one A B s i' k' j' l' i j k l SA SB Hj Hl), <- sumn_scal_l. reflexivity.
Qed.
Lemma from_right_none (R A B : arr K) s i j k l :
  shape A = [s; i; j] -> shape R = [j; l] -> shape B = [s; k; l] ->
  exists N, contract_from_right R A None B = Ok N /\ wf N /\ shape N = [i; k] /\
  forall i' k', (i' < i)%nat -> (k' < k)%nat ->
    get N [i'; k'] = sumn j (fun j' => sumn l (fun l' => overlap [A] [B] i' k' j' l' * get R [j'; l'])).
Proof.
  intros SA SL SB. unfold contract_from_right.
  destruct (es_sij_jl A R i j l s SA SL) as (x & Ex & Wx & Sx & Gx). rewrite Ex. cbn [bind].
  destruct (es_sil_skl x B i k l s Sx SB) as (z & Ez & Wz & Sz & Gz).
  exists z. split; [exact Ez|]. split; [exact Wz|]. split; [exact Sz|]. intros i' k' Hi Hk. rewrite Gz by auto.
  transitivity (sumn s (fun s' => sumn l (fun l' => sumn j (fun j' => get A [s'; i'; j'] * get B [s'; k'; l'] * get R [j'; l'])))).
  { apply sumn_ext. intros s' Hs. apply sumn_ext. intros l' Hl. rewrite Gx by auto.
    rewrite <- sumn_scal_r. apply sumn_ext. intros j' Hj. ring. }
  sw1; sw0; sw1. apply sumn_ext. intros j' Hj. apply sumn_ext. intros l' Hl.
  rewrite (overlap_one A B s i' k' j' l' i j k l SA SB Hj Hl), <- sumn_scal_r. reflexivity.
Qed.

(** ** The effective Hamiltonian *)
Lemma matvec_ok (L W R A : arr K) d x y x' y' :
  wf A -> shape L = [x; y; y] -> shape W = [x; x'; d; d] -> shape R = [x'; y'; y'] -> size A = prod [d; y; y'] ->
  exists v, matvec L W R A = Ok v /\ wf v /\ shape v = [prod [d; y; y']] /\
  forall t' j' l', (t' < d)%nat -> (j' < y)%nat -> (l' < y')%nat ->
    get v [ravel [d; y; y'] [t'; j'; l']] =
    sumn y (fun i' => sumn x (fun a' => sumn y' (fun k' => sumn x' (fun b' => sumn d (fun s' =>
      get L [a'; i'; j'] * (nth (ravel [d; y; y'] [s'; i'; k']) (data A) 0 * get W [a'; b'; s'; t']) * get R [b'; k'; l']))))).
Proof.
  intros WA SL SW SR ZA. unfold matvec, io_shape. rewrite SL, SW, SR. cbn [nth].
  unfold reshape at 1. rewrite ZA, Nat.eqb_refl. cbn [bind]. set (A' := mkArr [d; y; y'] (data A)).
  assert (SA : shape A' = [d; y; y']) by reflexivity.
  destruct (es_aij_sik L A' x y y y' d SL SA) as (u & Eu & Wu & Su & Gu). rewrite Eu. cbn [bind].
  destruct (es_ajsk_abst u W x x' y y' d d Su SW) as (v & Ev & Wv & Sv & Gv). rewrite Ev. cbn [bind].
  destruct (es_bjtk_bkl v R x' y y' y' d Sv SR) as (z & Ez & Wz & Sz & Gz). rewrite Ez. cbn [bind].
  unfold reshape. assert (Q : (prod [prod [d; y; y']] =? size z)%nat = true).
  { apply Nat.eqb_eq. unfold size. unfold wf in Wz. rewrite Wz, Sz. cbn. lia. }
  rewrite Q. eexists. split; [reflexivity|]. split; [unfold wf; cbn [data shape]; apply Nat.eqb_eq in Q; rewrite Q; reflexivity|].
  split; [reflexivity|]. intros t' j' l' Ht Hj Hl. unfold get at 1. cbn [data shape].
  replace (ravel [prod [d; y; y']] [ravel [d; y; y'] [t'; j'; l']]) with (ravel (shape z) [t'; j'; l']) by (rewrite Sz; cbn; lia).
  change (nth (ravel (shape z) [t'; j'; l']) (data z) 0) with (get z [t'; j'; l']). rewrite Gz by auto.
  transitivity (sumn x' (fun b' => sumn y' (fun k' => sumn x (fun a' => sumn d (fun s' => sumn y (fun i' =>
     get L [a'; i'; j'] * (nth (ravel [d; y; y'] [s'; i'; k']) (data A) 0 * get W [a'; b'; s'; t']) * get R [b'; k'; l'])))))).
  { apply sumn_ext. intros b' Hb. apply sumn_ext. intros k' Hk. rewrite Gv by auto.
    rewrite <- sumn_scal_r. apply sumn_ext. intros a' Ha'. rewrite <- sumn_scal_r. apply sumn_ext. intros s' Hs'. rewrite Gu by auto.
    rewrite <- !sumn_scal_r. apply sumn_ext. intros i' Hi'. change (get A' [s'; i'; k']) with (nth (ravel [d; y; y'] [s'; i'; k']) (data A) 0). ring. }
  sw3; sw2; sw1; sw0. sw2; sw1. sw2. reflexivity.
Qed.
End P.
