From Coq Require Import List Arith Bool Lia Reals Lra.
From Verif Require Import Py Alg ListX Cplx NdArray_Model NdArray_Proof Net_Model Net_Spec Trav_Proof Acyc_Proof Link_Spec Link_Proof Env_Spec Env_Proof TEnv_Proof EnvThm_Proof Angle_Model Angle_Spec.
Import ListNotations.
Local Open Scope nat_scope.
Local Open Scope list_scope.

Section Heap.
Context {K : StarRing}.
Implicit Types h : heap K.

Lemma but_refl h : but_aux h h. Proof. split; auto 10. Qed.
Lemma but_trans h1 h2 h3 : but_aux h1 h2 -> but_aux h2 h3 -> but_aux h1 h3.
Proof. intros (L1 & B1) (L2 & B2). split; [congruence|]. intros n. destruct (B1 n) as (? & ? & ? & ? & ? & ?), (B2 n) as (? & ? & ? & ? & ? & ?). repeat split; congruence. Qed.
Lemma but_hangs h h' up t : but_aux h h' -> hangs h up t -> hangs h' up t.
Proof. intros (_ & B). apply hangs_same. intros n. destruct (B n) as (? & _ & _ & _ & ? & _). auto. Qed.
Lemma but_self h h' : but_aux h h' -> no_self_slot h -> no_self_slot h'.
Proof. intros (_ & B) N n i. destruct (B n) as (_ & _ & _ & _ & E & _). rewrite E. apply N. Qed.
Lemma but_modify h n a : but_aux h (modify h n (put_aux a)).
Proof.
  split; [apply length_modify|]. intros m. destruct (Nat.eq_dec n m) as [<-|N]; [|rewrite hget_modify_neq by auto; auto 10].
  destruct (Nat.lt_ge_cases n (length h)); [rewrite hget_modify_eq by auto; auto 10|rewrite modify_out by auto; auto 10].
Qed.
Lemma but_set_all h f l : only_aux K f -> (forall o, f (f o) = f o) -> but_aux h (set_all f h l).
Proof. intros U I. split; [apply set_all_length|]. intros n. apply (set_all_fields K f l h n U I). Qed.

Lemma pair_aux_ok A l : NoDup (map fst l) -> forall h, (forall p, In p l -> fst p < length h /\ oarr (hget h (snd p)) = Some (A (snd p))) ->
  exists h', pair_aux h l = Ok h' /\ but_aux h h' /\ (forall p, In p l -> oaux (hget h' (fst p)) = Some (arr_conj (A (snd p)))) /\ (forall n, ~ In n (map fst l) -> hget h' n = hget h n).
Proof.
  induction l as [|[n1 n2] l IH]; intros ND h H; cbn [pair_aux].
  - exists h. split; [auto|]. split; [apply but_refl|]. split; [intros _ []|auto].
  - inversion ND as [|? ? N1 ND']; subst. destruct (H (n1, n2) (or_introl eq_refl)) as (L1 & A1). cbn [fst snd] in L1, A1. rewrite A1.
    set (h1 := modify h n1 (put_aux (Some (arr_conj (A n2))))). pose proof (but_modify h n1 (Some (arr_conj (A n2)))) as B1. fold h1 in B1.
    destruct (IH ND' h1) as (h' & E & B & X & Y).
    { intros p Hp. destruct (H p (or_intror Hp)) as (L & Ap). destruct B1 as (Ll & B1). split; [lia|]. destruct (B1 (snd p)) as (_ & Ea & _). congruence. }
    exists h'. split; [exact E|]. split; [eapply but_trans; eauto|]. split.
    + intros p [<-|Hp]; [|auto]. cbn [fst snd] in *. rewrite Y by exact N1. unfold h1. rewrite hget_modify_eq by exact L1. reflexivity.
    + intros n Hn. cbn [map fst] in Hn. rewrite Y by (intros C; apply Hn; now right). unfold h1. apply hget_modify_neq. intros ->. apply Hn. now left.
Qed.

Lemma pair_aux_missing l : forall h n1 n2, In (n1, n2) l -> oarr (hget h n2) = None -> pair_aux (K := K) h l = Raise TypeError.
Proof.
  induction l as [|[m1 m2] l IH]; intros h n1 n2 I E; [destruct I|]. cbn [pair_aux]. destruct (oarr (hget h m2)) as [a|] eqn:Em; [|reflexivity]. destruct I as [I|I]; [injection I as -> ->; congruence|].
  apply (IH _ n1 n2 I). destruct (but_modify h m1 (Some (arr_conj a))) as (_ & B). destruct (B n2) as (_ & -> & _). exact E.
Qed.

(** The heaps after inner product and norm *)
Lemma inner_heap h t fuel c h' : hangs h None t -> oaxis (hget h (top t)) = None -> height t <= fuel ->
  global_inner_product fuel h (top t) = Ok (c, h') -> h' = set_all (put_aux None) h (lids t).
Proof.
  intros H Ax Hf. unfold global_inner_product. rewrite leaves_ok by auto. cbn [bind]. set (h1 := set_all (put_aux None) h (lids t)).
  assert (H1 : hangs h1 None t) by (apply set_all_hangs; [apply aux_none_only|intros []; reflexivity|exact H]).
  pose proof (partial_env_aux K h1 t None fuel H1 Hf h1 (sbc_refl K h1)) as P. cbn [option_map] in P. destruct (tenv _ _ _ _ _); rewrite P; [|discriminate]. intros E. injection E as _ <-. reflexivity.
Qed.
Lemma inner_but h t fuel c h' : hangs h None t -> oaxis (hget h (top t)) = None -> height t <= fuel ->
  global_inner_product fuel h (top t) = Ok (c, h') -> but_aux h h' /\ forall n, ~ In n (lids t) -> hget h' n = hget h n.
Proof.
  intros H Ax Hf E. rewrite (inner_heap h t fuel c h' H Ax Hf E). split; [apply but_set_all; [apply aux_none_only|intros []; reflexivity]|].
  intros n Hn. apply set_all_notin; auto.
Qed.
Lemma square_but h t fuel A c h' : hangs h None t -> oaxis (hget h (top t)) = None -> height t <= fuel -> (forall n, In n (nids t) -> oarr (hget h n) = Some (A n)) ->
  global_square fuel h (top t) = Ok (c, h') ->
  but_aux h h' /\ (forall n, In n (nids t) -> oaux (hget h' n) = Some (arr_conj (A n))) /\ (forall n, ~ In n (ids t) -> hget h' n = hget h n).
Proof.
  intros H Ax Hf N. destruct (conj_aux_heap K h t fuel A H Ax Hf N) as (V & H1 & Ax1 & N1 & _). unfold global_square. rewrite V. cbn [bind]. intros E.
  destruct (inner_but _ t fuel c h' H1 Ax1 Hf E) as (B & Y). assert (Id : forall o : obj K, conj_aux (conj_aux o) = conj_aux o) by (intros []; reflexivity).
  split; [eapply but_trans; [apply (but_set_all h conj_aux (nids t)); [apply conj_aux_only|exact Id]|exact B]|]. split.
  - intros n Hn. rewrite Y; [apply N1, Hn|]. intros C. pose proof (nids_inner K h t None H n Hn). pose proof (lids_leaf K h t None H n C). congruence.
  - intros n Hn. rewrite Y by (intros C; apply Hn; now apply lids_ids). apply set_all_notin; [exact Id|]. intros C. apply Hn. now apply nids_ids.
Qed.

(** Relabelled trees *)
Lemma relabel_top f t : top (relabel f t) = f (top t). Proof. destruct t; reflexivity. Qed.
Lemma relabel_nids f t : nids (relabel f t) = map f (nids t).
Proof.
  induction t as [n|n ks IH] using tree_ind'; [reflexivity|]. cbn [relabel nids map]. f_equal. induction IH as [|k ks Hk _ IHk]; [reflexivity|]. cbn [map flat_map]. rewrite map_app, <- IHk. f_equal. exact Hk.
Qed.
Lemma relabel_lids f t : lids (relabel f t) = map f (lids t).
Proof.
  induction t as [n|n ks IH] using tree_ind'; [reflexivity|]. cbn [relabel lids]. induction IH as [|k ks Hk _ IHk]; [reflexivity|]. cbn [map flat_map]. rewrite map_app, <- IHk. f_equal. exact Hk.
Qed.
Lemma relabel_fits f (A : id -> arr K) : forall t ax d, fits A ax d (relabel f t) -> fits (fun n => A (f n)) ax d t.
Proof.
  induction t as [n|n ks IH] using tree_ind'; intros ax d H; cbn [relabel] in H.
  - inversion H; subst. constructor; auto.
  - inversion H as [|? ? ? ? W P X I F]; subst. constructor; auto.
    + rewrite map_map in I. exact I.
    + clear -F IH. revert F. generalize (others ax (shape (A (f n)))) as ms. induction IH as [|k ks Hk _ IHk]; intros ms F; inversion F; subst; constructor; auto.
Qed.
Lemma relabel_ldims f (A : id -> arr K) : forall t ax d, ldims A ax d (relabel f t) = ldims (fun n => A (f n)) ax d t.
Proof.
  induction t as [n|n ks IH] using tree_ind'; intros ax d; [reflexivity|]. cbn [relabel]. rewrite !ldims_node. generalize (others ax (shape (A (f n)))) as ms.
  induction IH as [|k ks Hk _ IHk]; intros [|m ms]; cbn [map gdims]; auto. rewrite <- IHk, <- Hk. reflexivity.
Qed.
Lemma relabel_amp f (A : id -> arr K) s : forall t ax p, amp A s ax (relabel f t) p = amp (fun n => A (f n)) (fun n => s (f n)) ax t p.
Proof.
  induction t as [n|n ks IH] using tree_ind'; intros ax p; [reflexivity|]. cbn [relabel amp]. apply sumL_ext. intros x. f_equal. rewrite map_map.
  apply (zprod_ext K). clear -IH. induction IH as [|k ks Hk _ IHk]; constructor; auto.
Qed.
Lemma index_map (f : id -> id) n l : NoDup (map f l) -> In n l -> index_of (f n) (map f l) = index_of n l.
Proof.
  induction l as [|x l IH]; intros ND H; [destruct H|]. destruct H as [->|H]; cbn [map index_of] in *.
  - now rewrite !Nat.eqb_refl.
  - inversion ND as [|? ? N1 ND']; subst. destruct (Nat.eqb_spec (f x) (f n)) as [E|E].
    + exfalso. apply N1. rewrite E. now apply in_map.
    + destruct (Nat.eqb_spec x n) as [->|_]; [congruence|]. now rewrite IH.
Qed.
Lemma relabel_dense f (A : id -> arr K) t v : NoDup (lids (relabel f t)) -> dense A (relabel f t) v = dense (fun n => A (f n)) t v.
Proof.
  intros ND. unfold dense. rewrite relabel_amp. apply (amp_ext K). intros l Hl. unfold asg. rewrite relabel_lids in *. now rewrite index_map.
Qed.
End Heap.

(** ** Cauchy and Schwarz *)
Local Open Scope R_scope.
Lemma braket_self ds u : braket ds u u = RtoC (fst (braket ds u u)) /\ 0 <= fst (braket ds u u).
Proof. unfold braket. destruct (sum_norm2 (indices ds) u) as (r & -> & P & _). split; [reflexivity|exact P]. Qed.
Lemma fst_sum {X} (l : list X) (f : X -> C_star) : fst (sumL l f) = fold_right (fun x a => fst (f x) + a) 0 l /\ snd (sumL l f) = fold_right (fun x a => snd (f x) + a) 0 l.
Proof. induction l as [|x l (IH1 & IH2)]; [split; reflexivity|]. cbn [sumL fold_right]. rewrite <- IH1, <- IH2. split; reflexivity. Qed.
Definition rsum {X} (l : list X) (f : X -> R) : R := fold_right (fun x a => f x + a) 0 l.
Lemma rsum_lin {X} (l : list X) f g a b : rsum l (fun x => a * f x + b * g x) = a * rsum l f + b * rsum l g.
Proof. unfold rsum. induction l as [|x l IH]; cbn [fold_right]; [ring|]. rewrite IH. ring. Qed.
Lemma rsum_pos {X} (l : list X) f : (forall x, 0 <= f x) -> 0 <= rsum l f.
Proof. intros H. unfold rsum. induction l as [|x l IH]; cbn [fold_right]; [lra|]. specialize (H x). lra. Qed.
Lemma rsum_ext {X} (l : list X) f g : (forall x, f x = g x) -> rsum l f = rsum l g.
Proof. intros H. unfold rsum. induction l as [|x l IH]; cbn [fold_right]; [reflexivity|]. now rewrite IH, H. Qed.

Lemma schwarz ds u v : Cnorm2 (braket ds u v) <= fst (braket ds u u) * fst (braket ds v v).
Proof.
  set (l := indices ds). set (N := fun w : list nat -> C_star => rsum l (fun x => Cnorm2 (w x))).
  assert (EN : forall w, fst (braket ds w w) = N w).
  { intros w. unfold braket. destruct (fst_sum (indices ds) (fun x => rmul (rconj (w x)) (w x))) as (-> & _). apply (rsum_ext l). intros x. unfold Cnorm2. destruct (w x) as [p q]. cbn. ring. }
  set (p := rsum l (fun x => fst (u x) * fst (v x) + snd (u x) * snd (v x))). set (q := rsum l (fun x => fst (u x) * snd (v x) - snd (u x) * fst (v x))).
  assert (E1 : fst (braket ds u v) = p). { unfold braket. destruct (fst_sum (indices ds) (fun x => rmul (rconj (u x)) (v x))) as (-> & _). apply (rsum_ext l). intros x. destruct (u x), (v x). cbn. ring. }
  assert (E2 : snd (braket ds u v) = q). { unfold braket. destruct (fst_sum (indices ds) (fun x => rmul (rconj (u x)) (v x))) as (_ & ->). apply (rsum_ext l). intros x. destruct (u x), (v x). cbn. ring. }
  rewrite !EN. unfold Cnorm2. rewrite E1, E2.
  (* |N(u) v - <u|v> u|^2 >= 0 *)
  assert (P : forall s a b, 0 <= s * s * N v + (a * a + b * b) * N u - 2 * s * (a * p + b * q)).
  { intros s a b.
    replace (s * s * N v + (a * a + b * b) * N u - 2 * s * (a * p + b * q)) with
      (rsum l (fun x => (s * fst (v x) - (a * fst (u x) - b * snd (u x))) * (s * fst (v x) - (a * fst (u x) - b * snd (u x))) + (s * snd (v x) - (a * snd (u x) + b * fst (u x))) * (s * snd (v x) - (a * snd (u x) + b * fst (u x))))).
    - apply rsum_pos. intros x. pose proof (Rle_0_sqr (s * fst (v x) - (a * fst (u x) - b * snd (u x)))). pose proof (Rle_0_sqr (s * snd (v x) - (a * snd (u x) + b * fst (u x)))). unfold Rsqr in *. lra.
    - unfold N, p, q, Cnorm2, rsum. clear. induction l as [|x l IH]; cbn [fold_right]; [ring|]. rewrite IH. ring. }
  assert (NU : 0 <= N u) by (rewrite <- EN; apply braket_self). assert (NV : 0 <= N v) by (rewrite <- EN; apply braket_self).
  destruct (Req_dec (N u) 0) as [Z|Z].
  - rewrite Z. rewrite Rmult_0_l. pose proof (P 1 (p * (N v + 1)) (q * (N v + 1))) as Q. rewrite Z in Q.
    pose proof (Rle_0_sqr p) as P1. pose proof (Rle_0_sqr q) as P2. unfold Rsqr in *. destruct (Rle_dec (p * p + q * q) 0) as [H|H]; [exact H|]. exfalso.
    pose proof (P 1 (p * ((N v + 1) / (p * p + q * q))) (q * ((N v + 1) / (p * p + q * q)))) as Q'. rewrite Z in Q'.
    replace (p * ((N v + 1) / (p * p + q * q)) * p + q * ((N v + 1) / (p * p + q * q)) * q) with (N v + 1) in Q' by (field; lra). lra.
  - pose proof (P (N u) p q) as Q. assert (0 < N u) by lra. apply Rmult_le_reg_l with (N u); [assumption|]. lra.
Qed.
