(** The partial trace of the initial state for finite temperature. *)
From Coq Require Import List Arith Bool Lia Ring.
From Verif Require Import Py Alg ListX NdArray_Model NdArray_Proof Net_Model Net_Spec Trav_Proof Template_Proof Ft_Spec FtTree_Proof.
Import ListNotations.
Local Open Scope nat_scope.

Lemma two_leaves n (ks : list (nat * tree * nat)) : (exists i a j i' b j', ks = [(i, Lf a, j); (i', Lf b, j')]) \/
  (pairs (Nd n ks) = flat_map (fun k => pairs (k_t k)) ks /\ lone (Nd n ks) = flat_map (fun k => lone (k_t k)) ks).
Proof.
  destruct ks as [|[[i [x|x kx]] j] [|[[i' [y|y ky]] j'] [|z ks]]]; cbn [pairs lone flat_map k_t fst snd]; auto. left. repeat eexists.
Qed.
Definition flat (ps : list (id * id)) : list id := flat_map (fun p => [fst p; snd p]) ps.
Lemma flat_app a b : flat (a ++ b) = flat a ++ flat b.
Proof. unfold flat. apply flat_map_app. Qed.
Lemma lids_pairs t : lone t = [] -> lids t = flat (pairs t).
Proof.
  induction t as [x|x ks IH] using tree_ind'; [discriminate|]. destruct (two_leaves x ks) as [(i & a & j & i' & b & j' & ->)|(-> & ->)]; [reflexivity|].
  cbn [lids]. induction IH as [|k ks Hk _ IHl]; [reflexivity|]. cbn [flat_map]. intros E. apply app_eq_nil in E. destruct E as (E1 & E2). rewrite flat_app, <- Hk, IHl by auto. reflexivity.
Qed.
Lemma asg_cons (x : id) ls (y : nat) v l : asg (x :: ls) (y :: v) l = if x =? l then y else asg ls v l.
Proof. unfold asg. cbn [index_of]. destruct (x =? l); reflexivity. Qed.

Section S.
Variable K : StarRing.
Add Ring Kr : (r_theory K).
Local Open Scope star_scope.
Fixpoint amp_pairs (cs : list K) (x y : list nat) : K :=
  match cs, x, y with
  | [], _, _ => 1
  | c :: cs, a :: x, b :: y => c * delta a b * amp_pairs cs x y
  | _, _, _ => 0
  end.
Lemma pairs_amp (c : id -> K) ps : NoDup (flat ps) -> forall x y, length x = length ps -> length y = length ps ->
  prodL ps (fun p => c (fst p) * delta (asg (flat ps) (weave x y) (fst p)) (asg (flat ps) (weave x y) (snd p))) = amp_pairs (map (fun p => c (fst p)) ps) x y.
Proof.
  induction ps as [|[a b] ps IH]; intros N [|i x] [|j y] Lx Ly; try discriminate; [reflexivity|]. cbn [flat flat_map app fst snd] in N. fold (flat ps) in N.
  apply NoDup_cons_iff in N. destruct N as (N1 & N). apply NoDup_cons_iff in N. destruct N as (N2 & N). rewrite prodL_cons. cbn [flat flat_map app fst snd weave map amp_pairs]. fold (flat ps).
  rewrite !asg_cons, !Nat.eqb_refl. rewrite (proj2 (Nat.eqb_neq a b)) by (intros ->; apply N1; left; auto). f_equal.
  rewrite <- (IH N x y) by (cbn in *; lia). apply prodL_ext_in. intros [p q] Hp. cbn [fst snd].
  assert (P1 : In p (flat ps)) by (apply in_flat_map; exists (p, q); split; auto; left; auto). assert (P2 : In q (flat ps)) by (apply in_flat_map; exists (p, q); split; auto; right; left; auto).
  rewrite !asg_cons. rewrite !(proj2 (Nat.eqb_neq _ _)); auto; intros ->; auto; apply N1; right; auto.
Qed.
Lemma trace_amp (cs : list K) dims : length cs = length dims -> forall x x', in_range x dims -> in_range x' dims ->
  sumL (indices dims) (fun y => amp_pairs cs x y * rconj (amp_pairs cs x' y)) =
  if list_eq_dec Nat.eq_dec x x' then prodL cs (fun c => c * rconj c) else 0.
Proof.
  revert cs. induction dims as [|d dims IH]; intros [|c cs] L x x' Hx Hx'; try discriminate.
  - inversion Hx; inversion Hx'; subst. rewrite sum_indices_nil. cbn [amp_pairs]. rewrite rconj_1. destruct (list_eq_dec _ _ _) as [_|C]; [|destruct C; auto]. rewrite prodL_nil. ring.
  - inversion Hx as [|a ? u ? Ha Hu]; inversion Hx' as [|a' ? u' ? Ha' Hu']; subst. rewrite sum_indices_cons.
    rewrite (sumn_ext K d _ (fun b => delta b a * (c * rconj c * delta a' b * sumL (indices dims) (fun y => amp_pairs cs u y * rconj (amp_pairs cs u' y))))).
    + rewrite sumn_delta by auto. rewrite IH by (auto; cbn in L; lia). rewrite prodL_cons. unfold delta.
      destruct (Nat.eqb_spec a' a) as [->|Ne].
      * destruct (list_eq_dec Nat.eq_dec u u') as [->|N1]; destruct (list_eq_dec Nat.eq_dec _ _) as [E|N2]; try ring; [destruct N2; auto|injection E as ->; destruct N1; auto].
      * destruct (list_eq_dec Nat.eq_dec (a :: u) (a' :: u')) as [E|N2]; [injection E as -> ->; destruct Ne; auto|ring].
    + intros b Hb. rewrite <- !sumL_scal_l. apply sumL_ext. intros y. cbn [amp_pairs]. rewrite !rconj_mul. unfold delta. rewrite (Nat.eqb_sym a b).
      destruct (b =? a)%nat, (a' =? b)%nat; rewrite ?rconj_0, ?rconj_1; ring.
Qed.

(** The two leaves of a pair have the same number of states. *)
Lemma pairs_same (h : heap K) B ok : forall t j, purified h B ok j t -> forall a b, In (a, b) (pairs t) -> B b = B a.
Proof.
  induction t as [x|x ks IH] using tree_ind'; intros j Pf a b H; [destruct H|]. inversion Pf as [|? a' b' c ja jb (_ & _ & _ & Eb & _) Ho|? ? ? Ox Hx Ki Ei P1 P2 F]; subst.
  - destruct H as [E|[]]. injection E as -> ->. exact Eb.
  - destruct (pairs_node x ks Ei) as (E & _). rewrite E in H. apply in_flat_map in H. destruct H as (k & Hk & H). rewrite Forall_forall in IH, F. eapply IH; eauto.
Qed.
Lemma root_same (h : heap K) B ok t : purified_root h B ok t -> forall a b, In (a, b) (pairs t) -> B b = B a.
Proof.
  intros (x & ks & -> & _ & _ & Ei & F) a b H. destruct (pairs_node x ks Ei) as (E & _). rewrite E in H. apply in_flat_map in H. destruct H as (k & Hk & H). rewrite Forall_forall in F. eapply pairs_same; eauto.
Qed.
Lemma weave_range (B : id -> nat) ps : (forall a b, In (a, b) ps -> B b = B a) -> forall x y, in_range x (map (fun p => B (fst p)) ps) -> in_range y (map (fun p => B (fst p)) ps) ->
  in_range (weave x y) (map B (flat ps)).
Proof.
  induction ps as [|[a b] ps IH]; intros H x y Hx Hy; inversion Hx as [|i ? u ? Hi Hu]; inversion Hy as [|j ? w ? Hj Hw]; subst; [constructor|].
  cbn [flat flat_map app map weave fst snd]. constructor; [exact Hi|]. constructor; [rewrite (H a b (or_introl eq_refl)); exact Hj|]. apply IH; auto. intros; apply H; right; auto.
Qed.

Theorem thermal (c : id -> K) (B : id -> nat) (t : tree) (d : list nat -> K) : lone t = [] -> NoDup (lids t) -> (forall a b, In (a, b) (pairs t) -> B b = B a) ->
  (forall v, in_range v (map B (lids t)) -> d v = entangled c t (asg (lids t) v)) ->
  let dims := map (fun p => B (fst p)) (pairs t) in
  (forall x y, in_range x dims -> in_range y dims -> in_range (weave x y) (map B (lids t))) /\
  forall x x', in_range x dims -> in_range x' dims ->
    (x = x' -> sumL (indices dims) (fun y => d (weave x y) * rconj (d (weave x' y))) = prodL (pairs t) (fun p => c (fst p) * rconj (c (fst p)))) /\
    (x <> x' -> sumL (indices dims) (fun y => d (weave x y) * rconj (d (weave x' y))) = 0).
Proof.
  intros Hl N Hs Hd dims. rewrite (lids_pairs t Hl) in *.
  assert (W : forall x y, in_range x dims -> in_range y dims -> in_range (weave x y) (map B (flat (pairs t)))) by (intros; apply weave_range; auto).
  split; [exact W|]. intros x x' Hx Hx'.
  assert (Ex : forall z y, in_range z dims -> in_range y dims -> d (weave z y) = amp_pairs (map (fun p => c (fst p)) (pairs t)) z y).
  { intros z y Hz Hy. rewrite Hd by auto. unfold entangled. rewrite Hl, prodL_nil. pose proof (in_range_len _ _ Hz) as Lz. pose proof (in_range_len _ _ Hy) as Ly. unfold dims in Lz, Ly. rewrite map_length in Lz, Ly.
    rewrite pairs_amp by auto. ring. }
  assert (E : sumL (indices dims) (fun y => d (weave x y) * rconj (d (weave x' y))) = if list_eq_dec Nat.eq_dec x x' then prodL (map (fun p => c (fst p)) (pairs t)) (fun c => c * rconj c) else 0).
  { rewrite <- (trace_amp (map (fun p => c (fst p)) (pairs t)) dims) by (auto; unfold dims; now rewrite !map_length). apply sum_indices_ext. intros y Hy. rewrite !Ex by auto. reflexivity. }
  rewrite E. destruct (list_eq_dec Nat.eq_dec x x') as [Eq|Ne]; split; intros H; try contradiction; auto. apply prodL_map.
Qed.
End S.
