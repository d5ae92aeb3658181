From Coq Require Import String List Arith Bool Lia Ring Permutation DecimalString DecimalNat.
From Verif Require Import Py Alg ListX NdArray_Model NdArray_Proof Contract_Model Contract_Spec Contract_Proof Net_Model Net_Spec Link_Proof Trav_Proof
  Heom_Model Normalize_Model Template_Model Template_Spec.
Import ListNotations.
Local Open Scope nat_scope.
Local Open Scope list_scope.

(** ** Names *)
Lemma dec_inj a b : dec a = dec b -> a = b.
Proof.
  intros E. apply (f_equal NilEmpty.uint_of_string) in E. unfold dec in E. rewrite !NilEmpty.usu in E. injection E as E.
  rewrite <- (Unsigned.of_to a), <- (Unsigned.of_to b). congruence.
Qed.
Lemma int_of_str n : int_of (str n) = Ok n.
Proof. unfold int_of, str. rewrite NilEmpty.usu. f_equal. apply Unsigned.of_to. Qed.
Lemma str_dec n : str n = dec n.
Proof. reflexivity. Qed.
Lemma dec_digits n s : NilEmpty.uint_of_string s = None -> dec n <> s.
Proof. intros H E. subst. unfold dec in H. rewrite NilEmpty.usu in H. discriminate H. Qed.

Section T.
Variable K : StarRing.
Add Ring Kr : (r_theory K).
Notation arr := (arr K).
Local Open Scope star_scope.

(** ** The tensor below a node whose row 0 is the all-zero state *)
Inductive good (A : id -> arr) (D : id -> nat) : nat -> nat -> tree -> Prop :=
| good_leaf n j : (0 < D n)%nat -> good A D j (D n) (Lf n)
| good_node n ax ks :
    wf (A n) -> Forall (fun m => (0 < m)%nat) (shape (A n)) -> (ax < ndim (A n))%nat ->
    map k_i ks = del ax (seq 0 (ndim (A n))) ->
    (forall x, in_range x (del ax (shape (A n))) -> get (A n) (ins ax O x) = delta (ravel (del ax (shape (A n))) x) O) ->
    Forall2 (fun k m => good A D (k_j k) m (k_t k)) ks (del ax (shape (A n))) ->
    good A D ax (nth ax (shape (A n)) O) (Nd n ks).

Lemma good_pos A D ax d t : good A D ax d t -> (0 < d)%nat.
Proof. destruct 1 as [|n ax ks W P H]; auto. apply Forall_nth; auto. Qed.

Lemma good_fits A D : forall t ax d, good A D ax d t -> fits A (Some ax) d t.
Proof.
  induction t as [n|n ks IH] using tree_ind'; intros ax d H; inversion H as [? ? P|? ? ? W P Hax Ki G F]; subst.
  - constructor; auto.
  - constructor; auto. cbn [others]. clear -IH F. revert F. generalize (del ax (shape (A n))). induction IH as [|k ks Hk _ IHl]; intros l F; inversion F; subst; constructor; auto.
Qed.

Lemma good_ldims A D : forall t ax d, good A D ax d t -> ldims A (Some ax) d t = map D (lids t).
Proof.
  induction t as [n|n ks IH] using tree_ind'; intros ax d H; inversion H as [? ? P|? ? ? W P Hax Ki G F]; subst.
  - reflexivity.
  - cbn [ldims lids others]. clear -IH F. revert F. generalize (del ax (shape (A n))). induction IH as [|k ks Hk _ IHl]; intros l F; inversion F as [|? m ? l' F1 F2]; subst; [reflexivity|].
    cbn [flat_map]. rewrite map_app, (Hk _ _ F1). f_equal. apply IHl; auto.
Qed.

Lemma delta_ne i j : i <> j -> @delta K i j = 0.
Proof. intros H. unfold delta. now rewrite (proj2 (Nat.eqb_neq _ _)). Qed.
Lemma delta_eq i : @delta K i i = 1.
Proof. unfold delta. now rewrite Nat.eqb_refl. Qed.

Lemma sum_ground sh : Forall (fun m => (0 < m)%nat) sh -> forall fs : list (nat -> K), length fs = length sh ->
  sumL (indices sh) (fun x => delta (ravel sh x) O * zprod fs x) = prodL fs (fun f => f O).
Proof.
  induction 1 as [|m sh Hm P IH]; intros [|f fs] L; try discriminate L.
  - rewrite sum_indices_nil. cbn [ravel zprod]. rewrite delta_eq, prodL_nil. ring.
  - rewrite sum_indices_cons, (sumn_single K m O); auto.
    + rewrite prodL_cons, <- (IH fs) by (cbn in L; lia). rewrite <- sumL_scal_l. apply sumL_ext. intros x. cbn [ravel zprod]. replace (0 * prod sh + ravel sh x)%nat with (ravel sh x) by lia. ring.
    + intros i Hi Ni. apply sumL_zero_in. intros x Hx. cbn [ravel zprod]. rewrite delta_ne; [ring|]. assert (0 < prod sh)%nat; [|nia].
      clear -P. induction P; cbn; nia.
Qed.

Lemma prodL_map {X Y} (g : X -> Y) l (f : Y -> K) : prodL (map g l) f = prodL l (fun x => f (g x)).
Proof. unfold prodL. rewrite map_map. reflexivity. Qed.
Lemma prodL_flat {X Y} (g : X -> list Y) l (f : Y -> K) : prodL (flat_map g l) f = prodL l (fun x => prodL (g x) f).
Proof. induction l as [|x l IH]; [reflexivity|]. cbn [flat_map]. rewrite prodL_app, prodL_cons, IH. reflexivity. Qed.

Lemma Forall2_len {X Y} (R : X -> Y -> Prop) l m : Forall2 R l m -> length l = length m.
Proof. induction 1; cbn; congruence. Qed.

Lemma good_amp A D s : forall t ax d, good A D ax d t -> amp A s (Some ax) t O = prodL (lids t) (fun l => delta O (s l)).
Proof.
  induction t as [n|n ks IH] using tree_ind'; intros ax d H; inversion H as [? ? P|? ? ? W P Hax Ki G F]; subst.
  - cbn [amp lids]. rewrite prodL_cons, prodL_nil. ring.
  - cbn [amp lids others full].
    rewrite (sum_indices_ext K _ _ (fun x => delta (ravel (del ax (shape (A n))) x) O * zprod (map (fun k => amp A s (Some (k_j k)) (k_t k)) ks) x)) by (intros x Hx; rewrite G; auto).
    rewrite sum_ground.
    + rewrite prodL_map, prodL_flat. apply prodL_ext_in. intros k Hk. rewrite Forall_forall in IH.
      assert (exists m, good A D (k_j k) m (k_t k)) as (m & Gm). { clear -F Hk. induction F; [destruct Hk|]. destruct Hk as [->|]; eauto. }
      exact (IH k Hk _ _ Gm).
    + clear -P. revert ax. induction P as [|m l Hm P IH]; intros [|ax]; [constructor|constructor|exact P|]. exact (Forall_cons m Hm (IH ax)).
    + rewrite map_length. eapply Forall2_len; eauto.
Qed.

Lemma prod_zeros (v : list nat) : prodL v (fun x => delta O x) = if forallb (Nat.eqb 0) v then 1 else 0 : K.
Proof.
  induction v as [|x v IH]; [reflexivity|]. rewrite prodL_cons, IH. cbn [forallb]. unfold delta. destruct (0 =? x); cbn [andb]; destruct (forallb (Nat.eqb 0) v); ring.
Qed.

Lemma asg_all ls v : NoDup ls -> length v = length ls -> map (asg ls v) ls = v.
Proof.
  intros N L. apply nth_ext with O O; [rewrite map_length; auto|]. intros k Hk. rewrite map_length in Hk.
  rewrite (nth_indep (map (asg ls v) ls) O (asg ls v O)) by (rewrite map_length; auto). rewrite map_nth. unfold asg. rewrite index_of_nth; auto.
Qed.

Lemma asg_tail l0 l1 ls (i j : nat) v n : NoDup (l0 :: l1 :: ls) -> In n ls -> asg (l0 :: l1 :: ls) (i :: j :: v) n = asg ls v n.
Proof.
  intros N H. inversion N as [|? ? N0 N']; subst. inversion N' as [|? ? N1 _]; subst. unfold asg. cbn [index_of].
  destruct (Nat.eqb_spec l0 n) as [->|]; [exfalso; apply N0; right; auto|]. destruct (Nat.eqb_spec l1 n) as [->|]; [exfalso; auto|]. reflexivity.
Qed.

(** ** The root: density matrix times the zero state of the third axis *)
Definition root_arr (a rho : arr) (d R : nat) : Prop := wf a /\ shape a = [d; d; R] /\
  forall i j r, (i < d)%nat -> (j < d)%nat -> (r < R)%nat -> get a [i; j; r] = get rho [i; j] * delta r O.

Lemma outer_root (rho e : arr) d R : wf rho -> shape rho = [d; d] -> first_unit R = Ok e -> root_arr (outer rho e) rho d R.
Proof.
  intros W E Ee. unfold first_unit in Ee. destruct (Nat.eqb_spec R 0); [discriminate Ee|]. injection Ee as <-.
  split; [apply wf_build|]. split; [unfold outer; rewrite !shape_build, E; reflexivity|].
  intros i j r Hi Hj Hr. unfold outer. rewrite get_build by (rewrite E, shape_build; repeat constructor; auto).
  unfold ndim. rewrite E. cbn [length firstn skipn]. rewrite get_build by (repeat constructor; auto). reflexivity.
Qed.

Lemma dense_root A D rho d n la lb j0 j1 j2 t v i j R : (0 < d)%nat -> root_arr (A n) rho d R -> good A D j2 R t ->
  NoDup (la :: lb :: lids t) -> (i < d)%nat -> (j < d)%nat -> length v = length (lids t) ->
  dense A (Nd n [(O, Lf la, j0); (1%nat, Lf lb, j1); (2%nat, t, j2)]) (i :: j :: v) = if forallb (Nat.eqb 0) v then get rho [i; j] else 0.
Proof.
  intros Hd (W & Sh & G) Gt N Hi Hj Lv. pose proof (good_pos _ _ _ _ _ Gt) as HR. unfold dense. cbn [lids flat_map k_t fst snd app]. rewrite app_nil_r.
  cbn [amp map k_t k_j fst snd others full]. rewrite Sh. set (s := asg (la :: lb :: lids t) (i :: j :: v)).
  assert (Sa : s la = i) by (unfold s, asg; cbn [index_of]; rewrite Nat.eqb_refl; reflexivity).
  assert (Sb : s lb = j). { unfold s, asg. cbn [index_of]. destruct (proj1 (NoDup_cons_iff _ _) N) as (N0 & _). destruct (Nat.eqb_spec la lb) as [->|]; [exfalso; apply N0; left; auto|]. rewrite Nat.eqb_refl. reflexivity. }
  rewrite sum_indices_cons, (sumn_single K d i); auto.
  2:{ intros x Hx Nx. apply sumL_zero_in. intros y _. cbn [zprod]. rewrite Sa, (delta_ne x i) by auto. ring. }
  rewrite sum_indices_cons, (sumn_single K d j); auto.
  2:{ intros x Hx Nx. apply sumL_zero_in. intros y _. cbn [zprod]. rewrite Sb, (delta_ne x j) by auto. ring. }
  rewrite sum_indices_cons, (sumn_single K R O); auto.
  2:{ intros x Hx Nx. apply sumL_zero_in. intros y Hy. destruct Hy as [<-|[]]. rewrite G, (delta_ne x O) by auto. ring. }
  rewrite sum_indices_nil. cbn [zprod]. rewrite G, Sa, Sb, !delta_eq by auto. rewrite (good_amp A D s t j2 R Gt).
  assert (E : prodL (lids t) (fun l => @delta K O (s l)) = if forallb (Nat.eqb 0) v then 1 else 0).
  { rewrite <- prod_zeros. assert (Ea : map (asg (lids t) v) (lids t) = v). { apply asg_all; auto. destruct (proj1 (NoDup_cons_iff _ _) N) as (_ & N'). exact (proj2 (proj1 (NoDup_cons_iff _ _) N')). }
    rewrite <- Ea at 1. rewrite prodL_map. apply prodL_ext_in. intros l Hl. unfold s. rewrite asg_tail; auto. }
  rewrite E. destruct (forallb (Nat.eqb 0) v); ring.
Qed.

Lemma stands_root h r la lb j0 j1 j2 t rho d R m ks dim D :
  hangs h None (Nd r [(O, Lf la, j0); (1%nat, Lf lb, j1); (2%nat, t, j2)]) ->
  (forall n, In n (r :: nids t) -> exists a, oarr (hget h n) = Some a) -> (0 < d)%nat ->
  root_arr (array_at h r) rho d R -> good (array_at h) D j2 R t -> NoDup (la :: lb :: lids t) ->
  oname (hget h la) = Some (dec m) -> oname (hget h lb) = Some (dec (m + 1)) ->
  map (fun n => oname (hget h n)) (lids t) = map (fun k => Some (dec k)) ks -> Permutation ks (seq 0 m) ->
  map D (lids t) = map dim ks -> stands_for h r rho d m ks dim.
Proof.
  intros H Ha Hd Hr Hg N Ea Eb En P ED. exists (Nd r [(O, Lf la, j0); (1%nat, Lf lb, j1); (2%nat, t, j2)]). split; [reflexivity|]. split; [auto|].
  split. { intros n Hn. apply Ha. cbn [nids flat_map k_t fst snd app] in Hn. rewrite app_nil_r in Hn. exact Hn. }
  destruct Hr as (W & Sh & G). pose proof (good_pos _ _ _ _ _ Hg) as HR. split.
  { apply fits_node; auto; unfold ndim; rewrite ?Sh; [repeat constructor; auto|reflexivity|]. cbn [others]. constructor; [constructor; auto|].
    constructor; [constructor; auto|]. constructor; [|constructor]. eapply good_fits; eauto. }
  split. { cbn [lids flat_map k_t fst snd app map]. rewrite app_nil_r, Ea, Eb, En. reflexivity. }
  split; [auto|]. split. { cbn [ldims others k_j k_t fst snd app]. rewrite Sh. cbn [app]. rewrite app_nil_r, (good_ldims _ _ _ _ _ Hg), ED. reflexivity. }
  intros i j v Hi Hj Hv. apply (dense_root (array_at h) D rho d r la lb j0 j1 j2 t v i j R); auto; [split; auto|]. apply in_range_len in Hv. rewrite map_length in Hv. rewrite Hv, <- (map_length dim ks), <- ED, map_length. reflexivity.
Qed.
End T.
