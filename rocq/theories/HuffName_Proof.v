(** The tree of a Huffman graph has pairwise different names; as a tree of names it is what
    [generate] follows. *)
From Coq Require Import String List Arith Bool Lia Permutation.
From Verif Require Import Py Tools_Model Tools_Spec Tools_Proof Gen_Spec.
Import ListNotations.
Local Open Scope nat_scope.
Local Open Scope list_scope.

Lemma NoDup_app_iff {A} (l l' : list A) : NoDup (l ++ l') <-> NoDup l /\ NoDup l' /\ (forall x, In x l -> In x l' -> False).
Proof.
  split.
  - induction l as [|a l IH]; cbn [app]; intros H; [split; [constructor|split; [exact H|intros x []]]|].
    apply NoDup_cons_iff in H. destruct H as (H1 & H2). destruct (IH H2) as (A1 & A2 & A3). rewrite in_app_iff in H1. split; [constructor; tauto|]. split; auto.
    intros x [<-|Hx] Hx'; [tauto|eauto].
  - induction l as [|a l IH]; cbn [app]; intros (H1 & H2 & H3); auto. apply NoDup_cons_iff in H1. destruct H1 as (H0 & H1). constructor.
    + rewrite in_app_iff. intros [H|H]; [auto|]. apply (H3 a); [left|]; auto.
    + apply IH. split; auto. split; auto. intros x Hx. apply H3. right; auto.
Qed.

Lemma pick_l {A B} (R : A -> B -> Prop) l l' y : Forall2 R l l' -> In y l' -> exists x, R x y.
Proof. induction 1 as [|x y' l l' H _ IH]; [intros []|]. intros [<-|Hy]; eauto. Qed.

Section Names.
Variable N : Type.

Fixpoint nnames (t : ntree N) : list N :=
  match t with Tip n => [n] | Fork n ts => n :: flat_map nnames ts end.
Fixpoint nsize (t : ntree N) : nat :=
  match t with Tip _ => 1 | Fork _ ts => S (list_sum (map nsize ts)) end.

Lemma in_nsize (t : ntree N) ts : In t ts -> nsize t <= list_sum (map nsize ts).
Proof. induction ts as [|u ts IH]; [intros []|]. intros [<-|H]; cbn [map list_sum fold_right]; [lia|]. apply IH in H. unfold list_sum in H. lia. Qed.

Lemma unfolds_det (g : N -> option (list N)) : forall t n t', Tools_Spec.unfolds g n t -> Tools_Spec.unfolds g n t' -> t = t'.
Proof.
  induction t as [m|m ts IH] using ntree_ind'; intros n t' H H'; inversion H as [? E|? ns ? E F]; subst; inversion H' as [? E'|? ns' ts' E' F']; subst; try congruence.
  f_equal. assert (ns' = ns) by congruence. subst ns'. clear -IH F F'. revert ns F ts' F'.
  induction IH as [|t ts Ht _ IHl]; intros ns F ts' F'; inversion F; subst; inversion F'; subst; auto. f_equal; eauto.
Qed.

Lemma tips_pos nb (t : ntree N) : degrees 2 nb t -> exists x, In x (tips t).
Proof.
  induction t as [m|m ts IH] using ntree_ind'; intros D; [exists m; left; auto|]. inversion D as [|? ? D1 _ D2]; subst.
  destruct ts as [|t ts]; [cbn in D1; lia|]. destruct (Forall_inv IH (Forall_inv D2)) as (x & Hx). exists x. cbn [tips flat_map]. apply in_app_iff; auto.
Qed.

Lemma sub_of (g : N -> option (list N)) nb : forall t n x, Tools_Spec.unfolds g n t -> degrees 2 nb t -> In x (nnames t) ->
  exists u, Tools_Spec.unfolds g x u /\ degrees 2 nb u /\ incl (tips u) (tips t) /\ nsize u <= nsize t.
Proof.
  induction t as [m|m ts IH] using ntree_ind'; intros n x H D Hx; inversion H as [? E|? ns ? E F]; subst.
  - destruct Hx as [<-|[]]. exists (Tip m). split; auto. split; auto. split; [apply incl_refl|auto].
  - destruct Hx as [<-|Hx]. { exists (Fork m ts). split; auto. split; auto. split; [apply incl_refl|auto]. }
    apply in_flat_map in Hx. destruct Hx as (t & Ht & Hx). rewrite Forall_forall in IH. inversion D as [|? ? D1 D2 D3]; subst. rewrite Forall_forall in D3.
    assert (exists n', Tools_Spec.unfolds g n' t) as (n' & U) by exact (pick_l _ _ _ _ F Ht).
    destruct (IH t Ht n' x U (D3 t Ht) Hx) as (u & U' & Du & I & L). exists u. split; auto. split; auto. split.
    + intros y Hy. cbn [tips]. apply in_flat_map. exists t. auto.
    + cbn [nsize]. pose proof (in_nsize t ts Ht). lia.
Qed.

Lemma nnames_NoDup (g : N -> option (list N)) nb : forall t n, Tools_Spec.unfolds g n t -> degrees 2 nb t -> NoDup (tips t) -> NoDup (nnames t).
Proof.
  induction t as [m|m ts IH] using ntree_ind'; intros n H D ND; [constructor; [intros []|constructor]|].
  inversion H as [|? ns ? E F]; subst. inversion D as [|? ? _ _ D2]; subst. cbn [nnames]. constructor.
  - intros Hx. apply in_flat_map in Hx. destruct Hx as (t & Ht & Hx). rewrite Forall_forall in D2.
    assert (exists n', Tools_Spec.unfolds g n' t) as (n' & U) by exact (pick_l _ _ _ _ F Ht).
    destruct (sub_of g nb t n' m U (D2 t Ht) Hx) as (u & U' & _ & _ & L). pose proof (unfolds_det g _ _ _ H U') as Eu. subst u.
    cbn [nsize] in L. pose proof (in_nsize t ts Ht). lia.
  - cbn [tips] in ND. clear H D E m. revert ns F ND D2. induction IH as [|t ts Ht _ IHl]; intros ns F ND D2; [constructor|].
    inversion F as [|n0 ? ns' ? F1 F2]; subst. inversion D2 as [|? ? D1 D3]; subst. cbn [flat_map] in *.
    apply NoDup_app_iff in ND. destruct ND as (N1 & N2 & N3). apply NoDup_app_iff. split; [eapply Ht; eauto|]. split; [eapply IHl; eauto|].
    intros x Hx Hx'. apply in_flat_map in Hx'. destruct Hx' as (t' & Ht' & Hx'). rewrite Forall_forall in D3.
    assert (exists n', Tools_Spec.unfolds g n' t') as (n' & U) by exact (pick_l _ _ _ _ F2 Ht').
    destruct (sub_of g nb t n0 x F1 D1 Hx) as (u & Uu & Du & I & _). destruct (sub_of g nb t' n' x U (D3 t' Ht') Hx') as (u' & Uu' & _ & I' & _).
    pose proof (unfolds_det g _ _ _ Uu Uu'). subst u'. destruct (tips_pos nb u Du) as (y & Hy). apply (N3 y); [apply I; auto|]. apply in_flat_map. exists t'. auto.
Qed.

Lemma tips_len nb (t : ntree N) : degrees 2 nb t -> length (nnames t) + 1 <= 2 * length (tips t).
Proof.
  induction t as [m|m ts IH] using ntree_ind'; intros D; [cbn; lia|]. inversion D as [|? ? D1 _ D2]; subst. cbn [nnames tips length].
  assert (length (flat_map nnames ts) + length ts <= 2 * length (flat_map tips ts)); [|lia].
  clear D D1. induction IH as [|t ts Ht _ IHl]; [cbn; lia|]. cbn [flat_map length]. rewrite !app_length. specialize (Ht (Forall_inv D2)). specialize (IHl (Forall_inv_tail D2)). lia.
Qed.

Lemma tips_in (t : ntree N) x : In x (tips t) -> In x (nnames t).
Proof.
  induction t as [m|m ts IH] using ntree_ind'; intros H; auto. right. cbn [tips] in H. apply in_flat_map in H. destruct H as (t & Ht & H).
  apply in_flat_map. exists t. rewrite Forall_forall in IH. auto.
Qed.

Lemma nnames_split (g : N -> option (list N)) : forall t n x, Tools_Spec.unfolds g n t -> In x (nnames t) -> In x (tips t) \/ exists v, g x = Some v.
Proof.
  induction t as [m|m ts IH] using ntree_ind'; intros n x H Hx; inversion H as [? E|? ns ? E F]; subst; auto.
  destruct Hx as [<-|Hx]; [eauto|]. apply in_flat_map in Hx. destruct Hx as (t & Ht & Hx). rewrite Forall_forall in IH.
  assert (exists n', Tools_Spec.unfolds g n' t) as (n' & U) by exact (pick_l _ _ _ _ F Ht).
  destruct (IH t Ht n' x U Hx) as [H'|H']; auto. left. cbn [tips]. apply in_flat_map. eauto.
Qed.
End Names.
Arguments nnames {N} _.

(** ** As a tree of strings *)
Fixpoint conv (t : ntree string) : stree :=
  match t with Tip s => SLf s | Fork s ts => SNd s (map conv ts) end.

Lemma conv_names t : snames (conv t) = nnames t.
Proof.
  induction t as [m|m ts IH] using ntree_ind'; auto. cbn [conv snames nnames]. f_equal. induction IH as [|t ts Ht _ IHl]; auto. cbn [map flat_map]. congruence.
Qed.

Lemma conv_unfolds g : forall t n, Tools_Spec.unfolds g n t -> sname (conv t) = n /\ Gen_Spec.unfolds g (conv t).
Proof.
  induction t as [m|m ts IH] using ntree_ind'; intros n H; inversion H as [? E|? ns ? E F]; subst; (split; [reflexivity|]); cbn [conv]; constructor; auto.
  - rewrite E. f_equal. rewrite map_map. clear E H. revert ns F. induction IH as [|t ts Ht _ IHl]; intros ns F; inversion F as [|? ? ? ? F1 F2]; subst; auto. cbn [map]. f_equal; auto. symmetry. apply Ht; auto.
  - clear E H. revert ns F. induction IH as [|t ts Ht _ IHl]; intros ns F; inversion F as [|? ? ? ? F1 F2]; subst; constructor; eauto. eapply Ht; eauto.
Qed.

Lemma skeys_le T : skeys T <= length (snames T).
Proof.
  revert T. fix IH 1. intros [s|s l]; cbn [skeys snames length]; [lia|]. apply le_n_S. induction l as [|t l IHl]; cbn [map list_sum fold_right flat_map]; [lia|].
  rewrite app_length. specialize (IH t). unfold list_sum in IHl. lia.
Qed.

(** Names of leaves of a tree of names. *)
Fixpoint stips (t : stree) : list string :=
  match t with SLf s => [s] | SNd _ l => flat_map stips l end.
Lemma conv_tips t : stips (conv t) = tips t.
Proof.
  induction t as [m|m ts IH] using ntree_ind'; auto. cbn [conv stips tips]. induction IH as [|t ts Ht _ IHl]; auto. cbn [map flat_map]. congruence.
Qed.

(** Each inner name has at least two children. *)
Inductive two_up : stree -> Prop :=
| tu_leaf s : two_up (SLf s)
| tu_node s l : 2 <= length l -> Forall two_up l -> two_up (SNd s l).
Lemma conv_two nb t : degrees 2 nb t -> two_up (conv t).
Proof.
  induction t as [m|m ts IH] using ntree_ind'; intros D; cbn [conv]; constructor; inversion D as [|? ? D1 _ D2]; subst; [now rewrite map_length|].
  clear D D1. induction IH as [|t ts Ht _ IHl]; constructor; [apply Ht; exact (Forall_inv D2)|apply IHl; exact (Forall_inv_tail D2)].
Qed.

(** ** Keys of the graph *)
Section Keys.
Variables (N P : Type) (neqb : N -> N -> bool) (padd : P -> P -> P) (p0 : P) (ple : P -> P -> bool).
Hypothesis neqb_spec : forall a b, neqb a b = true <-> a = b.

Lemma huffman_keys obj_new nb fuel : forall i sq g g' r, huffman_loop neqb padd p0 ple obj_new nb fuel i sq g = Ok (g', r) ->
  forall k v, dlookup neqb g' k = Some v -> (exists v', dlookup neqb g k = Some v') \/ exists j, k = obj_new j.
Proof.
  induction fuel as [|fuel IH]; intros i sq g g' r H k v L; [discriminate H|]. cbn [huffman_loop] in H. destruct sq as [|[n p] [|e sq]]; [discriminate H| |].
  - injection H as <- <-. eauto.
  - destruct (IH _ _ _ _ _ H k v L) as [(v' & L')|H']; auto. assert (Dk : k = obj_new i \/ k <> obj_new i). { rewrite <- neqb_spec. destruct (neqb k (obj_new i)); [left; auto|right; discriminate]. } destruct Dk as [->|Nk]; eauto. left.
    rewrite dlookup_dset_neq in L'; eauto.
Qed.
End Keys.
