(** Traversals of tree networks. *)
From Coq Require Import List Arith Bool Lia Permutation.
From Verif Require Import Py Alg ListX NdArray_Model Net_Model Net_Spec Tools_Spec.
Import ListNotations.
Local Open Scope nat_scope.

Lemma tree_ind' (P : tree -> Prop) :
  (forall n, P (Lf n)) ->
  (forall n ks, Forall (fun k => P (k_t k)) ks -> P (Nd n ks)) -> forall t, P t.
Proof.
  intros HL HN. fix IH 1. intros [n|n ks]; [apply HL|]. apply HN.
  induction ks as [|[[i t] j] ks IHk]; constructor; [apply IH|auto].
Qed.

Definition kid_half (k : kid) : nat * half := (k_i k, (top (k_t k), k_j k)).

Lemma height_kid n ks k : In k ks -> height (k_t k) < height (Nd n ks).
Proof.
  intros H. cbn [height]. apply Nat.lt_succ_r.
  induction ks as [|x ks IH]; [destruct H|]. cbn [map fold_right].
  destruct H as [->|H]; [lia|]. specialize (IH H). lia.
Qed.
Lemma height_pos t : 1 <= height t.
Proof. destruct t; cbn; lia. Qed.

Lemma filter_all {A} (p : A -> bool) l : (forall x, In x l -> p x = true) -> filter p l = l.
Proof.
  induction l as [|x l IH]; intros H; [reflexivity|]. cbn [filter]. rewrite (H x) by (left; auto).
  f_equal. apply IH. intros; apply H; right; auto.
Qed.

Lemma NoDup_app_r {A} (l l' : list A) : NoDup (l ++ l') -> NoDup l'.
Proof. induction l; auto. cbn. intros H. apply NoDup_cons_iff in H. tauto. Qed.
Lemma NoDup_app_l {A} (l l' : list A) : NoDup (l ++ l') -> NoDup l.
Proof.
  induction l; [constructor|]. cbn. intros H. apply NoDup_cons_iff in H. destruct H as (H & H').
  constructor; auto. intros Hi. apply H, in_app_iff; auto.
Qed.
Lemma NoDup_app_disj {A} (l l' : list A) x : NoDup (l ++ l') -> In x l -> In x l' -> False.
Proof.
  induction l; [auto|]. cbn. intros H [->|Hx] Hy; apply NoDup_cons_iff in H; destruct H as (H & H').
  - apply H, in_app_iff; auto.
  - auto.
Qed.

Section Trav.
Variable K : StarRing.
Implicit Type h : heap K.

Lemma hangs_leafness h up t : hangs h up t -> oleaf (hget h (top t)) = negb (inner t).
Proof. destruct 1; auto. Qed.

Lemma hangs_kids h up n ks : hangs h up (Nd n ks) ->
  oleaf (hget h n) = false /\
  Forall (fun k => hangs h (Some (k_j k, (n, k_i k))) (k_t k)) ks /\
  filter (fun e => negb (is_axis (option_map fst up) (fst e))) (oacc (hget h n)) = map kid_half ks.
Proof.
  intros H. inversion H as [|? ? L A D F|? j p k1 k2 L A D F]; subst.
  - split; auto. split; auto. cbn [option_map is_axis]. rewrite A.
    clear. induction ks; cbn; [reflexivity|]. f_equal. auto.
  - split; auto. split; auto. cbn [option_map is_axis fst]. rewrite A.
    rewrite A, map_app in D. cbn [map fst] in D.
    assert (D1 : forall k, In k (k1 ++ k2) -> k_i k <> j).
    { intros k Hk E. apply NoDup_remove_2 in D. apply D. rewrite !map_map.
      apply in_app_iff in Hk. apply in_app_iff. subst j.
      destruct Hk as [Hk|Hk]; [left|right]; apply in_map_iff; exists k; auto. }
    rewrite filter_app. cbn [filter fst]. rewrite Nat.eqb_refl. cbn [negb].
    rewrite map_app. f_equal; apply filter_all;
      intros e He; apply in_map_iff in He; destruct He as (k & <- & Hk); cbn [fst];
      apply negb_true_iff, Nat.eqb_neq, D1, in_app_iff; auto.
Qed.

Definition kid3 (k : kid) : nat * id * nat := (k_i k, top (k_t k), k_j k).

Lemma children_node h up n ks leaf : hangs h up (Nd n ks) ->
  children h n (option_map fst up) leaf
  = map kid3 (filter (fun k => leaf || inner (k_t k)) ks).
Proof.
  intros H. destruct (hangs_kids h up n ks H) as (L & F & E).
  unfold children. rewrite L, andb_false_r. unfold linkages.
  set (ax := option_map fst up) in *.
  transitivity (filter (fun x => leaf || negb (oleaf (hget h (snd (fst x)))))
     (map (fun e : nat * half => (fst e, fst (snd e), snd (snd e)))
        (filter (fun e => negb (is_axis ax (fst e))) (oacc (hget h n))))).
  - generalize (oacc (hget h n)) as l. induction l as [|[i [c j]] l IH]; [reflexivity|].
    cbn [map filter fst snd]. destruct (is_axis ax i); cbn [negb andb]; [exact IH|].
    cbn [map filter fst snd]. rewrite IH. reflexivity.
  - rewrite E. clear E H. induction F as [|k ks Hk F IH]; [reflexivity|].
    cbn [map filter kid_half fst snd]. rewrite (hangs_leafness _ _ _ Hk), negb_involutive, IH.
    destruct (leaf || inner (k_t k)); reflexivity.
Qed.

Lemma children_leaf h up n leaf : hangs h up (Lf n) -> children h n (option_map fst up) leaf = [].
Proof.
  intros H. inversion H as [? j p L A| |]; subst. unfold children. cbn [option_map is_none andb].
  unfold linkages. rewrite A. cbn. now rewrite Nat.eqb_refl.
Qed.

Lemma concatM_ok {A B} (f : A -> res (list B)) (g : A -> list B) l :
  (forall x, In x l -> f x = Ok (g x)) -> concatM f l = Ok (flat_map g l).
Proof.
  induction l as [|x l IH]; intros H; [reflexivity|]. cbn [concatM flat_map].
  rewrite (H x) by (left; auto). cbn [bind]. rewrite IH by (intros; apply H; right; auto).
  reflexivity.
Qed.

Lemma concatM_map {A B C} (f : B -> res (list C)) (g : A -> B) l :
  concatM f (map g l) = concatM (fun x => f (g x)) l.
Proof. induction l as [|x l IH]; [reflexivity|]. cbn. now rewrite IH. Qed.

Lemma flat_map_filter {A B} (p : A -> bool) (g : A -> list B) l :
  (forall x, In x l -> p x = false -> g x = []) -> flat_map g (filter p l) = flat_map g l.
Proof.
  induction l as [|x l IH]; intros H; [reflexivity|]. cbn [filter flat_map].
  destruct (p x) eqn:E.
  - cbn [flat_map]. rewrite IH; auto. intros; apply H; auto. right; auto.
  - rewrite IH by (intros; apply H; auto; right; auto). rewrite (H x); auto. left; auto.
Qed.

Lemma visitor_hangs h : forall t up fuel leaf, hangs h up t -> height t <= fuel ->
  visitor fuel h (top t) (option_map fst up) leaf = Ok (if leaf then ids t else nids t).
Proof.
  induction t as [n|n ks IH] using tree_ind'; intros up fuel leaf H Hf.
  - destruct fuel as [|fuel]; [cbn in Hf; lia|]. cbn [visitor top].
    rewrite (children_leaf _ _ _ _ H). cbn [concatM bind].
    pose proof (hangs_leafness _ _ _ H) as L. cbn [top inner negb] in L. rewrite L.
    destruct leaf; reflexivity.
  - destruct fuel as [|fuel]; [cbn in Hf; lia|]. cbn [visitor top].
    rewrite (children_node _ _ _ _ _ H), concatM_map.
    destruct (hangs_kids _ _ _ _ H) as (L & F & _). rewrite L.
    rewrite concatM_ok with (g := fun k => if leaf then ids (k_t k) else nids (k_t k)).
    + cbn [bind negb]. rewrite orb_true_r. rewrite flat_map_filter.
      * destruct leaf; reflexivity.
      * intros k Hk E. destruct leaf; cbn [orb] in E; [discriminate|].
        destruct (k_t k); [reflexivity|discriminate].
    + intros k Hk. apply filter_In in Hk. destruct Hk as (Hk & _).
      rewrite Forall_forall in IH, F. cbn [kid3 fst snd].
      apply (IH k Hk (Some (k_j k, (n, k_i k)))); auto.
      pose proof (height_kid n ks k Hk). lia.
Qed.

(** Edges. *)
Lemma linkage_hangs h : forall t up fuel leaf, hangs h up t -> height t <= fuel ->
  linkage_visitor fuel h (top t) (option_map fst up) leaf false
  = Ok (if leaf then edges t else inner_edges t).
Proof.
  induction t as [n|n ks IH] using tree_ind'; intros up fuel leaf H Hf.
  - destruct fuel as [|fuel]; [cbn in Hf; lia|]. cbn [linkage_visitor top].
    rewrite (children_leaf _ _ _ _ H). destruct leaf; reflexivity.
  - destruct fuel as [|fuel]; [cbn in Hf; lia|]. cbn [linkage_visitor top].
    rewrite (children_node _ _ _ _ _ H), concatM_map.
    destruct (hangs_kids _ _ _ _ H) as (_ & F & _).
    rewrite concatM_ok with (g := fun k => (n, k_i k, top (k_t k), k_j k) ::
                                (if leaf then edges (k_t k) else inner_edges (k_t k))).
    + f_equal. destruct leaf; cbn [orb].
      * rewrite filter_all by auto. reflexivity.
      * cbn [inner_edges]. clear. induction ks as [|k ks IH]; [reflexivity|].
        cbn [filter flat_map]. destruct (inner (k_t k)); cbn [flat_map]; rewrite IH; reflexivity.
    + intros k Hk. apply filter_In in Hk. destruct Hk as (Hk & _).
      rewrite Forall_forall in IH, F. cbn [kid3].
      rewrite (IH k Hk (Some (k_j k, (n, k_i k)))); auto.
      * cbn [bind]. rewrite app_nil_r. reflexivity.
      * pose proof (height_kid n ks k Hk). lia.
Qed.

(** The Euler tour. *)
Fixpoint tour (leaf : bool) (t : tree) : list (bool * edge) :=
  match t with
  | Lf _ => []
  | Nd n ks => flat_map (fun k => if leaf || inner (k_t k) then
       (false, (n, k_i k, top (k_t k), k_j k)) :: tour leaf (k_t k)
         ++ [(true, (top (k_t k), k_j k, n, k_i k))] else []) ks
  end.

Lemma decorated_hangs h : forall t up fuel leaf, hangs h up t -> height t <= fuel ->
  decorated_visitor fuel h (top t) (option_map fst up) leaf = Ok (tour leaf t).
Proof.
  induction t as [n|n ks IH] using tree_ind'; intros up fuel leaf H Hf.
  - destruct fuel as [|fuel]; [cbn in Hf; lia|]. cbn [decorated_visitor top].
    rewrite (children_leaf _ _ _ _ H). reflexivity.
  - destruct fuel as [|fuel]; [cbn in Hf; lia|]. cbn [decorated_visitor top].
    rewrite (children_node _ _ _ _ _ H), concatM_map.
    destruct (hangs_kids _ _ _ _ H) as (_ & F & _).
    rewrite concatM_ok with (g := fun k => (false, (n, k_i k, top (k_t k), k_j k)) ::
              tour leaf (k_t k) ++ [(true, (top (k_t k), k_j k, n, k_i k))]).
    + f_equal. cbn [tour]. clear. induction ks as [|k ks IH]; [reflexivity|].
      cbn [filter flat_map]. destruct (leaf || inner (k_t k)); cbn [flat_map]; rewrite IH; reflexivity.
    + intros k Hk. apply filter_In in Hk. destruct Hk as (Hk & _).
      rewrite Forall_forall in IH, F. cbn [kid3].
      rewrite (IH k Hk (Some (k_j k, (n, k_i k)))); auto.
      pose proof (height_kid n ks k Hk). lia.
Qed.

Lemma directed_hangs h n ks up fuel leaf : hangs h up (Nd n ks) -> height (Nd n ks) <= fuel ->
  linkage_visitor fuel h n (option_map fst up) leaf true
  = Ok (flat_map (fun k => if leaf || inner (k_t k) then
      (n, k_i k, top (k_t k), k_j k) :: (if leaf then edges (k_t k) else inner_edges (k_t k))
       ++ [(top (k_t k), k_j k, n, k_i k)] else []) ks).
Proof.
  intros H Hf. destruct fuel as [|fuel]; [cbn in Hf; lia|]. cbn [linkage_visitor].
  rewrite (children_node _ _ _ _ _ H), concatM_map.
  destruct (hangs_kids _ _ _ _ H) as (_ & F & _).
  rewrite concatM_ok with (g := fun k => (n, k_i k, top (k_t k), k_j k) ::
       (if leaf then edges (k_t k) else inner_edges (k_t k)) ++ [(top (k_t k), k_j k, n, k_i k)]).
  - f_equal. clear. induction ks as [|k ks IH]; [reflexivity|].
    cbn [filter flat_map]. destruct (leaf || inner (k_t k)); cbn [flat_map]; rewrite IH; reflexivity.
  - intros k Hk. apply filter_In in Hk. destruct Hk as (Hk & _).
    rewrite Forall_forall in F. cbn [kid3].
    rewrite (linkage_hangs h (k_t k) (Some (k_j k, (n, k_i k)))); auto.
    pose proof (height_kid n ks k Hk). lia.
Qed.

Lemma walk_app a es b es' c : walk a es b -> walk b es' c -> walk a (es ++ es') c.
Proof. induction 1; intros; cbn; auto. constructor; auto. Qed.

Lemma tour_walk leaf t : walk (top t) (map snd (tour leaf t)) (top t).
Proof.
  induction t as [n|n ks IH] using tree_ind'; [constructor|]. cbn [top tour].
  induction IH as [|k ks Hk _ IHk]; [constructor|]. cbn [flat_map].
  rewrite map_app. apply walk_app with n; auto.
  destruct (leaf || inner (k_t k)); [|constructor]. cbn [map snd]. constructor.
  rewrite map_app. apply walk_app with (top (k_t k)); auto. cbn. constructor. constructor.
Qed.

Lemma nested_app l l' : nested l -> nested l' -> nested (l ++ l').
Proof.
  induction 1; intros; cbn; auto. rewrite <- app_assoc. cbn. constructor; auto.
Qed.

Lemma tour_nested leaf t : nested (tour leaf t).
Proof.
  induction t as [n|n ks IH] using tree_ind'; [constructor|]. cbn [tour].
  induction IH as [|k ks Hk _ IHk]; [constructor|]. cbn [flat_map].
  apply nested_app; auto. destruct (leaf || inner (k_t k)); [|constructor].
  apply (nested_cons (n, k_i k, top (k_t k), k_j k)); auto. constructor.
Qed.

Definition all_edges (leaf : bool) t := if leaf then edges t else inner_edges t.

Lemma all_edges_node leaf n ks : all_edges leaf (Nd n ks) =
  flat_map (fun k => if leaf || inner (k_t k)
              then (n, k_i k, top (k_t k), k_j k) :: all_edges leaf (k_t k) else []) ks.
Proof. destruct leaf; reflexivity. Qed.

Lemma tour_down leaf t : map snd (filter (fun x => negb (fst x)) (tour leaf t)) = all_edges leaf t.
Proof.
  induction t as [n|n ks IH] using tree_ind'; [destruct leaf; reflexivity|].
  rewrite all_edges_node. cbn [tour]. induction IH as [|k ks Hk _ IHk]; [reflexivity|].
  cbn [flat_map]. rewrite filter_app, map_app, IHk. f_equal.
  destruct (leaf || inner (k_t k)); [|reflexivity]. cbn [filter fst negb map snd].
  rewrite filter_app, map_app, Hk. cbn. now rewrite app_nil_r.
Qed.

Lemma tour_up leaf t :
  Permutation (map snd (filter fst (tour leaf t))) (map rev_edge (all_edges leaf t)).
Proof.
  induction t as [n|n ks IH] using tree_ind'; [destruct leaf; constructor|].
  rewrite all_edges_node. cbn [tour]. induction IH as [|k ks Hk _ IHk]; [constructor|].
  cbn [flat_map]. rewrite filter_app, !map_app. apply Permutation_app; auto.
  destruct (leaf || inner (k_t k)); [|constructor]. cbn [filter fst].
  rewrite filter_app, map_app. cbn [filter fst map snd].
  rewrite Permutation_app_comm. cbn [app]. constructor; auto.
Qed.

(** Preorder. *)
Lemma before_app_l {A} (a b : A) l l' : before a b l -> before a b (l ++ l').
Proof.
  intros (l1 & l2 & l3 & ->). exists l1, l2, (l3 ++ l'). rewrite <- !app_assoc. cbn. now rewrite <- app_assoc.
Qed.
Lemma before_app_r {A} (a b : A) l l' : before a b l' -> before a b (l ++ l').
Proof. intros (l1 & l2 & l3 & ->). exists (l ++ l1), l2, l3. now rewrite <- !app_assoc. Qed.
Lemma before_hd {A} (a b : A) l : In b l -> before a b (a :: l).
Proof. intros H. apply in_split in H. destruct H as (l1 & l2 & ->). exists [], l1, l2. reflexivity. Qed.

Lemma top_in t : In (top t) (ids t).
Proof. destruct t; left; auto. Qed.

Lemma ids_top t : exists l, ids t = top t :: l.
Proof. destruct t; cbn; eauto. Qed.

Lemma edges_before t a i b j : In (a, i, b, j) (edges t) -> before a b (ids t).
Proof.
  induction t as [n|n ks IH] using tree_ind'; cbn [edges ids]; [intros []|].
  intros H. apply in_flat_map in H. destruct H as (k & Hk & [H|H]).
  - inversion H; subst. apply before_hd. apply in_flat_map. exists k. split; auto. apply top_in.
  - rewrite Forall_forall in IH. apply (IH k Hk) in H.
    apply in_split in Hk. destruct Hk as (k1 & k2 & ->). rewrite flat_map_app.
    change (n :: flat_map (fun k3 => ids (k_t k3)) k1 ++ flat_map (fun k0 => ids (k_t k0)) (k :: k2)) with
      ((n :: flat_map (fun k0 => ids (k_t k0)) k1) ++ flat_map (fun k0 => ids (k_t k0)) (k :: k2)).
    apply before_app_r. cbn [flat_map]. now apply before_app_l.
Qed.

Lemma edges_in t a i b j : In (a, i, b, j) (edges t) -> In a (ids t) /\ In b (ids t).
Proof.
  intros H. apply edges_before in H. destruct H as (l1 & l2 & l3 & ->).
  split; apply in_app_iff; right; [left; auto|right]. apply in_app_iff; right; left; auto.
Qed.

Lemma edges_child_not_top t a i b j : NoDup (ids t) -> In (a, i, b, j) (edges t) -> b <> top t.
Proof.
  intros Hn H E. destruct t as [n|n ks]; [destruct H|]. cbn [ids top edges] in *. subst b.
  apply NoDup_cons_iff in Hn. destruct Hn as (Hn & _). apply Hn.
  apply in_flat_map in H. destruct H as (k & Hk & [H|H]); apply in_flat_map; exists k; split; auto.
  - inversion H. apply top_in.
  - apply edges_in in H. tauto.
Qed.

(** Each non-top object is the lower end of exactly one edge. *)
Lemma edges_lower t : map (fun e : edge => snd (fst e)) (edges t) = tl (ids t).
Proof.
  induction t as [n|n ks IH] using tree_ind'; [reflexivity|]. cbn [edges ids tl].
  induction IH as [|k ks Hk _ IHk]; [reflexivity|]. cbn [flat_map map]. rewrite map_app, IHk.
  cbn [map snd fst]. rewrite Hk. destruct (ids_top (k_t k)) as (l & E). rewrite E. reflexivity.
Qed.

Lemma edges_nodup t : NoDup (ids t) -> NoDup (edges t).
Proof.
  intros H. apply (NoDup_map_inv (fun e : edge => snd (fst e))). rewrite edges_lower.
  destruct (ids_top t) as (l & E). rewrite E in H |- *. now apply NoDup_cons_iff in H.
Qed.

Lemma edges_length t : length (edges t) = length (ids t) - 1.
Proof.
  rewrite <- (map_length (fun e : edge => snd (fst e))), edges_lower.
  destruct (ids_top t) as (l & ->). cbn. lia.
Qed.

Lemma ids_kid n ks k x : In k ks -> In x (ids (k_t k)) -> In x (ids (Nd n ks)).
Proof. intros. right. apply in_flat_map. eauto. Qed.

Lemma NoDup_kid n ks k : NoDup (ids (Nd n ks)) -> In k ks -> NoDup (ids (k_t k)) /\ ~ In n (ids (k_t k)).
Proof.
  cbn [ids]. intros H Hk. apply NoDup_cons_iff in H. destruct H as (Hn & H).
  apply in_split in Hk. destruct Hk as (k1 & k2 & ->).
  rewrite flat_map_app in H, Hn. cbn [flat_map] in H, Hn. split.
  - clear -H. apply NoDup_app_r in H. now apply NoDup_app_l in H.
  - intros Hi. apply Hn. apply in_app_iff. right. apply in_app_iff. auto.
Qed.

(** Reversed edges produced by [directed=True]. *)
Lemma directed_reverses h n ks fuel up : hangs h up (Nd n ks) -> height (Nd n ks) <= fuel ->
  NoDup (ids (Nd n ks)) ->
  exists l, linkage_visitor fuel h n (option_map fst up) true true = Ok l /\
    (forall e, In e (edges (Nd n ks)) -> In e l) /\
    forall a i b j, In (a, i, b, j) (edges (Nd n ks)) -> (In (b, j, a, i) l <-> a = n).
Proof.
  intros H Hf Hn. eexists. split; [apply directed_hangs; eauto|]. cbn [orb]. split.
  - intros e He. cbn [edges] in He. apply in_flat_map in He. destruct He as (k & Hk & He).
    apply in_flat_map. exists k. split; auto. destruct He as [<-|He]; [left; auto|right].
    apply in_app_iff; auto.
  - intros a i b j He. split.
    + intros Hr. apply in_flat_map in Hr. destruct Hr as (k & Hk & [Hr|Hr]).
      * inversion Hr; subst. apply edges_child_not_top in He; auto. cbn in He. congruence.
      * apply in_app_iff in Hr. destruct Hr as [Hr|[Hr|[]]].
        -- exfalso.
           assert (Hr' : In (b, j, a, i) (edges (Nd n ks))).
           { cbn [edges]. apply in_flat_map. exists k. split; auto. right; auto. }
           apply edges_before in He. apply edges_before in Hr'.
           destruct He as (l1 & l2 & l3 & E1). destruct Hr' as (m1 & m2 & m3 & E2).
           rewrite E1 in Hn. rewrite E1 in E2.
           clear -Hn E2.
           assert (Hab : a <> b).
           { intros ->. apply NoDup_remove_2 in Hn. apply Hn. apply in_app_iff. right.
             apply in_app_iff. right. left; auto. }
           revert m1 E2. induction l1 as [|x l1 IH]; intros [|y m1] E2; cbn in *.
           ++ inversion E2; subst. congruence.
           ++ inversion E2 as [[E3 E4]]. apply NoDup_cons_iff in Hn. destruct Hn as (Hn & _).
              apply Hn. subst y. rewrite E4. apply in_app_iff. right. right.
              apply in_app_iff. right. left; auto.
           ++ inversion E2 as [[E3 E4]]. apply NoDup_cons_iff in Hn. destruct Hn as (Hn & _).
              apply Hn. subst x. apply in_app_iff. right. right. apply in_app_iff. right. left; auto.
           ++ inversion E2 as [[E3 E4]]. apply NoDup_cons_iff in Hn. apply (IH (proj2 Hn) m1); auto.
        -- inversion Hr; subst; auto.
    + intros ->. cbn [edges] in He. apply in_flat_map in He. destruct He as (k & Hk & [He|He]).
      * inversion He; subst. apply in_flat_map. exists k. split; auto. right.
        apply in_app_iff. right. left; auto.
      * apply edges_in in He. destruct (NoDup_kid n ks k Hn Hk). tauto.
Qed.

(** Reachability along links. *)
Lemma hangs_links_inside h : forall t up x y, hangs h up t -> In x (ids t) -> linked h x y ->
  In y (ids t) \/ exists j i, up = Some (j, (y, i)).
Proof.
  induction t as [n|n ks IH] using tree_ind'; intros up x y H Hx (i & j & Hl).
  - destruct Hx as [->|[]]. inversion H as [? j' p L A| |]; subst. rewrite A in Hl.
    destruct Hl as [E|[]]. inversion E; subst. right; eauto.
  - destruct (hangs_kids _ _ _ _ H) as (L & F & E). destruct Hx as [->|Hx].
    + destruct (is_axis (option_map fst up) i) eqn:Ea.
      * right. destruct up as [[a [p i']]|]; [|discriminate]. cbn in Ea. apply Nat.eqb_eq in Ea. subst a.
        inversion H as [| |? ? ? k1 k2 L' A D F']; subst. rewrite A in Hl.
        assert (Ep : (y, j) = (p, i')); [|inversion Ep; eauto].
        rewrite A in D. clear -Hl D. rewrite map_app in D. cbn [map fst] in D.
        apply NoDup_remove_2 in D. apply in_app_iff in Hl. destruct Hl as [Hl|[Hl|Hl]].
        -- exfalso. apply D. apply in_app_iff. left. apply in_map_iff. exists (i, (y, j)). auto.
        -- congruence.
        -- exfalso. apply D. apply in_app_iff. right. apply in_map_iff. exists (i, (y, j)). auto.
      * left. assert (Hin : In (i, (y, j)) (map kid_half ks)).
        { rewrite <- E. apply filter_In. cbn [fst]. rewrite Ea. auto. }
        apply in_map_iff in Hin. destruct Hin as (k & Ek & Hk). inversion Ek; subst.
        eapply ids_kid; eauto. apply top_in.
    + left. apply in_flat_map in Hx. destruct Hx as (k & Hk & Hx).
      rewrite Forall_forall in IH, F.
      destruct (IH k Hk _ x y (F k Hk) Hx) as [Hy|(j' & i' & Hy)].
      * exists i, j. exact Hl.
      * eapply ids_kid; eauto.
      * inversion Hy; subst. left; auto.
Qed.

Lemma hangs_reach h t : forall up, hangs h up t -> forall x, In x (ids t) -> reach (linked h) (top t) x.
Proof.
  induction t as [n|n ks IH] using tree_ind'; intros up H x Hx.
  - destruct Hx as [->|[]]. constructor.
  - destruct (hangs_kids _ _ _ _ H) as (L & F & E). destruct Hx as [->|Hx]; [constructor|].
    apply in_flat_map in Hx. destruct Hx as (k & Hk & Hx). rewrite Forall_forall in IH, F.
    specialize (IH k Hk _ (F k Hk) x Hx). cbn [top].
    assert (Hl : linked h n (top (k_t k))).
    { exists (k_i k), (k_j k).
      assert (Hin : In (kid_half k) (filter (fun e => negb (is_axis (option_map fst up) (fst e))) (oacc (hget h n)))).
      { rewrite E. now apply in_map. }
      apply filter_In in Hin. tauto. }
    clear -IH Hl. induction IH.
    + apply reach_step with n; auto. constructor.
    + eapply reach_step; eauto.
Qed.

Lemma reach_ids h t x : hangs h None t -> (reach (linked h) (top t) x <-> In x (ids t)).
Proof.
  intros H. split; [|now apply hangs_reach with None].
  intros R. remember (top t) as r eqn:Er. induction R as [v|u v w R IH E].
  - subst. apply top_in.
  - destruct (hangs_links_inside h t None v w H (IH Er) E) as [Hy|(j & i & Hy)]; auto. discriminate.
Qed.

(** Seeing the same network from another root. *)
Lemma size_height t : height t <= length (ids t).
Proof.
  induction t as [n|n ks IH] using tree_ind'; [auto|]. cbn [height ids length].
  apply le_n_S. induction IH as [|k ks Hk _ IHk]; [auto|]. cbn [map fold_right flat_map].
  rewrite app_length. lia.
Qed.

Lemma hangs_reroot1 h n k1 k2 i j c cks : hangs h None (Nd n (k1 ++ (i, Nd c cks, j) :: k2)) ->
  exists c1 c2, cks = c1 ++ c2 /\ hangs h None (Nd c (c1 ++ (j, Nd n (k1 ++ k2), i) :: c2)).
Proof.
  intros H. inversion H as [|? ? L A D F|]; subst.
  assert (Hc : hangs h (Some (j, (n, i))) (Nd c cks)).
  { rewrite Forall_forall in F. apply (F (i, Nd c cks, j)). apply in_app_iff. right; left; auto. }
  inversion Hc as [| |? ? ? c1 c2 L' A' D' F']; subst. exists c1, c2. split; auto.
  apply hangs_root; auto.
  - rewrite A'. rewrite map_app. reflexivity.
  - apply Forall_app in F'. destruct F' as (F1 & F2). apply Forall_app. split; auto.
    constructor; auto. unfold k_j, k_t, k_i; cbn [fst snd]. apply hangs_node; auto.
    + rewrite A, map_app. reflexivity.
    + apply Forall_app in F. destruct F as (G1 & G2). inversion G2; subst.
      apply Forall_app. auto.
Qed.

Lemma perm_reroot n k1 k2 i j c c1 c2 :
  Permutation (ids (Nd n (k1 ++ (i, Nd c (c1 ++ c2), j) :: k2)))
              (ids (Nd c (c1 ++ (j, Nd n (k1 ++ k2), i) :: c2))).
Proof.
  cbn [ids]. rewrite !flat_map_app. cbn [flat_map].
  change (ids (k_t (i, Nd c (c1 ++ c2), j))) with (c :: flat_map (fun k0 : kid => ids (k_t k0)) (c1 ++ c2)).
  change (ids (k_t (j, Nd n (k1 ++ k2), i))) with (n :: flat_map (fun k3 : kid => ids (k_t k3)) (k1 ++ k2)).
  rewrite !flat_map_app.
  set (f := fun k : kid => ids (k_t k)).
  set (a := flat_map f k1). set (b := flat_map f k2). set (x := flat_map f c1). set (y := flat_map f c2).
  cbn [app].
  transitivity (n :: c :: (x ++ y) ++ a ++ b).
  - constructor. rewrite <- Permutation_middle. constructor.
    change (Permutation (a ++ (x ++ y) ++ b) ((x ++ y) ++ a ++ b)).
    rewrite (app_assoc a (x ++ y) b), (Permutation_app_comm a (x ++ y)), <- (app_assoc (x ++ y) a b). reflexivity.
  - change (Permutation (n :: c :: (x ++ y) ++ a ++ b) (c :: x ++ n :: (a ++ b) ++ y)).
    rewrite perm_swap. constructor. rewrite <- Permutation_middle. constructor.
    rewrite <- !app_assoc. apply Permutation_app_head.
    rewrite (Permutation_app_comm y (a ++ b)), <- app_assoc. reflexivity.
Qed.

Inductive at_depth (m : id) : nat -> tree -> Prop :=
| ad_here ks : at_depth m 0 (Nd m ks)
| ad_below n ks k d : In k ks -> at_depth m d (k_t k) -> at_depth m (S d) (Nd n ks).

Lemma in_at_depth m t : In m (nids t) -> exists d, at_depth m d t.
Proof.
  induction t as [n|n ks IH] using tree_ind'; [intros []|]. cbn [nids]. intros [->|H].
  - exists 0. constructor.
  - apply in_flat_map in H. destruct H as (k & Hk & H). rewrite Forall_forall in IH.
    destruct (IH k Hk H) as (d & Hd). exists (S d). econstructor; eauto.
Qed.

Lemma reroot_any h m : forall d t, at_depth m d t -> hangs h None t ->
  exists t', top t' = m /\ hangs h None t' /\ Permutation (ids t) (ids t').
Proof.
  induction d as [|d IH]; intros t Hd H.
  - inversion Hd; subst. exists (Nd m ks). auto.
  - inversion Hd as [|n ks [[i s] j] d' Hk Hd']; subst. unfold k_t in Hd'; cbn [fst snd] in Hd'.
    apply in_split in Hk. destruct Hk as (k1 & k2 & ->).
    destruct s as [c|c cks]; [inversion Hd'|].
    destruct (hangs_reroot1 h n k1 k2 i j c cks H) as (c1 & c2 & -> & H').
    assert (Hd2 : at_depth m d (Nd c (c1 ++ (j, Nd n (k1 ++ k2), i) :: c2))).
    { inversion Hd' as [ks E1|n' ks k d'' Hk Hd'']; subst.
      - constructor.
      - apply ad_below with k; auto. apply in_app_iff in Hk. apply in_app_iff.
        destruct Hk; [left|right; right]; auto. }
    destruct (IH _ Hd2 H') as (t' & T1 & T2 & T3). exists t'. split; auto. split; auto.
    etransitivity; [|exact T3]. apply perm_reroot.
Qed.

Lemma visitor_whole h t m fuel : hangs h None t -> In m (nids t) -> length (ids t) <= fuel ->
  exists l, visitor fuel h m None true = Ok l /\ Permutation l (ids t).
Proof.
  intros H Hm Hf. destruct (in_at_depth m t Hm) as (d & Hd).
  destruct (reroot_any h m d t Hd H) as (t' & <- & H' & P).
  exists (ids t'). split; [|now symmetry].
  apply (visitor_hangs h t' None fuel true); auto.
  pose proof (size_height t'). rewrite (Permutation_length P) in Hf. lia.
Qed.
End Trav.
