(** Proofs about the two-site sweep and the second-order one-site sweep. *)
From Coq Require Import List Arith Bool ZArith Lia Permutation.
From Verif Require Import Py Alg ListX NdArray_Model Contract_Model Net_Model Net_Spec Trav_Proof Acyc_Proof
  Link_Spec Link_Proof TEnv_Proof EnvThm_Proof Gen_Proof Vec_Proof Sweep_Model Sweep_Spec Sweep_Proof.
Import ListNotations.
Local Open Scope nat_scope.
Local Open Scope list_scope.

Section Proof.
Variable K : StarRing.
Variable T : Type.
Variable opp half_of : T -> T.
Implicit Types h : heap K.

(** * Second order *)
Lemma split_snd h t fuel tau : hangs h None t -> oriented h None t -> NoDup (ids t) -> height t <= fuel ->
  inner t = true ->
  exists l, snd_order_step half_of (split_step opp fuel) tau (h, top t) = (l, Ok (h, top t)) /\
    symmetric l /\ follows (top t) l (top t) /\
    Permutation (node_props l) (map (fun n => (n, half_of tau)) (nids t ++ nids t)) /\
    Permutation (bond_props l) (map (fun e => (e, opp (half_of tau))) (map rev_edge (inner_edges t) ++ inner_edges t)) /\
    pair_props l = [].
Proof.
  intros H O ND Hf Hi.
  pose proof (split_step_run K T opp (half_of tau) h t fuel false H O ND Hf Hi) as E1.
  pose proof (split_step_run K T opp (half_of tau) h t fuel true H O ND Hf Hi) as E2.
  destruct (split_step_ok K T opp (half_of tau) h t fuel H O ND Hf Hi) as
    ((l1 & F1 & W1 & N1 & B1 & P1) & (l2 & F2 & W2 & N2 & B2 & P2)).
  rewrite E1 in F1. rewrite E2 in F2. inversion F1 as [G1]; clear F1. inversion F2 as [G2]; clear F2.
  eexists. split.
  - unfold snd_order_step. rewrite E1. cbn [andthen]. rewrite E2. reflexivity.
  - cbn iota. rewrite G1, G2. split; [|split; [|split; [|split]]].
    + rewrite <- G1, <- G2. rewrite bwd_rev. apply symmetric_double.
    + eapply follows_app; eauto.
    + rewrite node_props_app, map_app. now apply Permutation_app.
    + rewrite bond_props_app, map_app, map_map. now apply Permutation_app.
    + rewrite pair_props_app, P1, P2. reflexivity.
Qed.

End Proof.

(** * Two-site sweep *)
Section Pairs.
Variable K : StarRing.
Variable T : Type.
Variable opp : T -> T.
Implicit Types h : heap K.
Variable tau : T.

Definition ninner (ks : list (nat * tree * nat)) : nat := length (filter (fun k => inner (k_t k)) ks).
Definition kids (t : tree) := match t with Lf _ => [] | Nd _ ks => ks end.

Lemma foreach2_app {A} (f : A -> counters * state K -> run2 K T) l1 l2 : forall s,
  foreach2 f (l1 ++ l2) s = andthen2 (foreach2 f l1 s) (foreach2 f l2).
Proof.
  induction l1 as [|x l1 IH]; intros s; cbn [foreach2 app].
  - unfold andthen2. now destruct (foreach2 f l2 s).
  - destruct (f x s) as [l [s'|e]]; cbn [andthen2]; [|reflexivity]. rewrite IH.
    destruct (foreach2 f l1 s') as [l' [s''|e]]; cbn [andthen2]; [|reflexivity].
    destruct (foreach2 f l2 s''). now rewrite app_assoc.
Qed.

Fixpoint utr (org : bool) (t : tree) : list (event T) :=
  match t with
  | Lf _ => []
  | Nd n ks =>
      (fix go ks := match ks with
       | [] => []
       | k :: ks =>
           (if inner (k_t k) then
              (if 0 <? ninner (kids (k_t k)) then [Shift (n, k_i k, top (k_t k), k_j k)] else []) ++
              utr false (k_t k) ++ [Pair (top (k_t k), k_j k, n, k_i k) tau] ++
              (if org && (ninner ks =? 0) then [] else [Node n (opp tau)])
            else []) ++ go ks
       end) ks
  end.
Definition ukid (org : bool) (n : id) (k : nat * tree * nat) (rest : list (nat * tree * nat)) : list (event T) :=
  if inner (k_t k) then
    (if 0 <? ninner (kids (k_t k)) then [Shift (n, k_i k, top (k_t k), k_j k)] else []) ++
    utr false (k_t k) ++ [Pair (top (k_t k), k_j k, n, k_i k) tau] ++
    (if org && (ninner rest =? 0) then [] else [Node n (opp tau)])
  else [].
Fixpoint ukids (org : bool) (n : id) (ks : list (nat * tree * nat)) : list (event T) :=
  match ks with [] => [] | k :: ks => ukid org n k ks ++ ukids org n ks end.
Lemma utr_node org n ks : utr org (Nd n ks) = ukids org n ks.
Proof. cbn [utr]. induction ks as [|k ks IH]; [reflexivity|]. cbn [ukids]. rewrite IH. reflexivity. Qed.

Inductive counted (c : counters) : tree -> Prop :=
| counted_leaf n : counted c (Lf n)
| counted_node n ks : c n = Z.of_nat (ninner ks) -> Forall (fun k => counted c (k_t k)) ks -> counted c (Nd n ks).

Lemma counted_same c c' : forall t, (forall x, In x (nids t) -> c' x = c x) -> counted c t -> counted c' t.
Proof.
  induction t as [n|n ks IH] using tree_ind'; intros E H; [constructor|].
  inversion H as [|? ? A F]; subst. constructor.
  - rewrite E; auto. left; auto.
  - rewrite Forall_forall in *. intros k Hk. apply (IH k Hk); auto.
    intros x Hx. apply E. right. apply in_flat_map. eauto.
Qed.

Lemma no_inner_tour t : ninner (kids t) = 0 -> tour false t = [].
Proof.
  destruct t as [n|n ks]; [reflexivity|]. cbn [kids tour orb]. unfold ninner.
  induction ks as [|k ks IH]; [reflexivity|]. cbn [filter flat_map].
  destruct (inner (k_t k)); [discriminate|]. intros. rewrite IH by auto. reflexivity.
Qed.
Lemma no_inner_utr org t : ninner (kids t) = 0 -> utr org t = [].
Proof.
  destruct t as [n|n ks]; [reflexivity|]. rewrite utr_node. cbn [kids]. unfold ninner.
  induction ks as [|k ks IH]; [reflexivity|]. cbn [filter ukids]. unfold ukid.
  destruct (inner (k_t k)); [discriminate|]. intros. rewrite IH by auto. reflexivity.
Qed.
Lemma no_inner_nids t : inner t = true -> ninner (kids t) = 0 -> nids t = [top t].
Proof.
  destruct t as [n|n ks]; [discriminate|]. intros _. cbn [kids nids top]. unfold ninner. intros E. f_equal.
  induction ks as [|k ks IH]; [reflexivity|]. cbn [filter flat_map] in *.
  destruct (k_t k); [|discriminate]. cbn [nids inner] in *. auto.
Qed.

Lemma ninner_cons k ks : ninner (k :: ks) = (if inner (k_t k) then 1 else 0) + ninner ks.
Proof. unfold ninner. cbn [filter]. destruct (inner (k_t k)); reflexivity. Qed.

Definition kid_tour (n : id) (k : nat * tree * nat) : list (bool * edge) :=
  if inner (k_t k) then
    (false, (n, k_i k, top (k_t k), k_j k)) :: tour false (k_t k)
         ++ [(true, (top (k_t k), k_j k, n, k_i k))] else [].

Variable origin : id.

Lemma unite_run : forall t up h (c : counters) (org : bool), hangs h up t -> oriented h None t -> NoDup (ids t) -> counted c t ->
  (if org then origin = top t else ~ In origin (ids t)) ->
  exists c', foreach2 (unite_forward opp tau origin) (tour false t) (c, (h, top t)) = (utr org t, Ok (c', (h, top t))) /\
    forall x, c' x = if memb x (nids t) then 0%Z else c x.
Proof.
  induction t as [n|n ks IH] using tree_ind'; intros up h c org H O ND C Org.
  - exists c. split; reflexivity.
  - rewrite Forall_forall in IH. rewrite utr_node. cbn [top tour]. cbn [orb].
    change (flat_map _ ks) with (flat_map (kid_tour n) ks).
    inversion C as [|? ? Cn Cf]; subst.
    assert (Step : forall ks2, (forall k, In k ks2 -> In k ks) -> NoDup (flat_map (fun k => ids (k_t k)) ks2) ->
      forall c, c n = Z.of_nat (ninner ks2) -> Forall (fun k => counted c (k_t k)) ks2 ->
      exists c', foreach2 (unite_forward opp tau origin) (flat_map (kid_tour n) ks2) (c, (h, n))
                  = (ukids org n ks2, Ok (c', (h, n))) /\
        forall x, c' x = if (x =? n) || memb x (flat_map (fun k => nids (k_t k)) ks2) then 0%Z else c x).
    2: { destruct (Step ks) with (c := c) as (c' & E & Ec); auto.
         { cbn [ids] in ND. now inversion ND. }
         exists c'. split; [exact E|exact Ec]. }
    induction ks2 as [|k ks2 IHk]; intros Sub ND2 c0 Cn0 Cf0.
    + exists c0. split; [reflexivity|]. intros x. unfold ninner in Cn0. cbn in Cn0 |- *.
      destruct (Nat.eqb_spec x n) as [->|]; auto.
    + assert (Hk : In k ks) by (apply Sub; left; auto).
      cbn [flat_map] in ND2. pose proof (Forall_inv Cf0) as Ck. pose proof (Forall_inv_tail Cf0) as Cr. cbn beta in Ck.
      destruct (NoDup_kid _ _ _ ND Hk) as (NDk & Nk).
      cbn [flat_map ukids]. rewrite foreach2_app.
      assert (One : exists c1, foreach2 (unite_forward opp tau origin) (kid_tour n k) (c0, (h, n))
                = (ukid org n k ks2, Ok (c1, (h, n))) /\
          forall x, c1 x = if x =? n then Z.of_nat (ninner ks2) else if memb x (nids (k_t k)) then 0%Z else c0 x).
      { unfold kid_tour, ukid. rewrite ninner_cons in Cn0. destruct (inner (k_t k)) eqn:Ei.
        2: { exists c0. split; [reflexivity|]. intros x. destruct (Nat.eqb_spec x n) as [->|]; [auto|].
             destruct (k_t k); [reflexivity|discriminate]. }
        destruct (trip _ _ _ _ _ _ H O ND Hk Ei) as (H1 & O1 & An & Ac & A1 & D1 & D2 & D3 & B1 & B2 & N).
        assert (Cc : c0 (top (k_t k)) = Z.of_nat (ninner (kids (k_t k)))).
        { destruct Ck; [discriminate|]. cbn. auto. }
        assert (Last : forall c2 : counters,
           (forall x, c2 x = if memb x (nids (k_t k)) then 0%Z else c0 x) ->
           forall hh rr, moved K hh (top (k_t k)) (k_j k) n = h ->
             dindex (oacc (hget hh (top (k_t k)))) (k_j k) = Ok (n, k_i k) ->
             is_none (oaxis (hget hh (top (k_t k)))) = true \/ is_none (oaxis (hget hh n)) = true ->
           foreach2 (unite_forward opp tau origin) [(true, (top (k_t k), k_j k, n, k_i k))] (c2, (hh, rr)) =
           ([Pair (top (k_t k), k_j k, n, k_i k) tau] ++
            (if org && (ninner ks2 =? 0) then [] else [Node n (opp tau)]), Ok (decrement c2 n, (h, n)))).
        { intros c2 Ec2 hh rr Bk Dk Ax. cbn [foreach2]. unfold unite_forward, move. rewrite Dk.
          replace (negb (is_none (oaxis (hget hh (top (k_t k))))) && negb (is_none (oaxis (hget hh n)))) with false
            by (destruct Ax as [-> | ->]; cbn [negb andb]; [reflexivity|now rewrite andb_false_r]).
          fold (moved K hh (top (k_t k)) (k_j k) n). rewrite Bk. cbn [lift andthen2].
          assert (E : c2 n = Z.of_nat (1 + ninner ks2)).
          { rewrite Ec2. destruct (memb n (nids (k_t k))) eqn:Em; [|auto].
            apply memb_In, nids_ids in Em. tauto. }
          assert (E' : decrement c2 n n = Z.of_nat (ninner ks2)).
          { unfold decrement. rewrite Nat.eqb_refl, E. lia. }
          rewrite E'.
          replace (negb (n =? origin) || (0 <? Z.of_nat (ninner ks2))%Z) with (negb (org && (ninner ks2 =? 0))).
          - destruct (org && (ninner ks2 =? 0)); cbn [negb].
            + reflexivity.
            + unfold split_prop. cbn [fst]. rewrite An. reflexivity.
          - destruct org; cbn [top] in Org.
            + subst origin. rewrite Nat.eqb_refl. cbn [negb orb andb].
              destruct (ninner ks2) as [|m]; [reflexivity|].
              change (S m =? 0) with false. symmetry. apply Z.ltb_lt. lia.
            + assert (n <> origin) by (intros ->; apply Org; left; auto).
              destruct (Nat.eqb_spec n origin); [congruence|reflexivity]. }
        assert (Dec : forall c2 : counters, (forall x, c2 x = if memb x (nids (k_t k)) then 0%Z else c0 x) ->
            forall x, decrement c2 n x = if x =? n then Z.of_nat (ninner ks2) else if memb x (nids (k_t k)) then 0%Z else c0 x).
        { intros c2 Ec2 x. unfold decrement. destruct (Nat.eqb_spec x n) as [->|]; [|apply Ec2].
          rewrite Ec2. destruct (memb n (nids (k_t k))) eqn:Em; [|rewrite Cn0; lia].
          apply memb_In, nids_ids in Em. tauto. }
        cbn [foreach2]. unfold unite_forward at 1. rewrite Cc.
        destruct (ninner (kids (k_t k))) as [|m] eqn:Em.
        - change (0 <? Z.of_nat 0)%Z with false. change (0 <? 0) with false. cbn [ret lift andthen2 app].
          rewrite no_inner_tour, no_inner_utr by auto. cbn [app].
          assert (E2 : forall x, c0 x = if memb x (nids (k_t k)) then 0%Z else c0 x).
          { intros x. rewrite no_inner_nids by auto. unfold memb. cbn [existsb orb].
            destruct (Nat.eqb_spec x (top (k_t k))) as [->|]; cbn; auto. }
          exists (decrement c0 n). split; [|apply Dec; auto].
          rewrite (Last c0 E2); auto. right. now rewrite An.
        - replace (0 <? Z.of_nat (S m))%Z with true by (symmetry; apply Z.ltb_lt; lia).
          change (0 <? S m) with true. unfold move at 1. rewrite D1, An. cbn [is_none negb lift andthen2].
          fold (moved K h n (k_i k) (top (k_t k))). rewrite foreach2_app.
          destruct (IH k Hk _ _ c0 false H1 O1 NDk Ck) as (c2 & E2 & Ec2).
          { destruct org; [cbn in Org; subst; auto|]. intros Hin. apply Org. eapply ids_kid; eauto. }
          unfold state, counters in E2 |- *; rewrite E2. cbn [andthen2].
          rewrite (Last c2 Ec2); auto; [|left; now rewrite A1].
          exists (decrement c2 n). split; [|apply Dec; auto].
          cbn [app]. rewrite <- ?app_assoc. reflexivity. }
      destruct One as (c1 & E1 & Ec1).
      rewrite E1. cbn [andthen2].
      destruct (IHk) with (c := c1) as (c' & E' & Ec').
      * intros; apply Sub; right; auto.
      * eapply NoDup_app_r; eauto.
      * rewrite Ec1, Nat.eqb_refl. reflexivity.
      * rewrite Forall_forall in Cr |- *. intros k' Hk'. eapply counted_same; [|apply Cr, Hk'].
        intros x Hx. rewrite Ec1. apply nids_ids in Hx.
        destruct (Nat.eqb_spec x n) as [->|].
        { exfalso. destruct (NoDup_kid _ _ _ ND (Sub k' (or_intror Hk'))). auto. }
        destruct (memb x (nids (k_t k))) eqn:Em; [|auto]. exfalso. apply memb_In, nids_ids in Em.
        eapply NoDup_app_disj; [exact ND2|exact Em|]. apply in_flat_map. eauto.
      * unfold state, counters in E' |- *; rewrite E'. exists c'. split; auto. intros x. rewrite Ec', Ec1.
        unfold memb. rewrite existsb_app. fold (memb x (nids (k_t k))).
        destruct (Nat.eqb_spec x n) as [->|]; [reflexivity|]. cbn [orb].
        destruct (memb x (nids (k_t k))); cbn [orb]; [|reflexivity]. now destruct (existsb _ _).
Qed.

Lemma count_counted h : forall t up ts, hangs h up t -> oriented h (option_map fst up) t ->
  (forall x, In x (nids t) -> In x ts) -> counted (count_children h ts) t.
Proof.
  induction t as [n|n ks IH] using tree_ind'; intros up ts H O Sub; [constructor|].
  inversion O as [|? ? ? Oa Of]; subst. constructor.
  - unfold count_children. replace (memb n ts) with true by (symmetry; apply memb_In, Sub; left; auto).
    rewrite Oa, (children_node _ _ _ _ _ _ H), map_length. reflexivity.
  - rewrite Forall_forall in *. intros k Hk. destruct (hangs_kids _ _ _ _ _ H) as (_ & F & _).
    rewrite Forall_forall in F. apply (IH k Hk (Some (k_j k, (n, k_i k)))); auto.
    + apply Of; auto.
    + intros x Hx. apply Sub. right. apply in_flat_map. eauto.
Qed.

End Pairs.

Section Contents.
Variable T : Type.
Variable opp : T -> T.
Variable tau : T.
Notation utr := (utr T opp tau).
Notation ukid := (ukid T opp tau).
Notation ukids := (ukids T opp tau).

Lemma utr_follows : forall t org, follows (top t) (utr org t) (top t).
Proof.
  induction t as [n|n ks IH] using tree_ind'; intros org; [constructor|]. rewrite utr_node. cbn [top].
  induction IH as [|k ks Hk _ IHk]; [constructor|]. cbn [Unite_Proof.ukids]. apply follows_app with n; auto.
  unfold Unite_Proof.ukid. destruct (inner (k_t k)) eqn:Ei; [|constructor].
  destruct (0 <? ninner (kids (k_t k))) eqn:E0.
  - cbn [app]. constructor. apply follows_app with (top (k_t k)); auto. constructor.
    destruct (org && (ninner ks =? 0)); repeat constructor.
  - cbn [app]. apply Nat.ltb_ge in E0. rewrite no_inner_utr by lia. cbn [app].
    apply follows_pair'. destruct (org && (ninner ks =? 0)); repeat constructor.
Qed.

Lemma utr_pairs : forall t org, Permutation (pair_props (utr org t)) (map (fun e => (rev_edge e, tau)) (inner_edges t)).
Proof.
  induction t as [n|n ks IH] using tree_ind'; intros org; [constructor|]. rewrite utr_node. cbn [inner_edges].
  induction IH as [|k ks Hk _ IHk]; [constructor|]. cbn [Unite_Proof.ukids flat_map].
  rewrite pair_props_app, map_app. apply Permutation_app; auto. unfold Unite_Proof.ukid.
  destruct (inner (k_t k)); [|constructor]. rewrite !pair_props_app. cbn [map rev_edge].
  replace (pair_props (if 0 <? ninner (kids (k_t k)) then [Shift (n, k_i k, top (k_t k), k_j k)] else []))
    with (@nil (edge * T)) by (destruct (0 <? _); reflexivity).
  replace (pair_props (if org && (ninner ks =? 0) then [] else [Node n (opp tau)])) with (@nil (edge * T))
    by (destruct (org && _); reflexivity).
  cbn [pair_props flat_map app]. rewrite Permutation_app_comm. cbn [app]. constructor. apply Hk.
Qed.

Lemma utr_bonds : forall t org, bond_props (utr org t) = [].
Proof.
  induction t as [n|n ks IH] using tree_ind'; intros org; [reflexivity|]. rewrite utr_node.
  induction IH as [|k ks Hk _ IHk]; [reflexivity|]. cbn [Unite_Proof.ukids].
  rewrite bond_props_app, IHk, app_nil_r. unfold Unite_Proof.ukid.
  destruct (inner (k_t k)); [|reflexivity]. rewrite !bond_props_app, Hk.
  destruct (0 <? ninner (kids (k_t k))), (org && (ninner ks =? 0)); reflexivity.
Qed.

End Contents.

(** Number of linkages to inner children. *)
Definition kdeg (t : tree) (n : id) : nat :=
  length (filter (fun e : edge => fst (fst (fst e)) =? n) (inner_edges t)).

Lemma inner_edges_edges t e : In e (inner_edges t) -> In e (edges t).
Proof.
  induction t as [n|n ks IH] using tree_ind'; [intros []|]. cbn [inner_edges edges]. intros He.
  apply in_flat_map in He. destruct He as (k & Hk & He). apply in_flat_map. exists k. split; auto.
  rewrite Forall_forall in IH. destruct (inner (k_t k)); [|destruct He].
  destruct He as [<-|He]; [left; auto|right; auto].
Qed.

Lemma filter_nil {A} (p : A -> bool) l : (forall x, In x l -> p x = false) -> filter p l = [].
Proof. apply filter_none. Qed.

Lemma inner_edges_ids t a i b j : In (a, i, b, j) (inner_edges t) -> In a (ids t) /\ In b (ids t).
Proof. intros H. eapply edges_in, inner_edges_edges, H. Qed.

Lemma kdeg_top n ks : NoDup (ids (Nd n ks)) -> kdeg (Nd n ks) n = ninner ks.
Proof.
  intros ND. unfold kdeg. cbn [inner_edges].
  assert (Sub : forall k, In k ks -> ~ In n (ids (k_t k))) by (intros; eapply NoDup_kid; eauto).
  clear ND. induction ks as [|k ks IH]; [reflexivity|]. cbn [flat_map]. rewrite filter_app, app_length, ninner_cons.
  rewrite IH by (intros; apply Sub; right; auto). f_equal.
  destruct (inner (k_t k)); [|reflexivity]. cbn [filter fst]. rewrite Nat.eqb_refl. rewrite filter_nil; [reflexivity|].
  intros (((a & i) & b) & j) He. apply inner_edges_ids in He. cbn [fst]. apply Nat.eqb_neq. intros ->.
  apply (Sub k); [left; auto|tauto].
Qed.

Lemma filter_flat_map {A B} (p : B -> bool) (g : A -> list B) l :
  filter p (flat_map g l) = flat_map (fun x => filter p (g x)) l.
Proof. induction l as [|x l IH]; [reflexivity|]. cbn [flat_map]. now rewrite filter_app, IH. Qed.

Lemma flat_map_single {A B} (g : A -> list B) k1 k k2 :
  (forall x, In x (k1 ++ k2) -> g x = []) -> flat_map g (k1 ++ k :: k2) = g k.
Proof.
  intros E. rewrite flat_map_app. cbn [flat_map].
  replace (flat_map g k1) with (@nil B); [replace (flat_map g k2) with (@nil B); [apply app_nil_r|]|].
  - symmetry. assert (F : forall x, In x k2 -> g x = []) by (intros; apply E, in_app_iff; auto).
    clear E. induction k2 as [|x k2 IH]; [reflexivity|]. cbn. rewrite F by (left; auto). apply IH. intros; apply F; right; auto.
  - symmetry. assert (F : forall x, In x k1 -> g x = []) by (intros; apply E, in_app_iff; auto).
    clear E. induction k1 as [|x k1 IH]; [reflexivity|]. cbn. rewrite F by (left; auto). apply IH. intros; apply F; right; auto.
Qed.

Lemma kdeg_kid n ks k x : NoDup (ids (Nd n ks)) -> In k ks -> inner (k_t k) = true -> In x (ids (k_t k)) ->
  kdeg (Nd n ks) x = kdeg (k_t k) x.
Proof.
  intros ND Hk Hi Hx. unfold kdeg. cbn [inner_edges]. rewrite filter_flat_map.
  destruct (NoDup_kid _ _ _ ND Hk) as (NDk & Nk).
  assert (Nx : n <> x) by (intros ->; auto).
  apply in_split in Hk. destruct Hk as (k1 & k2 & ->).
  rewrite flat_map_single.
  - rewrite Hi. cbn [filter fst]. destruct (Nat.eqb_spec n x); [congruence|reflexivity].
  - intros k' Hk'. destruct (inner (k_t k')); [|reflexivity]. apply filter_nil.
    intros (((a & i) & b) & j) He. cbn [fst]. apply Nat.eqb_neq. intros ->.
    destruct He as [He|He]; [inversion He; congruence|]. apply inner_edges_ids in He.
    cbn [ids] in ND. apply NoDup_cons_iff in ND. destruct ND as (_ & ND).
    rewrite flat_map_app in ND. cbn [flat_map] in ND.
    apply in_app_iff in Hk'. destruct Hk' as [Hk'|Hk'].
    + eapply NoDup_app_disj; [exact ND| |apply in_app_iff; left; exact Hx]. apply in_flat_map. exists k'. tauto.
    + apply NoDup_app_r in ND. eapply NoDup_app_disj; [exact ND|exact Hx|]. apply in_flat_map. exists k'. tauto.
Qed.

Section Times.
Variable T : Type.
Variable opp : T -> T.
Variable tau : T.
Notation utr := (utr T opp tau).
Notation ukid := (ukid T opp tau).
Notation ukids := (ukids T opp tau).

(** Times a tensor is propagated. *)
Lemma ukids_nodes org n ks :
  (forall k, In k ks -> Permutation (node_props (utr false (k_t k)))
      (flat_map (fun x => repeat (x, opp tau) (kdeg (k_t k) x)) (nids (k_t k)))) ->
  Permutation (node_props (ukids org n ks))
    (repeat (n, opp tau) (ninner ks - (if org then 1 else 0)) ++
     flat_map (fun k => flat_map (fun x => repeat (x, opp tau) (kdeg (k_t k) x)) (nids (k_t k))) ks).
Proof.
  induction ks as [|k ks IH]; intros Hk; [constructor|]. cbn [Unite_Proof.ukids flat_map].
  rewrite node_props_app, IH by (intros; apply Hk; right; auto). rewrite ninner_cons.
  unfold Unite_Proof.ukid. specialize (Hk k (or_introl eq_refl)). destruct (inner (k_t k)) eqn:Ei.
  2: { destruct (k_t k); [|discriminate]. cbn [nids flat_map app node_props]. reflexivity. }
  rewrite !node_props_app.
  replace (node_props (if 0 <? ninner (kids (k_t k)) then [Shift (n, k_i k, top (k_t k), k_j k)] else []))
    with (@nil (id * T)) by (destruct (0 <? _); reflexivity).
  cbn [app]. rewrite Hk. set (X := flat_map _ (nids (k_t k))). set (Y := flat_map _ ks).
  destruct org; cbn [andb].
  - destruct (ninner ks) as [|m] eqn:Em.
    + cbn [Nat.eqb node_props flat_map app repeat Nat.sub Nat.add]. now rewrite !app_nil_r.
    + replace (S m =? 0) with false by reflexivity.
      replace (1 + S m - 1) with (S m) by lia. cbn [node_props flat_map app]. replace (S m - 1) with m by lia.
      cbn [repeat app]. rewrite <- !app_assoc. rewrite Permutation_app_comm. cbn [app]. constructor.
      rewrite <- !app_assoc. apply Permutation_app_head. apply Permutation_app_comm.
  - cbn [node_props flat_map app]. replace (1 + ninner ks - 0) with (S (ninner ks)) by lia.
    rewrite Nat.sub_0_r. cbn [repeat app]. rewrite <- !app_assoc. rewrite Permutation_app_comm. cbn [app]. constructor.
    rewrite <- !app_assoc. apply Permutation_app_head. apply Permutation_app_comm.
Qed.

Lemma flat_map_ext_in {A B} (f g : A -> list B) l : (forall x, In x l -> f x = g x) -> flat_map f l = flat_map g l.
Proof. induction l as [|x l IH]; intros E; [reflexivity|]. cbn. rewrite E by (left; auto). rewrite IH; auto. intros; apply E; right; auto. Qed.

Lemma flat_map_flat_map {A B C} (f : B -> list C) (g : A -> list B) l :
  flat_map f (flat_map g l) = flat_map (fun x => flat_map f (g x)) l.
Proof. induction l as [|x l IH]; [reflexivity|]. cbn. now rewrite flat_map_app, IH. Qed.

Lemma kids_kdeg n ks : NoDup (ids (Nd n ks)) ->
  flat_map (fun k => flat_map (fun x => repeat (x, opp tau) (kdeg (k_t k) x)) (nids (k_t k))) ks =
  flat_map (fun x => repeat (x, opp tau) (kdeg (Nd n ks) x)) (flat_map (fun k => nids (k_t k)) ks).
Proof.
  intros ND. rewrite flat_map_flat_map. apply flat_map_ext_in. intros k Hk. apply flat_map_ext_in. intros x Hx.
  destruct (inner (k_t k)) eqn:Ei; [|destruct (k_t k); [destruct Hx|discriminate]].
  rewrite (kdeg_kid n ks k x); auto. now apply nids_ids.
Qed.

Lemma utr_nodes : forall t, NoDup (ids t) ->
  Permutation (node_props (utr false t)) (flat_map (fun x => repeat (x, opp tau) (kdeg t x)) (nids t)).
Proof.
  induction t as [n|n ks IH] using tree_ind'; intros ND; [constructor|]. rewrite utr_node, ukids_nodes.
  - rewrite (kids_kdeg n) by auto. cbn [nids flat_map]. rewrite kdeg_top, Nat.sub_0_r by auto. reflexivity.
  - rewrite Forall_forall in IH. intros k Hk. apply IH; auto. eapply NoDup_kid; eauto.
Qed.

Lemma utr_nodes_org n ks : NoDup (ids (Nd n ks)) ->
  Permutation (node_props (utr true (Nd n ks)))
   (repeat (n, opp tau) (ninner ks - 1) ++ flat_map (fun x => repeat (x, opp tau) (kdeg (Nd n ks) x)) (flat_map (fun k => nids (k_t k)) ks)).
Proof.
  intros ND. rewrite utr_node, ukids_nodes, (kids_kdeg n) by
   (auto || (intros k Hk; apply utr_nodes; eapply NoDup_kid; eauto)). reflexivity.
Qed.

(** Degrees. *)
Lemma inner_lower t : map (fun e : edge => snd (fst e)) (inner_edges t) = tl (nids t).
Proof.
  induction t as [n|n ks IH] using tree_ind'; [reflexivity|]. cbn [inner_edges nids tl].
  induction IH as [|k ks Hk _ IHk]; [reflexivity|]. cbn [flat_map]. rewrite map_app, IHk. f_equal.
  destruct (k_t k) as [m|m cks]; [reflexivity|]. cbn [inner map snd fst top nids]. now rewrite Hk.
Qed.

Lemma NoDup_nids t : NoDup (ids t) -> NoDup (nids t).
Proof.
  intros ND. apply (Permutation_NoDup (ids_split t)) in ND. now apply NoDup_app_l in ND.
Qed.

Lemma count_single (l : list edge) x : NoDup (map (fun e : edge => snd (fst e)) l) ->
  length (filter (fun e : edge => snd (fst e) =? x) l) = if memb x (map (fun e : edge => snd (fst e)) l) then 1 else 0.
Proof.
  induction l as [|e l IH]; intros ND; [reflexivity|]. cbn [map] in ND |- *. apply NoDup_cons_iff in ND. destruct ND as (N & ND).
  cbn [filter]. unfold memb. cbn [existsb]. fold (memb x (map (fun e : edge => snd (fst e)) l)).
  rewrite (Nat.eqb_sym x). destruct (Nat.eqb_spec (snd (fst e)) x) as [<-|]; cbn [orb].
  - cbn [length]. rewrite IH by auto. destruct (memb _ _) eqn:E; [|reflexivity]. apply memb_In in E. tauto.
  - auto.
Qed.

Lemma degree_kdeg t x : NoDup (ids t) ->
  degree t x = kdeg t x + (if memb x (tl (nids t)) then 1 else 0).
Proof.
  intros ND. rewrite <- inner_lower. rewrite <- count_single.
  - unfold degree, kdeg.
    assert (D : forall a i b j, In (a, i, b, j) (inner_edges t) -> a <> b).
    { intros a i b j He <-. apply inner_edges_edges in He. apply edges_before in He. destruct He as (l1 & l2 & l3 & E).
      rewrite E in ND. apply NoDup_app_r in ND. apply NoDup_cons_iff in ND. apply (proj1 ND), in_app_iff. right; left; auto. }
    induction (inner_edges t) as [|(((a & i) & b) & j) l IH]; [reflexivity|]. cbn [filter fst snd].
    assert (IH' := IH (fun a i b j H => D a i b j (or_intror H))).
    specialize (D a i b j (or_introl eq_refl)).
    destruct (Nat.eqb_spec a x) as [->|]; cbn [orb].
    + destruct (Nat.eqb_spec b x); [congruence|]. cbn [length]. lia.
    + destruct (Nat.eqb_spec b x); cbn [length]; lia.
  - rewrite inner_lower. apply NoDup_nids in ND. destruct (nids t); [constructor|]. now inversion ND.
Qed.

Lemma utr_degree t : NoDup (ids t) -> inner t = true ->
  Permutation (node_props (utr true t)) (flat_map (fun x => repeat (x, opp tau) (degree t x - 1)) (nids t)).
Proof.
  destruct t as [n|n ks]; [discriminate|]. intros ND _. rewrite utr_nodes_org by auto.
  cbn [nids flat_map]. rewrite degree_kdeg by auto. rewrite kdeg_top by auto. cbn [nids tl].
  pose proof (NoDup_nids _ ND) as N2. cbn [nids] in N2. apply NoDup_cons_iff in N2. destruct N2 as (Nn & _).
  destruct (memb n _) eqn:Em; [apply memb_In in Em; tauto|]. rewrite Nat.add_0_r.
  apply Permutation_app_head. erewrite flat_map_ext_in; [reflexivity|]. intros x Hx. cbn beta.
  rewrite degree_kdeg by auto. cbn [nids tl]. apply memb_In in Hx. rewrite Hx. now replace (kdeg (Nd n ks) x + 1 - 1) with (kdeg (Nd n ks) x) by lia.
Qed.
End Times.

Section Final.
Variable K : StarRing.
Variable T : Type.
Variable opp half_of : T -> T.
Implicit Types h : heap K.

Lemma unite_step_run h t fuel tau : hangs h None t -> oriented h None t -> NoDup (ids t) -> height t <= fuel ->
  inner t = true -> unite_step opp fuel tau false (h, top t) = (utr T opp tau true t, Ok (h, top t)).
Proof.
  intros H O ND Hf Hi. unfold unite_step. assert (A : oaxis (hget h (top t)) = None) by (inversion O; subst; auto; discriminate).
  rewrite A. rewrite (decorated_hangs _ h t None), (visitor_hangs _ h t None) by auto.
  destruct (unite_run K T opp tau (top t) t None h (count_children h (nids t)) true) as (c & E & Ec); auto.
  { apply count_counted with None; auto. }
  unfold state, counters in E |- *. rewrite E. replace (forallb _ (nids t)) with true; [reflexivity|]. symmetry. apply forallb_forall.
  intros x Hx. rewrite Ec. apply memb_In in Hx. rewrite Hx. reflexivity.
Qed.
Theorem unite_step_ok h t fuel tau : hangs h None t -> oriented h None t -> NoDup (ids t) -> height t <= fuel ->
  inner t = true ->
  exists l, unite_step opp fuel tau false (h, top t) = (l, Ok (h, top t)) /\
    follows (top t) l (top t) /\
    Permutation (pair_props l) (map (fun e => (rev_edge e, tau)) (inner_edges t)) /\
    Permutation (node_props l) (flat_map (fun n => repeat (n, opp tau) (degree t n - 1)) (nids t)) /\
    bond_props l = [].
Proof.
  intros H O ND Hf Hi. exists (utr T opp tau true t). split; [|split; [|split; [|split]]].
  - apply unite_step_run; auto.
  - apply utr_follows.
  - apply utr_pairs.
  - apply utr_degree; auto.
  - apply utr_bonds.
Qed.

Theorem unite_step_single h t fuel tau backward : hangs h None t -> oriented h None t -> NoDup (ids t) -> height t <= fuel ->
  nids t = [top t] -> inner t = true ->
  unite_step opp fuel tau backward (h, top t) = ([], Ok (h, top t)).
Proof.
  intros H O ND Hf N Hi. unfold unite_step.
  assert (A : oaxis (hget h (top t)) = None) by (inversion O; subst; auto; discriminate).
  rewrite A. rewrite (decorated_hangs _ h t None), (visitor_hangs _ h t None) by auto.
  assert (E : inner_edges t = []).
  { pose proof (inner_lower t) as E. rewrite N in E. cbn in E. now destruct (inner_edges t). }
  assert (E2 : ninner (kids t) = 0).
  { destruct t as [n|n ks]; [discriminate|]. cbn [kids top] in *. rewrite <- (kdeg_top n ks) by auto. unfold kdeg. now rewrite E. }
  rewrite no_inner_tour by auto. rewrite N. cbn [rev].
  assert (C : count_children h [top t] (top t) = 0%Z).
  { unfold count_children, memb. cbn [existsb]. rewrite Nat.eqb_refl. cbn [orb]. rewrite A.
    destruct t as [n|n ks]; [discriminate|]. cbn [top kids] in *. rewrite (children_node _ _ _ _ _ _ H), map_length.
    unfold ninner in E2. cbn [orb]. now rewrite E2. }
  destruct backward; cbn [foreach2 forallb]; rewrite C; reflexivity.
Qed.

Theorem unite_backward_raises h t fuel tau : hangs h None t -> oriented h None t -> NoDup (ids t) -> height t <= fuel ->
  inner_edges t <> [] ->
  unite_step opp fuel tau true (h, top t) = ([], Raise RuntimeError).
Proof.
  intros H O ND Hf N. unfold unite_step. destruct t as [n|n ks]; [now destruct N|].
  assert (A : oaxis (hget h n) = None) by (inversion O; subst; auto; discriminate). cbn [top].
  rewrite A. rewrite (decorated_hangs _ _ (Nd n ks) None) by auto. rewrite (visitor_hangs _ _ (Nd n ks) None) by auto.
  assert (E : exists k rest, In k ks /\ inner (k_t k) = true /\
     rev (tour false (Nd n ks)) = (true, (top (k_t k), k_j k, n, k_i k)) :: rest).
  { cbn [tour orb]. cbn [inner_edges] in N. clear -N. induction ks as [|k ks IH] using rev_ind; [now destruct N|].
    rewrite flat_map_app in N |- *. rewrite rev_app_distr. cbn [flat_map] in *.
    destruct (inner (k_t k)) eqn:Ei.
    - exists k. eexists. split; [apply in_app_iff; right; left; auto|]. split; auto.
      rewrite app_nil_r. cbn [rev]. rewrite rev_app_distr. cbn [rev app]. reflexivity.
    - rewrite !app_nil_r in N. destruct (IH N) as (k' & rest & Hk' & E). cbn [rev app]. exists k', rest.
      split; auto. apply in_app_iff; auto. }
  destruct E as (k & rest & Hk & Ei & E). rewrite E. cbn [foreach2].
  destruct (trip _ _ _ _ _ _ H O ND Hk Ei) as (_ & _ & _ & Ac & _ & _ & _ & _ & _ & _ & Nn).
  cbn [unite_backward]. destruct (Nat.eqb_spec (top (k_t k)) n); [congruence|]. cbn [negb orb].
  unfold split_prop. cbn [fst]. rewrite Ac. reflexivity.
Qed.

Theorem unite_snd_raises h t fuel tau : hangs h None t -> oriented h None t -> NoDup (ids t) -> height t <= fuel ->
  inner_edges t <> [] ->
  exists l, snd_order_step half_of (unite_step opp fuel) tau (h, top t) = (l, Raise RuntimeError) /\ l <> [].
Proof.
  intros H O ND Hf N. assert (Hi : inner t = true) by (destruct t; auto; now destruct N).
  destruct (unite_step_ok h t fuel (half_of tau) H O ND Hf Hi) as (l & E & _ & P & _).
  exists l. split.
  - unfold snd_order_step. rewrite E. cbn [andthen]. rewrite unite_backward_raises by auto. now rewrite app_nil_r.
  - intros ->. apply Permutation_nil in P. apply N. now destruct (inner_edges t).
Qed.
End Final.
