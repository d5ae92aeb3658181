(** Proofs about the recursive sweep. *)
From Coq Require Import List Arith Bool Lia Permutation.
From Verif Require Import Py Alg ListX NdArray_Model Contract_Model Net_Model Net_Spec Trav_Proof Acyc_Proof
  Link_Spec Link_Proof TEnv_Proof EnvThm_Proof Gen_Proof Vec_Proof Sweep_Model Sweep_Spec Sweep_Proof Unite_Proof.
Import ListNotations.
Local Open Scope nat_scope.
Local Open Scope list_scope.

Section Run.
Variable K : StarRing.
Variable T : Type.
Variable opp half_of : T -> T.
Implicit Types h : heap K.

Definition inner_kids (ks : list (nat * tree * nat)) := filter (fun k => inner (k_t k)) ks.

Lemma flat_map_inner {B} (g : nat * tree * nat -> list B) ks :
  flat_map (fun k => if inner (k_t k) then g k else []) ks = flat_map g (inner_kids ks).
Proof.
  unfold inner_kids. induction ks as [|k ks IH]; [reflexivity|]. cbn [flat_map filter].
  destruct (inner (k_t k)); cbn [flat_map]; now rewrite IH.
Qed.

Lemma inner_kids_In k ks : In k (inner_kids ks) <-> In k ks /\ inner (k_t k) = true.
Proof. apply filter_In. Qed.

Section Kids.
Variable rtr : tree -> T -> list (event T).
Definition out_kid (n : id) (tau : T) (k : nat * tree * nat) : list (event T) :=
  Shift (n, k_i k, top (k_t k), k_j k) :: rtr (k_t k) tau ++ [Bond (top (k_t k), k_j k, n, k_i k) (opp tau)].
Definition in_kid (n : id) (tau : T) (k : nat * tree * nat) : list (event T) :=
  Bond (n, k_i k, top (k_t k), k_j k) (opp tau) :: rtr (k_t k) tau ++ [Shift (top (k_t k), k_j k, n, k_i k)].
End Kids.

Fixpoint rtr (so : bool) (t : tree) (tau : T) : list (event T) :=
  match t with
  | Lf _ => []
  | Nd n ks =>
      let tau' := if so then half_of tau else tau in
      flat_map (fun k => if inner (k_t k) then out_kid (rtr so) n tau' k else []) ks ++ Node n tau ::
      (if so then flat_map (fun k => if inner (k_t k) then in_kid (rtr so) n tau' k else []) ks else [])
  end.

Lemma rtr_run so : forall t up h tau fuel, hangs h up t -> oriented h None t -> NoDup (ids t) -> height t <= fuel ->
  inner t = true ->
  r_split opp half_of so fuel tau (top t) (option_map fst up) (h, top t) = (rtr so t tau, Ok (h, top t)).
Proof.
  induction t as [n|n ks IH] using tree_ind'; intros up h tau fuel H O ND Hf Hi; [discriminate|].
  destruct fuel as [|fuel]; [cbn in Hf; lia|]. rewrite Forall_forall in IH.
  assert (An : oaxis (hget h n) = None) by (inversion O; subst; auto).
  assert (B : forall tau' back, branch opp (r_split opp half_of so fuel) n (option_map fst up) tau' back (h, n)
     = (flat_map (fun k => if inner (k_t k) then (if back : bool then in_kid else out_kid) (rtr so) n tau' k else []) ks, Ok (h, n))).
  { intros tau' back. unfold branch. rewrite (children_node _ _ _ _ _ _ H). cbn [orb].
    rewrite foreach_map.
    transitivity (flat_map (fun k => (if back : bool then in_kid else out_kid) (rtr so) n tau' k)
         (filter (fun k => inner (k_t k)) ks), @Ok (state K) (h, n)).
    - apply foreach_all. intros k Hk. apply filter_In in Hk. destruct Hk as (Hk & Ei). unfold kid3.
      destruct (trip _ _ _ _ _ _ H O ND Hk Ei) as (H1 & O1 & _ & Ac & A1 & D1 & D2 & D3 & B1 & B2 & N).
      assert (R : r_split opp half_of so fuel tau' (top (k_t k)) (Some (k_j k)) (moved K h n (k_i k) (top (k_t k)), top (k_t k))
        = (rtr so (k_t k) tau', Ok (moved K h n (k_i k) (top (k_t k)), top (k_t k)))).
      { apply (IH k Hk (Some (k_j k, (n, k_i k)))); auto.
        - eapply NoDup_kid; eauto.
        - pose proof (height_kid n ks k Hk). lia. }
      unfold move at 1. rewrite D1, An. cbn [is_none negb andthen].
      fold (moved K h n (k_i k) (top (k_t k))). rewrite R. cbn [andthen].
      unfold move. rewrite D3, A1. cbn [is_none negb app].
      fold (moved K (moved K h n (k_i k) (top (k_t k))) (top (k_t k)) (k_j k) n). rewrite B1.
      destruct back; unfold out_kid, in_kid; reflexivity.
    - f_equal. symmetry. apply flat_map_inner. }
  cbn [r_split top rtr]. destruct so.
  - rewrite B. cbn [andthen]. unfold split_prop. cbn [fst]. rewrite An. cbn [is_none andthen]. rewrite B.
    cbn [app]. reflexivity.
  - rewrite B. cbn [andthen]. unfold split_prop. cbn [fst]. rewrite An. reflexivity.
Qed.

Lemma rtr_first t tau : inner t = true -> rtr false t tau = fwd T opp tau t ++ [Node (top t) tau].
Proof.
  induction t as [n|n ks IH] using tree_ind'; [discriminate|]. intros _. cbn [rtr fwd top]. f_equal.
  apply flat_map_ext_in. intros k Hk. rewrite Forall_forall in IH. destruct (inner (k_t k)) eqn:Ei; [|reflexivity].
  unfold out_kid. rewrite (IH k Hk Ei). rewrite <- app_assoc. reflexivity.
Qed.

(** * Contents *)
Lemma rtr_follows so : forall t tau, follows (top t) (rtr so t tau) (top t).
Proof.
  induction t as [n|n ks IH] using tree_ind'; intros tau; [constructor|]. cbn [rtr top].
  set (tau' := if so then half_of tau else tau). apply follows_app with n.
  - induction IH as [|k ks Hk _ IHk]; [constructor|]. cbn [flat_map]. apply follows_app with n; auto.
    destruct (inner (k_t k)); [|constructor]. unfold out_kid. constructor.
    eapply follows_app; [apply Hk|]. repeat constructor.
  - constructor. destruct so; [|constructor].
    induction IH as [|k ks Hk _ IHk]; [constructor|]. cbn [flat_map]. apply follows_app with n; auto.
    destruct (inner (k_t k)); [|constructor]. unfold in_kid. constructor.
    eapply follows_app; [apply Hk|]. repeat constructor.
Qed.

(** Events that stay inside a set of tensors. *)
Definition inside (P : id -> Prop) (e : event T) : Prop :=
  match e with Node n _ => P n | Bond (a, _, b, _) _ | Pair (a, _, b, _) _ | Shift (a, _, b, _) => P a /\ P b end.
Lemma inside_flip P e : inside P (flip e) -> inside P e.
Proof. destruct e as [n x|e x|e x|e]; cbn; auto; destruct e as (((a & i) & b) & j); cbn; tauto. Qed.
Lemma inside_mono (P Q : id -> Prop) e : (forall x, P x -> Q x) -> inside P e -> inside Q e.
Proof. intros H. destruct e as [n x|e x|e x|e]; cbn; auto; destruct e as (((a & i) & b) & j); cbn; firstorder. Qed.

Lemma rtr_inside so : forall t tau e, In e (rtr so t tau) -> inside (fun x => In x (nids t)) e.
Proof.
  induction t as [n|n ks IH] using tree_ind'; intros tau e He; [destruct He|]. cbn [rtr] in He.
  set (tau' := if so then half_of tau else tau) in *. rewrite Forall_forall in IH.
  assert (Hk1 : forall k e, In k ks -> In e (rtr so (k_t k) tau') -> inside (fun x => In x (nids (Nd n ks))) e).
  { intros k e' Hk He'. eapply inside_mono; [|apply (IH k Hk tau' e' He')].
    intros x Hx. right. apply in_flat_map. eauto. }
  assert (Hk2 : forall k, In k ks -> inner (k_t k) = true -> In (top (k_t k)) (nids (Nd n ks))).
  { intros k Hk Hi. right. apply in_flat_map. exists k. split; auto. rewrite (nids_top _ Hi). left; auto. }
  apply in_app_iff in He. destruct He as [He|[<-|He]].
  - apply in_flat_map in He. destruct He as (k & Hk & He). destruct (inner (k_t k)) eqn:Ei; [|destruct He].
    destruct He as [<-|He]; [split; [left; auto|auto]|]. apply in_app_iff in He. destruct He as [He|[<-|[]]]; [eauto|].
    split; [auto|left; auto].
  - left; auto.
  - destruct so; [|destruct He]. apply in_flat_map in He. destruct He as (k & Hk & He).
    destruct (inner (k_t k)) eqn:Ei; [|destruct He].
    destruct He as [<-|He]; [split; [left; auto|auto]|]. apply in_app_iff in He. destruct He as [He|[<-|[]]]; [eauto|].
    split; [auto|left; auto].
Qed.

(** * Time symmetry *)
Lemma props_cons_shift e (l : list (event T)) : props (Shift e :: l) = props l.
Proof. reflexivity. Qed.

Definition outs n tau ks := props (flat_map (out_kid (rtr true) n tau) (inner_kids ks)).
Definition ins n tau ks := props (flat_map (in_kid (rtr true) n tau) (inner_kids ks)).

Lemma out_props n tau k : props (out_kid (rtr true) n tau k) =
  props (rtr true (k_t k) tau) ++ [Bond (top (k_t k), k_j k, n, k_i k) (opp tau)].
Proof. unfold out_kid. rewrite props_cons_shift, props_app. reflexivity. Qed.
Lemma in_props n tau k : props (in_kid (rtr true) n tau k) =
  Bond (n, k_i k, top (k_t k), k_j k) (opp tau) :: props (rtr true (k_t k) tau).
Proof.
  unfold in_kid. change (Bond ?a ?b :: ?l) with ([Bond a b] ++ l). rewrite !props_app. cbn. now rewrite app_nil_r.
Qed.

Lemma lengths n tau l :
  length (props (flat_map (out_kid (rtr true) n tau) l)) = length (props (flat_map (in_kid (rtr true) n tau) l)).
Proof.
  induction l as [|k l IH]; [reflexivity|]. cbn [flat_map]. rewrite !props_app, out_props, in_props, !app_length, IH.
  cbn [length]. lia.
Qed.

Lemma app_len_inj {A} (a a' b b' : list A) : length a = length a' -> a ++ b = a' ++ b' -> a = a' /\ b = b'.
Proof.
  revert a'. induction a as [|x a IH]; intros [|x' a'] L E; try discriminate; [split; auto|].
  cbn in *. inversion E; subst. destruct (IH a') as (-> & ->); auto.
Qed.

Lemma rev_flip_swap (l l' : list (event T)) : rev l = map flip l' -> rev l' = map flip l.
Proof.
  intros E. assert (E' : map flip (rev l) = l').
  { rewrite E, map_map. rewrite <- (map_id l') at 2. apply map_ext, flip_flip. }
  rewrite <- E', <- map_rev, rev_involutive. reflexivity.
Qed.

Lemma rtr_sym_iff n ks tau : symmetric (rtr true (Nd n ks) tau) <->
  rev (ins n (half_of tau) ks) = map flip (outs n (half_of tau) ks).
Proof.
  unfold symmetric. cbn [rtr]. rewrite !flat_map_inner. set (tau' := half_of tau).
  rewrite props_app. change (Node n tau :: ?l) with ([Node n tau] ++ l). rewrite !props_app.
  change (props [Node n tau]) with [Node n tau].
  fold (outs n tau' ks) (ins n tau' ks). rewrite !rev_app_distr, !map_app. cbn [map flip rev]. rewrite <- !app_assoc.
  split.
  - intros E. apply app_len_inj in E; [tauto|]. rewrite rev_length, map_length. symmetry. apply lengths.
  - intros E. rewrite E. rewrite (rev_flip_swap _ _ E). reflexivity.
Qed.

Lemma rtr_has_node so t tau : inner t = true -> In (Node (top t) tau) (props (rtr so t tau)).
Proof.
  destruct t as [n|n ks]; [discriminate|]. intros _. cbn [rtr top]. apply filter_In. split; auto.
  apply in_app_iff. right. left. auto.
Qed.

Lemma kids_disjoint n k1 ks k2 x : NoDup (ids (Nd n (k1 :: ks))) -> In k2 ks ->
  In x (nids (k_t k1)) -> In x (nids (k_t k2)) -> False.
Proof.
  intros ND Hk H1 H2. cbn [ids flat_map] in ND. apply NoDup_cons_iff in ND. destruct ND as (_ & ND).
  apply nids_ids in H1, H2. eapply NoDup_app_disj; [exact ND|exact H1|]. apply in_flat_map. eauto.
Qed.

Lemma inner_kids_split ks : forall k1 l, inner_kids ks = k1 :: l ->
  exists a b, ks = a ++ k1 :: b /\ inner_kids b = l.
Proof.
  induction ks as [|k ks IH]; intros k1 l E; [discriminate|]. unfold inner_kids in E. cbn [filter] in E.
  destruct (inner (k_t k)).
  - inversion E; subst. exists [], ks. auto.
  - destruct (IH _ _ E) as (a & b & -> & Eb). exists (k :: a), b. auto.
Qed.

Lemma chain_node n ks : chain (Nd n ks) <-> length (inner_kids ks) <= 1 /\ Forall (fun k => chain (k_t k)) ks.
Proof.
  cbn [chain]. unfold inner_kids. split; intros (H & F); (split; [exact H|]).
  - clear H. induction ks as [|k ks IH]; [constructor|]. destruct F. constructor; auto.
  - clear H. induction F as [|k ks Hk F IH]; [exact I|]. split; auto.
Qed.

Lemma rtr_symmetric : forall t tau, NoDup (ids t) -> (symmetric (rtr true t tau) <-> chain t).
Proof.
  induction t as [n|n ks IH] using tree_ind'; intros tau ND; [split; intros; [exact I|reflexivity]|].
  rewrite rtr_sym_iff, chain_node. unfold outs, ins. set (tau' := half_of tau). rewrite Forall_forall in IH.
  assert (LeafC : forall k, inner (k_t k) = false -> chain (k_t k)) by (intros k; destruct (k_t k); [exact (fun _ => I)|discriminate]).
  destruct (inner_kids ks) as [|k1 [|k2 l]] eqn:E.
  - split; [intros _|reflexivity]. split; [auto|]. apply Forall_forall. intros k Hk. apply LeafC.
    destruct (inner (k_t k)) eqn:Ei; auto. assert (In k (inner_kids ks)) by (apply inner_kids_In; auto). rewrite E in H. destruct H.
  - assert (Hk1 : In k1 ks /\ inner (k_t k1) = true) by (apply inner_kids_In; rewrite E; left; auto).
    destruct Hk1 as (Hk1 & Hi1). cbn [flat_map length]. rewrite !app_nil_r, out_props, in_props.
    cbn [rev]. rewrite map_app. cbn [map flip rev_edge].
    destruct (NoDup_kid _ _ _ ND Hk1) as (NDk & _).
    specialize (IH k1 Hk1 tau' NDk). unfold symmetric in IH.
    split.
    + intros Es. split; auto. apply Forall_forall. intros k Hk. destruct (inner (k_t k)) eqn:Ei; [|auto].
      assert (Hin : In k (inner_kids ks)) by (apply inner_kids_In; auto). rewrite E in Hin. destruct Hin as [<-|[]].
      apply IH. apply app_inj_tail in Es. tauto.
    + intros (_ & F). rewrite Forall_forall in F. f_equal. apply IH, F, Hk1.
  - split; [|cbn [length]; lia]. intros Es. exfalso.
    destruct (inner_kids_split _ _ _ E) as (a & b & Eks & Eb).
    assert (Hb : forall k, In k (k2 :: l) -> In k b /\ inner (k_t k) = true).
    { intros k Hk. apply inner_kids_In. now rewrite Eb. }
    assert (Hi1 : inner (k_t k1) = true).
    { assert (In k1 (inner_kids ks)) by (rewrite E; left; auto). apply inner_kids_In in H. tauto. }
    cbn [flat_map] in Es. rewrite props_app in Es.
    (* last kid *)
    destruct (exists_last (l := k2 :: l)) as (l' & kl & El); [discriminate|].
    assert (Hkl : In kl (k2 :: l)) by (rewrite El; apply in_app_iff; right; left; auto).
    change (in_kid (rtr true) n tau' k2 ++ flat_map (in_kid (rtr true) n tau') l)
      with (flat_map (in_kid (rtr true) n tau') (k2 :: l)) in Es.
    rewrite El in Es. rewrite flat_map_app, !props_app in Es. cbn [flat_map] in Es. rewrite app_nil_r, !in_props, !out_props in Es.
    rewrite !rev_app_distr in Es. cbn [rev] in Es. rewrite !map_app in Es.
    destruct (Hb kl Hkl) as (Hbl & Hil).
    assert (N1 : props (rtr true (k_t k1) tau') <> []).
    { intros E0. pose proof (rtr_has_node true (k_t k1) tau' Hi1) as X. rewrite E0 in X. destruct X. }
    assert (Nl : rev (props (rtr true (k_t kl) tau')) <> []).
    { intros E0. pose proof (rtr_has_node true (k_t kl) tau' Hil) as X. apply in_rev in X. rewrite E0 in X. destruct X. }
    destruct (props (rtr true (k_t k1) tau')) as [|e1 r1] eqn:E1; [congruence|].
    destruct (rev (props (rtr true (k_t kl) tau'))) as [|el rl] eqn:E2; [congruence|].
    cbn [app map] in Es. assert (Ee : el = flip e1) by (apply (f_equal (hd el)) in Es; exact Es). clear Es.
    assert (I1 : inside (fun x => In x (nids (k_t k1))) e1).
    { apply (rtr_inside true _ tau'). assert (X : In e1 (props (rtr true (k_t k1) tau'))) by (rewrite E1; left; auto).
      apply filter_In in X. tauto. }
    assert (I2 : inside (fun x => In x (nids (k_t kl))) e1).
    { apply inside_flip. rewrite <- Ee. apply (rtr_inside true _ tau').
      assert (X : In el (rev (props (rtr true (k_t kl) tau')))) by (rewrite E2; left; auto).
      apply in_rev in X. apply filter_In in X. tauto. }
    assert (D : forall x, In x (nids (k_t k1)) -> In x (nids (k_t kl)) -> False).
    { intros x X1 X2. subst ks. cbn [ids] in ND. rewrite flat_map_app in ND. cbn [flat_map] in ND.
      apply NoDup_cons_iff in ND. destruct ND as (_ & ND). apply NoDup_app_r in ND.
      apply nids_ids in X1, X2. eapply NoDup_app_disj; [exact ND|exact X1|]. apply in_flat_map. eauto. }
    destruct e1 as [m x|(((m1 & i) & m2) & j) x|(((m1 & i) & m2) & j) x|(((m1 & i) & m2) & j)]; cbn in I1, I2; firstorder.
Qed.
End Run.

Lemma before_antisym {A} (c d : A) l : NoDup l -> before d c l -> before c d l -> False.
Proof.
  intros ND (l1 & l2 & l3 & E) (m1 & m2 & m3 & E').
  assert (N1 : exists p q, p < q /\ nth_error l p = Some d /\ nth_error l q = Some c).
  { exists (length l1), (length l1 + S (length l2)). rewrite E. split; [lia|].
    split; [rewrite nth_error_app2, Nat.sub_diag by lia; reflexivity|].
    rewrite nth_error_app2 by lia. replace (length l1 + S (length l2) - length l1) with (S (length l2)) by lia.
    cbn [nth_error]. rewrite nth_error_app2, Nat.sub_diag by lia. reflexivity. }
  assert (N2 : exists p q, p < q /\ nth_error l p = Some c /\ nth_error l q = Some d).
  { exists (length m1), (length m1 + S (length m2)). rewrite E'. split; [lia|].
    split; [rewrite nth_error_app2, Nat.sub_diag by lia; reflexivity|].
    rewrite nth_error_app2 by lia. replace (length m1 + S (length m2) - length m1) with (S (length m2)) by lia.
    cbn [nth_error]. rewrite nth_error_app2, Nat.sub_diag by lia. reflexivity. }
  destruct N1 as (p & q & L & P & Q), N2 as (p' & q' & L' & P' & Q').
  rewrite NoDup_nth_error in ND.
  assert (p = q') by (apply ND; [apply nth_error_Some; congruence|congruence]).
  assert (q = p') by (apply ND; [apply nth_error_Some; congruence|congruence]). lia.
Qed.

Section Totals.
Variable K : StarRing.
Variable half_of : K -> K.
Hypothesis half_ok : forall x, radd (half_of x) (half_of x) = x.
Notation rtr := (rtr K ropp half_of).
Add Ring Kr : (r_theory K).
Local Open Scope star_scope.

Lemma total_app (l l' : list K) : total K (l ++ l') = total K l + total K l'.
Proof.
  induction l as [|x l IH]; cbn [app total fold_right].
  - fold (total K l'). ring.
  - fold (total K (l ++ l')) (total K l). rewrite IH. ring.
Qed.

Lemma node_time_app n (l l' : list (event K)) : node_time n (l ++ l') = node_time n l + node_time n l'.
Proof. unfold node_time. now rewrite node_props_app, filter_app, map_app, total_app. Qed.
Lemma bond_time_app e (l l' : list (event K)) : bond_time e (l ++ l') = bond_time e l + bond_time e l'.
Proof. unfold bond_time. now rewrite bond_props_app, filter_app, map_app, total_app. Qed.

Definition weigh {A} (p : A -> bool) (x : K) (l : list A) : K := total K (map (fun a => if p a then x else r0) l).

Lemma weigh_app {A} (p : A -> bool) x l l' : weigh p x (l ++ l') = weigh p x l + weigh p x l'.
Proof. unfold weigh. now rewrite map_app, total_app. Qed.
Lemma weigh_half {A} (p : A -> bool) x l : weigh p (half_of x) l + weigh p (half_of x) l = weigh p x l.
Proof.
  unfold weigh. induction l as [|a l IH]; cbn [map total fold_right]; [ring|].
  fold (total K (map (fun a => if p a then half_of x else r0) l)) (total K (map (fun a => if p a then x else r0) l)).
  rewrite <- IH. destruct (p a); [|ring].
  set (A' := total K (map (fun a0 => if p a0 then half_of x else 0) l)).
  transitivity ((half_of x + half_of x) + (A' + A')); [ring|rewrite half_ok; reflexivity].
Qed.
Lemma weigh_opp_half {A} (p : A -> bool) x l :
  weigh p (ropp (half_of x)) l + weigh p (ropp (half_of x)) l = weigh p (ropp x) l.
Proof.
  unfold weigh. induction l as [|a l IH]; cbn [map total fold_right]; [ring|].
  fold (total K (map (fun a => if p a then ropp (half_of x) else r0) l)) (total K (map (fun a => if p a then ropp x else r0) l)).
  rewrite <- IH. destruct (p a); [|ring].
  set (A' := total K (map (fun a0 => if p a0 then - half_of x else 0) l)).
  transitivity (- (half_of x + half_of x) + (A' + A')); [ring|rewrite half_ok; reflexivity].
Qed.
Lemma weigh_cons {A} (p : A -> bool) x a l : weigh p x (a :: l) = (if p a then x else r0) + weigh p x l.
Proof. reflexivity. Qed.

Lemma same_edge_sym_r e e' : same_edge e (rev_edge e') = same_edge e e'.
Proof.
  destruct e as (((a & i) & b) & j), e' as (((c & k) & d) & l). unfold same_edge, rev_edge.
  apply eq_iff_eq_true. rewrite !orb_true_iff, !andb_true_iff, !Nat.eqb_eq. tauto.
Qed.

Lemma rtr_node_time so n : forall t tau, node_time n (rtr so t tau) = weigh (fun m => m =? n) tau (nids t).
Proof.
  induction t as [m|m ks IH] using tree_ind'; intros tau; [reflexivity|]. cbn [Rsplit_Proof.rtr nids].
  set (tau' := if so then half_of tau else tau).
  assert (A : node_time n (flat_map (fun k => if inner (k_t k) then out_kid K ropp (rtr so) m tau' k else []) ks)
     = weigh (fun m => m =? n) tau' (flat_map (fun k => nids (k_t k)) ks)).
  { clear - IH. induction IH as [|k ks Hk _ IHk]; [reflexivity|]. cbn [flat_map].
    rewrite node_time_app, weigh_app, IHk. f_equal. destruct (inner (k_t k)) eqn:Ei.
    - unfold out_kid. change (Shift ?a :: ?l) with ([Shift a] ++ l). rewrite !node_time_app, Hk. cbn. ring.
    - destruct (k_t k); [reflexivity|discriminate]. }
  assert (B : node_time n (flat_map (fun k => if inner (k_t k) then in_kid K ropp (rtr so) m tau' k else []) ks)
     = weigh (fun m => m =? n) tau' (flat_map (fun k => nids (k_t k)) ks)).
  { clear - IH. induction IH as [|k ks Hk _ IHk]; [reflexivity|]. cbn [flat_map].
    rewrite node_time_app, weigh_app, IHk. f_equal. destruct (inner (k_t k)) eqn:Ei.
    - unfold in_kid. change (Bond ?a ?b :: ?l) with ([Bond a b] ++ l). rewrite !node_time_app, Hk. cbn. ring.
    - destruct (k_t k); [reflexivity|discriminate]. }
  change (Node m tau :: ?l) with ([Node m tau] ++ l). rewrite !node_time_app, A, weigh_cons.
  assert (N : node_time n [Node m tau] = if m =? n then tau else r0).
  { unfold node_time, node_props. cbn. destruct (m =? n); cbn; ring. }
  rewrite N. destruct so.
  - rewrite B. unfold tau'. rewrite <- (weigh_half _ tau). ring.
  - unfold tau'. change (node_time (K := K) n []) with (@r0 K). ring.
Qed.

Lemma rtr_bond_time so e : forall t tau, bond_time e (rtr so t tau) = weigh (same_edge e) (ropp tau) (inner_edges t).
Proof.
  induction t as [m|m ks IH] using tree_ind'; intros tau; [reflexivity|]. cbn [Rsplit_Proof.rtr inner_edges].
  set (tau' := if so then half_of tau else tau).
  assert (N : forall e' (x : K), bond_time e [Bond e' x] = if same_edge e e' then x else r0).
  { intros e' x. unfold bond_time, bond_props. cbn [flat_map app filter fst]. destruct (same_edge e e'); cbn; ring. }
  set (E := flat_map (fun k => if inner (k_t k) then (m, k_i k, top (k_t k), k_j k) :: inner_edges (k_t k) else []) ks).
  assert (A : bond_time e (flat_map (fun k => if inner (k_t k) then out_kid K ropp (rtr so) m tau' k else []) ks)
     = weigh (same_edge e) (ropp tau') E).
  { unfold E. clear - IH N. induction IH as [|k ks Hk _ IHk]; [reflexivity|]. cbn [flat_map].
    rewrite bond_time_app, weigh_app, IHk. f_equal. destruct (inner (k_t k)) eqn:Ei; [|reflexivity].
    unfold out_kid. change (Shift ?a :: ?l) with ([Shift a] ++ l). rewrite !bond_time_app, Hk, weigh_cons, N.
    change (top (k_t k), k_j k, m, k_i k) with (rev_edge (m, k_i k, top (k_t k), k_j k)). rewrite same_edge_sym_r.
    change (bond_time (K := K) e [Shift (m, k_i k, top (k_t k), k_j k)]) with (@r0 K). ring. }
  assert (B : bond_time e (flat_map (fun k => if inner (k_t k) then in_kid K ropp (rtr so) m tau' k else []) ks)
     = weigh (same_edge e) (ropp tau') E).
  { unfold E. clear - IH N. induction IH as [|k ks Hk _ IHk]; [reflexivity|]. cbn [flat_map].
    rewrite bond_time_app, weigh_app, IHk. f_equal. destruct (inner (k_t k)) eqn:Ei; [|reflexivity].
    unfold in_kid. change (Bond ?a ?b :: ?l) with ([Bond a b] ++ l). rewrite !bond_time_app, Hk, weigh_cons, N.
    change (bond_time (K := K) e [Shift (top (k_t k), k_j k, m, k_i k)]) with (@r0 K). ring. }
  change (Node m tau :: ?l) with ([Node m tau] ++ l). rewrite !bond_time_app, A.
  change (bond_time (K := K) e [Node m tau]) with (@r0 K). destruct so.
  - rewrite B. unfold tau'. rewrite <- (weigh_opp_half _ tau). ring.
  - unfold tau'. change (bond_time (K := K) e []) with (@r0 K). ring.
Qed.

Lemma weigh_none {A} (p : A -> bool) x l : (forall a, In a l -> p a = false) -> weigh p x l = r0.
Proof.
  induction l as [|a l IH]; intros H; [reflexivity|]. rewrite weigh_cons, H by (left; auto).
  rewrite IH by (intros; apply H; right; auto). ring.
Qed.
Lemma weigh_one {A} (p : A -> bool) x l a : In a l -> NoDup l -> p a = true ->
  (forall b, In b l -> p b = true -> b = a) -> weigh p x l = x.
Proof.
  intros Ha ND Pa U. apply in_split in Ha. destruct Ha as (l1 & l2 & ->). rewrite weigh_app, weigh_cons, Pa.
  apply NoDup_remove_2 in ND.
  assert (H : forall b, In b (l1 ++ l2) -> p b = false).
  { intros b Hb. destruct (p b) eqn:E; auto. exfalso. apply ND. rewrite <- (U b); auto.
    apply in_app_iff in Hb. apply in_app_iff. destruct Hb; [left|right; right]; auto. }
  rewrite !weigh_none by (intros; apply H, in_app_iff; auto). ring.
Qed.

Lemma rtr_totals so t tau : NoDup (ids t) ->
  (forall n, In n (nids t) -> node_time n (rtr so t tau) = tau) /\
  (forall e, In e (inner_edges t) -> bond_time e (rtr so t tau) = ropp tau).
Proof.
  intros ND. split.
  - intros n Hn. rewrite rtr_node_time. eapply weigh_one; eauto.
    + now apply NoDup_nids.
    + apply Nat.eqb_refl.
    + intros b _ E. now apply Nat.eqb_eq.
  - intros e He. rewrite rtr_bond_time. apply weigh_one with e; auto.
    + apply NoDup_map_inv with (f := fun e : edge => snd (fst e)). rewrite inner_lower.
      apply NoDup_nids in ND. destruct (nids t); [constructor|]. now inversion ND.
    + destruct e as (((a & i) & b) & j). unfold same_edge. rewrite !Nat.eqb_refl. reflexivity.
    + intros e' He' E. destruct e as (((a & i) & b) & j), e' as (((c & k) & d) & l). unfold same_edge, rev_edge in E.
      apply orb_true_iff in E. rewrite !andb_true_iff, !Nat.eqb_eq in E.
      destruct E as [(((-> & ->) & ->) & ->)|(((-> & ->) & ->) & ->)]; [reflexivity|]. exfalso.
      apply inner_edges_edges, edges_before in He, He'. eapply before_antisym; eauto.
Qed.
End Totals.
