(** [tensor_tree_template]: the Huffman tree, the bonds and the arrays of [autocomplete]. *)
From Coq Require Import String List Arith Bool Lia Ring Permutation DecimalString.
From Verif Require Import Py Alg ListX NdArray_Model NdArray_Proof Contract_Model Contract_Spec Contract_Proof Net_Model Net_Spec Link_Proof Trav_Proof Acyc_Proof State_Proof
  Tools_Model Tools_Spec Tools_Proof Tri_Model Tri_Spec Tri_Proof Gen_Spec Gen_Proof Vec_Proof MoveRoot_Proof Heom_Model Normalize_Model Normalize_Spec Normalize_Proof
  Template_Model Template_Spec Template_Proof TplAuto_Proof HuffName_Proof.
Import ListNotations.
Local Open Scope nat_scope.
Local Open Scope list_scope.

Notation length := Datatypes.length.
Lemma pick_r {A B} (R : A -> B -> Prop) l l' y : Forall2 R l l' -> In y l' -> exists x, In x l /\ R x y.
Proof. induction 1 as [|x y' l l' H _ IH]; [intros []|]. intros [<-|Hy]; [exists x; split; [left|]; auto|]. destruct (IH Hy) as (x' & H1 & H2). exists x'. split; [right|]; auto. Qed.

Lemma prod_ge R ns : ns <> [] -> Forall (fun m => R <= m) ns -> 0 < R -> R <= prod ns.
Proof.
  intros Hne H HR. destruct ns as [|m ns]; [congruence|]. clear Hne. inversion H as [|? ? H1 H2]; subst. cbn [prod].
  assert (0 < prod ns). { clear -H2 HR. induction H2 as [|x l Hx _ IH]; [cbn; lia|]. cbn [prod]. apply Nat.mul_pos_pos; lia. }
  nia.
Qed.

Lemma edge_eqb_eq a b : edge_eqb a b = true <-> a = b.
Proof.
  destruct a as [[[p i] q] j], b as [[[p' i'] q'] j']. unfold edge_eqb. rewrite !andb_true_iff, !Nat.eqb_eq. split; [intros (((-> & ->) & ->) & ->); auto|]. intros E. injection E as <- <- <- <-. auto.
Qed.

Lemma bget_in (B : edge -> nat) d e : (forall p, In p d -> snd p = B (fst p)) -> In e (map fst d) -> bget d e = Ok (B e).
Proof.
  induction d as [|[e' n] d IH]; intros H Hi; [destruct Hi|]. cbn [bget]. destruct (edge_eqb e e') eqn:E.
  - apply edge_eqb_eq in E. subst e'. f_equal. exact (H _ (or_introl eq_refl)).
  - apply IH; [intros p Hp; apply H; right; auto|]. destruct Hi as [Hi|Hi]; auto. cbn [fst] in Hi. symmetry in Hi. apply edge_eqb_eq in Hi. congruence.
Qed.

Section T.
Variable K : StarRing.
Notation arr := (arr K).
Notation heap := (heap K).

(** ** Names and bonds *)
(** Dimension belonging to a name. *)
Definition name_dim (lr : list nat) (o : option string) : nat :=
  match o with
  | Some s => match int_of s with Ok k => nth k lr 0 | Raise _ => 0 end
  | None => 0
  end.
Definition bond (h : heap) (lr : list nat) (R : nat) (e : edge) : nat :=
  if oleaf (hget h (snd (fst e))) then name_dim lr (oname (hget h (snd (fst e)))) else R.

Lemma bond_dict_ok h lr R es :
  (forall e, In e es -> oleaf (hget h (snd (fst e))) = true -> exists k, oname (hget h (snd (fst e))) = Some (str k) /\ k < length lr) ->
  bond_dict h lr R es = Ok (rev (map (fun e => (e, bond h lr R e)) es)).
Proof.
  induction es as [|[[[s i] t] j] es IH]; intros H; [reflexivity|]. cbn [bond_dict map rev]. unfold bond at 2. cbn [fst snd].
  pose proof (H _ (or_introl eq_refl)) as H0. cbn [fst snd] in H0. rewrite IH by (intros e He; apply H; right; auto).
  destruct (oleaf (hget h t)); [|reflexivity]. destruct (H0 eq_refl) as (k & E & Hk). rewrite E, int_of_str. cbn [bind]. unfold name_dim. rewrite int_of_str.
  rewrite (List.nth_error_nth' lr 0 Hk). reflexivity.
Qed.

Lemma bget_bond h lr R es e : In e es -> bget (rev (map (fun e => (e, bond h lr R e)) es)) e = Ok (bond h lr R e).
Proof.
  intros H. apply (bget_in (bond h lr R)).
  - intros p Hp. apply in_rev in Hp. apply in_map_iff in Hp. destruct Hp as (x & <- & _). reflexivity.
  - rewrite map_rev, map_map. cbn [fst]. rewrite map_id. apply in_rev. rewrite rev_involutive. exact H.
Qed.

Lemma realises_tips (h : heap) : forall T t up, realises h up T t -> map (fun n => oname (hget h n)) (lids t) = map Some (stips T).
Proof.
  induction T as [s|s l IH] using stree_ind'; intros t up R; inversion R as [? ? ? E|? ? ? ? ks E Ki Kj F]; subst.
  - cbn. now rewrite E.
  - cbn [lids stips]. clear -IH F. revert ks F. induction IH as [|T l HT _ IHl]; intros ks F; inversion F as [|? k ? ks' F1 F2]; subst; [reflexivity|].
    cbn [flat_map]. rewrite !map_app. f_equal; eauto.
Qed.

(** ** Arrays *)
Section Arrays.
Variables (h : heap) (lr : list nat) (R : nat) (bonds : list (edge * nat)).
Hypothesis HR : 0 < R.
Notation D := (fun n => name_dim lr (oname (hget h n))).
Definition dimt (t : tree) : nat := if inner t then R else D (top t).

Lemma bond_dimt up t p i j : hangs h up t -> bond h lr R (p, i, top t, j) = dimt t.
Proof. intros H. unfold bond, dimt. cbn [fst snd]. rewrite (hangs_leafness _ _ _ _ H). destruct (inner t); reflexivity. Qed.

(** What is known of a subtree. *)
Definition ready_tree (p : half) (T : stree) (t : tree) : Prop :=
  realises h (Some p) T t /\ two_up T /\ (forall n, In n (ids t) -> n < length h) /\ (forall n, In n (lids t) -> R <= D n) /\
  bget bonds (fst p, snd p, top t, 0) = Ok (dimt t) /\ (forall e, In e (edges t) -> bget bonds e = Ok (bond h lr R e)).

Lemma ready_kids p s l n ks : ready_tree p (SNd s l) (Nd n ks) ->
  Forall2 (fun T k => ready_tree (n, k_i k) T (k_t k)) l ks.
Proof.
  intros (Re & Tw & Hi & Hl & _ & Hb). pose proof (realises_hangs _ _ _ _ _ Re) as Hh. destruct (hangs_kids _ _ _ _ _ Hh) as (_ & Fh & _).
  inversion Re as [|? ? ? ? ? E Ki Kj F]; subst. inversion Tw as [|? ? _ T2]; subst. cbn [ids lids edges] in *. clear -F T2 Hi Hl Hb Fh Kj.
  assert (Hi' : forall m, In m (flat_map (fun k => ids (k_t k)) ks) -> m < length h) by (intros m Hm; apply Hi; right; auto). clear Hi.
  induction F as [|T k l ks F1 F2 IH]; constructor.
  - cbn [flat_map] in *. split; [exact F1|]. split; [exact (Forall_inv T2)|]. split; [intros m Hm; apply Hi'; apply in_app_iff; auto|]. split; [intros m Hm; apply Hl; apply in_app_iff; auto|].
    cbn [fst snd]. pose proof (Forall_inv Kj) as Ek. cbn beta in Ek. split.
    + rewrite Hb by (left; rewrite Ek; reflexivity). f_equal. eapply bond_dimt. exact (Forall_inv Fh).
    + intros e He. apply Hb. apply in_app_iff. left. right. exact He.
  - cbn [flat_map] in *. apply IH; try (eapply Forall_inv_tail; eassumption).
    + intros m Hm; apply Hl; apply in_app_iff; auto.
    + intros e He; apply Hb; apply in_app_iff; right; exact He.
    + intros m Hm; apply Hi'; apply in_app_iff; auto.
Qed.

Lemma dimt_ge p T t : ready_tree p T t -> R <= dimt t.
Proof.
  intros (Re & _ & _ & Hl & _). unfold dimt. destruct t as [n|n ks]; cbn [inner top]; auto. apply Hl. left; auto.
Qed.

Lemma node_ready p s l n ks : ready_tree p (SNd s l) (Nd n ks) -> ready K bonds h n 0 R (map (fun k => dimt (k_t k)) ks).
Proof.
  intros Rt. pose proof (ready_kids _ _ _ _ _ Rt) as Fk. destruct Rt as (Re & Tw & Hi & Hl & Hp & Hb).
  pose proof (realises_hangs _ _ _ _ _ Re) as Hh. cbn [option_map] in Hh. inversion Re as [|? ? ? ? ? E Ki Kj F]; subst. inversion Tw as [|? ? T1 _]; subst.
  assert (Lk : length l = length ks) by (clear -F; induction F; cbn; congruence).
  assert (Fg : Forall (fun m => R <= m) (map (fun k => dimt (k_t k)) ks)).
  { apply Forall_forall. intros m Hm. apply in_map_iff in Hm. destruct Hm as (k & <- & Hk). destruct (pick_r _ _ _ _ Fk Hk) as (T & _ & RT). eapply dimt_ge; eauto. }
  split; [apply Hi; left; auto|]. split; [rewrite E; reflexivity|]. split.
  { pose proof (children_node K h _ n ks true Hh) as Ec. cbn [option_map fst] in Ec. rewrite Ec. rewrite filter_all by reflexivity.
    rewrite (mapM_ok _ (fun x => bond h lr R (n, fst (fst x), snd (fst x), snd x))).
    - f_equal. rewrite map_map. apply map_ext_in. intros k Hk. unfold kid3. cbn [fst snd]. destruct (hangs_kids _ _ _ _ _ Hh) as (_ & Fh & _). rewrite Forall_forall in Fh. eapply bond_dimt. exact (Fh k Hk).
    - intros x Hx. apply in_map_iff in Hx. destruct Hx as (k & <- & Hk). unfold kid3. cbn [fst snd]. apply Hb. cbn [edges]. apply in_flat_map. exists k. split; auto. left; auto. }
  split. { exists p. rewrite E. cbn [oacc up_links app]. split; [reflexivity|]. exact Hp. }
  split; [lia|]. split; auto. split.
  - apply prod_ge; auto. destruct ks; [cbn in Lk; lia|discriminate].
  - eapply Forall_impl; [|exact Fg]. cbn beta. intros m Hm. lia.
Qed.

Lemma tree_ready : forall T t p, ready_tree p T t -> forall n, In n (nids t) -> exists ns, ready K bonds h n 0 R ns.
Proof.
  induction T as [s|s l IH] using stree_ind'; intros t p Rt n Hn; pose proof Rt as (Re & _); inversion Re as [|? m ? ? ks E Ki Kj F]; subst; [destruct Hn|].
  destruct Hn as [<-|Hn]; [eexists; eapply node_ready; eauto|]. apply in_flat_map in Hn. destruct Hn as (k & Hk & Hn).
  destruct (pick_r _ _ _ _ (ready_kids _ _ _ _ _ Rt) Hk) as (T & HT & RT). rewrite Forall_forall in IH. eapply IH; eauto.
Qed.

Lemma tree_good (h2 : heap) : forall T t p, ready_tree p T t ->
  (forall n ns, In n (nids t) -> ready K bonds h n 0 R ns -> exists a, auto_array (Some 0) R ns = Ok a /\ oarr (hget h2 n) = Some a) ->
  good K (array_at h2) D 0 (dimt t) t.
Proof.
  induction T as [s|s l IH] using stree_ind'; intros t p Rt Hf; pose proof Rt as (Re & _); inversion Re as [|? m ? ? ks E Ki Kj F]; subst.
  - unfold dimt. cbn [inner top]. apply (good_leaf K (array_at h2) D). pose proof (dimt_ge _ _ _ Rt) as Hd. unfold dimt in Hd. cbn [inner top] in Hd. lia.
  - set (ns := map (fun k => dimt (k_t k)) ks). pose proof (node_ready _ _ _ _ _ Rt) as Rn. fold ns in Rn. destruct (Hf m ns (or_introl eq_refl) Rn) as (a & Ea & Eo).
    destruct Rn as (_ & _ & _ & _ & _ & _ & Hle & Hpos). destruct (auto_array_some K R ns 0 (Nat.le_0_l _) Hle) as (a' & Ea' & Wa & Sa & Ga). assert (a' = a) by congruence. subst a'.
    assert (Aa : array_at h2 m = a) by (unfold array_at; rewrite Eo; reflexivity). change (ins 0 R ns) with (R :: ns) in Sa.
    assert (Lk : length l = length ks) by (clear -F; induction F; cbn; congruence).
    replace (dimt (Nd m ks)) with (nth 0 (shape (array_at h2 m)) 0) by (rewrite Aa, Sa; reflexivity).
    apply (good_node K (array_at h2) D m 0 ks); rewrite ?Aa; unfold ndim; rewrite ?Sa; auto.
    + cbn. lia.
    + cbn [up_links length] in Ki. rewrite Ki. cbn [length seq]. unfold del. cbn [firstn skipn app]. unfold ns. rewrite map_length, Lk. reflexivity.
    + change (del 0 (R :: ns)) with ns. intros x Hx. rewrite Ga by auto. f_equal. destruct (triangular_head ns) as (tl & ->); [|reflexivity]. rewrite <- prod_product. lia.
    + change (del 0 (R :: ns)) with ns. unfold ns. pose proof (ready_kids _ _ _ _ _ Rt) as Fk.
      assert (G : forall k, In k ks -> good K (array_at h2) D (k_j k) (dimt (k_t k)) (k_t k)).
      { intros k Hk. destruct (pick_r _ _ _ _ Fk Hk) as (T & HT & RT). rewrite Forall_forall in IH, Kj. rewrite Kj by auto. eapply IH; eauto.
        intros n ns' Hn. apply Hf. right. apply in_flat_map. exists k. auto. }
      clear -G. induction ks as [|k ks IHk]; constructor; [apply G; left; auto|apply IHk; intros; apply G; right; auto].
Qed.
End Arrays.

(** ** Links of a fitting network *)
Lemma skipn_S_in {X} (x : X) : forall a l, In x (skipn (S a) l) -> In x (skipn a l).
Proof. induction a as [|a IH]; intros [|y l] H; auto; [right; exact H|]. cbn [skipn] in *. apply IH. exact H. Qed.

Lemma fits_pick (A : id -> arr) ax d n ks k : fits A ax d (Nd n ks) -> In k ks -> k_i k < ndim (A n) /\ fits A (Some (k_j k)) (nth (k_i k) (shape (A n)) 0) (k_t k).
Proof.
  intros H Hk. inversion H as [|? ? ? ? W P Hax Ki F]; subst.
  assert (Eo : others ax (shape (A n)) = map (fun i => nth i (shape (A n)) 0) (map k_i ks)).
  { rewrite Ki. unfold ndim. destruct ax as [a|]; cbn [others]; [symmetry; apply map_nth_del|symmetry; apply map_nth_seq]. }
  split.
  - assert (Hi : In (k_i k) (map k_i ks)) by (apply in_map; auto). rewrite Ki in Hi. assert (In (k_i k) (seq 0 (ndim (A n)))); [|apply in_seq in H0; lia].
    destruct ax as [a|]; cbn [others] in Hi; auto. unfold del in Hi. rewrite <- (firstn_skipn a (seq 0 (ndim (A n)))). apply in_app_iff in Hi. apply in_app_iff. destruct Hi as [Hi|Hi]; [left; auto|right].
    apply skipn_S_in. exact Hi.
  - rewrite Eo in F. rewrite map_map in F. clear -F Hk. set (f := fun x => nth (k_i x) (shape (A n)) 0) in *. change (nth (k_i k) (shape (A n)) 0) with (f k). clearbody f. remember (map f ks) as ms eqn:Em.
    revert ms Em F. induction ks as [|k' ks IH]; [destruct Hk|]. intros ms -> F. inversion F as [|? ? ? ? F1 F2]; subst. destruct Hk as [->|Hk]; [exact F1|exact (IH Hk _ eq_refl F2)].
Qed.

Lemma fits_links (h : heap) (A : id -> arr) : forall t up d, hangs h up t -> fits A (option_map fst up) d t ->
  forall x i c j, In x (ids t) -> In (i, (c, j)) (oacc (hget h x)) ->
    oleaf (hget h x) = true \/ oleaf (hget h c) = true \/ (x = top t /\ up = Some (i, (c, j)) /\ i < ndim (A x) /\ nth i (shape (A x)) 0 = d) \/
    (i < ndim (A x) /\ j < ndim (A c) /\ nth i (shape (A x)) 0 = nth j (shape (A c)) 0).
Proof.
  induction t as [n|n ks IH] using tree_ind'; intros up d Hh Hf x i c j Hx He.
  - destruct Hx as [<-|[]]. left. exact (hangs_leafness _ _ _ _ Hh).
  - destruct (hangs_kids _ _ _ _ _ Hh) as (_ & Fh & _). rewrite Forall_forall in Fh, IH. destruct (hangs_acc _ _ _ _ _ Hh) as (_ & _ & Kout & _).
    destruct Hx as [<-|Hx].
    + destruct (Kout _ He) as [(k & Hk & Ek)|Eu].
      * unfold kid_half in Ek. injection Ek as -> -> ->. destruct (fits_pick _ _ _ _ _ _ Hf Hk) as (Hi & Fk). pose proof (hangs_leafness _ _ _ _ (Fh k Hk)) as Hl.
        destruct (k_t k) as [m|m ks'] eqn:Et; [right; left; exact Hl|]. inversion Fk as [|? ? ? ? _ _ Hax _ _]; subst. destruct Hax as (Ha & Hb). cbn [top]. do 3 right. auto.
      * right. right. left. inversion Hf as [|? ? ? ? _ _ Hax _ _]; subst. cbn [option_map fst] in Hax. destruct Hax as (Ha & Hb). auto.
    + apply in_flat_map in Hx. destruct Hx as (k & Hk & Hx). destruct (fits_pick _ _ _ _ _ _ Hf Hk) as (Hi & Fk).
      destruct (IH k Hk _ _ (Fh k Hk) Fk x i c j Hx He) as [H|[H|[(Et & Eu & Hxi & Hd)|H]]]; auto.
      injection Eu as <- <- <-. do 3 right. rewrite Hd. auto.
Qed.

Lemma dget_in {V} (d : list (nat * V)) k v : dget d k = Some v -> In (k, v) d.
Proof. induction d as [|[k' v'] d IH]; cbn [dget]; [discriminate|]. destruct (Nat.eqb_spec k k') as [->|]; intros E; [injection E as ->; left; auto|right; auto]. Qed.

Lemma strict_ok (h h2 : heap) t d : same_tree K h h2 -> hangs h2 None t -> fits (array_at h2) None d t -> (forall n, In n (nids t) -> exists a, oarr (hget h2 n) = Some a) ->
  (forall n, In n (lids t) -> oarr (hget h2 n) = None) -> (forall x, In x (ids t) -> check_completness h x false = Ok tt) ->
  forall x, In x (ids t) -> check_completness h2 x true = Ok tt.
Proof.
  intros (_ & Es) Hh Hf Ha Hl Hc x Hx. specialize (Hc x Hx). unfold check_completness, order in *. destruct (Es x) as (E1 & E2 & _). rewrite E1, E2.
  destruct (forallb _ _ && _); [|discriminate Hc]. rewrite forM_ok in Hc. apply forM_ok. intros i Hi. specialize (Hc i Hi). unfold check_linkage in *. rewrite E2.
  unfold dindex in *. destruct (dget (oacc (hget h x)) i) as [[c j]|] eqn:Ed; [|discriminate Hc]. cbn [bind] in *. destruct (Es c) as (E1c & E2c & _). rewrite E2c.
  destruct (dget (oacc (hget h c)) j) as [y|] eqn:Ed2; [|discriminate Hc]. cbn [bind andb] in *. destruct (half_eqb y (x, i)) eqn:Ey; [|discriminate Hc].
  pose proof (dget_in _ _ _ Ed) as Hin. rewrite <- E2 in Hin.
  assert (Hcid : In c (ids t)). { destruct (hangs_links_inside K h2 t None x c Hh Hx) as [H|(j' & i' & H)]; auto; [|discriminate H]. exists i, j. exact Hin. }
  assert (Leaf : forall z, In z (ids t) -> (oleaf (hget h2 z) = true /\ In z (lids t)) \/ (oleaf (hget h2 z) = false /\ In z (nids t))).
  { clear -Hh. revert Hh. generalize (@None (nat * half)). induction t as [n|n ks IH] using tree_ind'; intros up Hh z Hz.
    - destruct Hz as [<-|[]]. left. split; [exact (hangs_leafness _ _ _ _ Hh)|left; auto].
    - destruct Hz as [<-|Hz]; [right; split; [exact (hangs_leafness _ _ _ _ Hh)|left; auto]|]. apply in_flat_map in Hz. destruct Hz as (k & Hk & Hz).
      destruct (hangs_kids _ _ _ _ _ Hh) as (_ & Fh & _). rewrite Forall_forall in Fh, IH. destruct (IH k Hk _ (Fh k Hk) z Hz) as [(H1 & H2)|(H1 & H2)]; [left|right]; split; auto; cbn [lids nids]; [|right]; apply in_flat_map; exists k; auto. }
  destruct (Leaf x Hx) as [(L1 & L2)|(L1 & L2)]; rewrite L1; [rewrite (Hl x L2); reflexivity|]. destruct (Ha x L2) as (a & Eax). rewrite Eax. cbn [is_none andb].
  destruct (Leaf c Hcid) as [(M1 & M2)|(M1 & M2)]; rewrite M1; [rewrite (Hl c M2); reflexivity|]. destruct (Ha c M2) as (b & Ebx). rewrite Ebx. cbn [is_none andb].
  destruct (fits_links h2 (array_at h2) t None d Hh Hf x i c j Hx Hin) as [H|[H|[(_ & H & _)|(H1 & H2 & H3)]]]; [congruence|congruence|discriminate H|].
  unfold array_at in H1, H2, H3. rewrite Eax in H1, H3. rewrite Ebx in H2, H3. apply Nat.ltb_lt in H1, H2. rewrite H1, H2. cbn [andb negb bind]. rewrite H3, Nat.eqb_refl. reflexivity.
Qed.

(** ** The template *)
Variables (nrm : list K -> K) (sqrtf inv : K -> K) (rank_of : arr -> nat).
Hypothesis unit_norm : forall v, cdot v v = r1 -> inv (nrm v) = r1.
Hypothesis sqrt0 : sqrtf r0 = r0.
Hypothesis sqrt1 : sqrtf r1 = r1.
Hypothesis rank_eye : forall d, rank_of (eye d d) = d.

Lemma seqb_spec a b : String.eqb a b = true <-> a = b.
Proof. apply String.eqb_eq. Qed.

Lemma str_inj a b : str a = str b -> a = b.
Proof. rewrite !str_dec. apply dec_inj. Qed.
Lemma spf_inj a b : String.append "SPF" (str a) = String.append "SPF" (str b) -> a = b.
Proof. cbn [String.append]. intros E. injection E as E. apply str_inj. exact E. Qed.
Lemma spf_str a b : str b <> String.append "SPF" (str a).
Proof. rewrite str_dec. apply dec_digits. cbn [String.append NilEmpty.uint_of_string]. destruct (NilEmpty.uint_of_string (str a)); reflexivity. Qed.
Lemma root_str b : str b <> "root"%string.
Proof. rewrite str_dec. apply dec_digits. reflexivity. Qed.

(** The graph of names. *)
Lemma graph_ok m nb fuel : 0 < m -> 2 <= nb -> m <= fuel ->
  exists g r ht, huffman_tree String.eqb Nat.add 0 Nat.leb (map str (seq 0 m)) (rev (seq 0 m)) (fun i => String.append "SPF" (str i)) nb fuel = Ok (g, r) /\
    degrees 2 nb ht /\ Permutation (tips ht) (map str (seq 0 m)) /\
    let T := SNd "root"%string [SLf (str m); SLf (str (m + 1)); conv ht] in
    Gen_Spec.unfolds (dlookup String.eqb (dset String.eqb g "root"%string [str m; str (m + 1); r])) T /\ NoDup (snames T) /\ length (snames T) <= 2 * m + 2.
Proof.
  intros Hm Hnb Hf. set (on := fun i => String.append "SPF" (str i)).
  destruct (huffman_ok string String.eqb seqb_spec nat Nat.add 0 Nat.leb on nb (map str (seq 0 m)) (rev (seq 0 m)) fuel) as (g & r & ht & Eh & U & Pt & D); auto.
  { destruct m; [lia|discriminate]. } { rewrite rev_length, map_length. reflexivity. }
  { intros i Hi. apply in_map_iff in Hi. destruct Hi as (k & E & _). exact (spf_str i k E). }
  { intros i j. apply spf_inj. } { rewrite map_length, seq_length. auto. }
  exists g, r, ht. split; [exact Eh|]. split; auto. split; auto. cbn zeta.
  assert (Key : forall k v, dlookup String.eqb g k = Some v -> exists j, k = on j).
  { intros k v L. unfold huffman_tree in Eh. destruct (huffman_keys _ _ _ _ _ _ seqb_spec _ _ _ _ _ _ _ _ Eh k v L) as [(v' & L')|H]; auto. discriminate L'. }
  assert (Nr : dlookup String.eqb g "root"%string = None). { destruct (dlookup String.eqb g "root"%string) eqn:E; auto. destruct (Key _ _ E) as (j & Ej). discriminate Ej. }
  assert (Tk : forall x, In x (tips ht) -> exists k, x = str k /\ k < m).
  { intros x Hx. apply (Permutation_in x Pt) in Hx. apply in_map_iff in Hx. destruct Hx as (k & <- & Hk). apply in_seq in Hk. exists k. split; auto. lia. }
  assert (Nk : forall x, In x (nnames ht) -> (exists k, x = str k /\ k < m) \/ exists j, x = on j).
  { intros x Hx. destruct (nnames_split _ _ _ _ _ U Hx) as [H|(v & H)]; [left; auto|right; eauto]. }
  set (v := [str m; str (m + 1); r]). set (G := dlookup String.eqb (dset String.eqb g "root"%string v)).
  assert (U' : Tools_Spec.unfolds G r ht). { apply unfolds_dset; auto; [exact seqb_spec|]. intros x Hx Ex. destruct (Tk x Hx) as (k & Ek & _). rewrite Ek in Ex. exact (root_str k Ex). }
  destruct (conv_unfolds G ht r U') as (Es & Uc).
  assert (Ng : forall k, G (str k) = None). { intros k. unfold G. rewrite (dlookup_dset_neq _ _ seqb_spec) by apply root_str. destruct (dlookup String.eqb g (str k)) eqn:E; auto. destruct (Key _ _ E) as (j & Ej). exfalso. exact (spf_str j k Ej). }
  split; [|split].
  - constructor.
    + unfold G. rewrite (dlookup_dset_eq _ _ seqb_spec). cbn [map sname]. rewrite Es. reflexivity.
    + constructor; [constructor; auto|]. constructor; [constructor; auto|]. constructor; auto.
  - cbn [snames flat_map app]. rewrite app_nil_r, conv_names. assert (Nm : forall j, m <= j -> ~ In (str j) (nnames ht)).
    { intros j Hj H. destruct (Nk _ H) as [(k & E & Hk)|(i & E)]; [apply str_inj in E; lia|exact (spf_str i j E)]. }
    constructor; [|constructor; [|constructor]].
    + intros [H|[H|H]]; [exact (root_str m H)|exact (root_str (m + 1) H)|]. destruct (Nk _ H) as [(k & E & _)|(i & E)]; [symmetry in E; exact (root_str k E)|discriminate E].
    + intros [H|H]; [apply str_inj in H; lia|exact (Nm m (le_n _) H)].
    + apply Nm. lia.
    + eapply nnames_NoDup; eauto. eapply Permutation_NoDup; [symmetry; exact Pt|]. apply FinFun.Injective_map_NoDup; [intros a b; apply str_inj|apply seq_NoDup].
  - cbn [snames flat_map app length]. rewrite app_nil_r, conv_names. pose proof (tips_len _ nb ht D) as L. apply Permutation_length in Pt. rewrite map_length, seq_length in Pt. lia.
Qed.

Lemma tree_template_ok (h : heap) rho pb R nb d fuel : wf rho -> shape rho = [d; d] -> 0 < d -> 0 < length pb -> 2 <= nb -> 0 < R -> Forall (fun n => R <= n) pb ->
  2 * length pb + 2 <= fuel ->
  exists h' ks, tensor_tree_template nrm sqrtf inv rank_of fuel h rho pb R nb = Ok (h', length h) /\ (forall n, n < length h -> hget h' n = hget h n) /\
    stands_for h' (length h) rho d (length pb) ks (fun k => if length pb =? 1 then R else nth k pb 0).
Proof.
  intros W E Hd Hl Hnb HR Hp Hf. set (m := length pb). unfold tensor_tree_template, get_n_state. rewrite E, Nat.eqb_refl. cbn [bind].
  assert (exists e : arr, first_unit R = Ok e) as (e & Ee). { unfold first_unit. destruct (Nat.eqb_spec R 0); [lia|eauto]. }
  rewrite Ee. cbn [bind]. replace (forallb (fun i => R <=? i) pb) with true.
  2:{ symmetry. apply forallb_forall. intros x Hx. rewrite Forall_forall in Hp. apply Nat.leb_le. auto. }
  cbn [negb]. fold m. destruct (graph_ok m nb fuel Hl Hnb ltac:(unfold m; lia)) as (g & r & ht & Eh & Dg & Pt & U & ND & Ls). rewrite Eh. cbn [bind].
  set (T := SNd "root"%string [SLf (str m); SLf (str (m + 1)); conv ht]) in *. set (G := dlookup String.eqb (dset String.eqb g "root"%string [str m; str (m + 1); r])) in *.
  destruct (generate_ok K G fuel h "root"%string _ U ND) as (h0 & t & Eg & Tt & Re & L0 & O0 & I0).
  { fold T. pose proof (skeys_le T). lia. }
  rewrite Eg. cbn [bind]. fold T in Re, L0. set (o := outer rho e). set (h1 := modify h0 (length h) (put_arr (Some o))).
  assert (Lh : length h < length h0) by (rewrite L0; unfold T; cbn [snames length]; lia).
  assert (S01 : same_tree K h0 h1).
  { split; [apply length_modify|]. intros x. unfold h1. destruct (Nat.eq_dec x (length h)) as [->|Nx]; [rewrite hget_modify_eq by auto; cbn [put_arr oleaf oacc oaxis oname]; auto|rewrite hget_modify_neq by auto; auto]. }
  pose proof (realises_names _ _ _ _ _ Re) as En. pose proof (names_NoDup _ _ _ _ En ND) as NI. pose proof (realises_hangs _ _ _ _ _ Re) as Hh0. cbn [option_map] in Hh0.
  assert (Hh1 : hangs h1 None t). { apply (hangs_on K h0 h1); auto. intros n _. destruct (proj2 S01 n) as (A1 & A2 & _). auto. }
  assert (Hgt : height t <= fuel). { pose proof (size_height t). apply (f_equal (@List.length _)) in En. rewrite !map_length in En. lia. }
  assert (Ax : oaxis (hget h1 (length h)) = None). { destruct (proj2 S01 (length h)) as (_ & _ & -> & _). rewrite <- Tt. inversion Re as [|? ? ? ? ? Eo _ _ _]; subst. cbn [top]. rewrite Eo. reflexivity. }
  rewrite Ax. pose proof (linkage_hangs K h1 t None fuel true Hh1 Hgt) as El. rewrite Tt in El. cbn [option_map] in El. rewrite El. cbn [bind].
  (* the shape of the tree *)
  inversion Re as [|? rt ? ? ks Eo Ki Kj F]; subst. cbn [top] in Tt. subst rt.
  inversion F as [|? k0 ? ks0 F0 F0']; subst. inversion F0' as [|? k1 ? ks1 F1 F1']; subst. inversion F1' as [|? k2 ? ks2 F2 F2']; subst. inversion F2'; subst. clear F F0' F1' F2'.
  destruct k0 as [[i0 t0] j0], k1 as [[i1 t1] j1], k2 as [[i2 sub] j2]. cbn [k_i k_t k_j fst snd up_links length map seq] in *. injection Ki as -> -> ->.
  pose proof (Forall_inv Kj) as J0. pose proof (Forall_inv (Forall_inv_tail Kj)) as J1. pose proof (Forall_inv (Forall_inv_tail (Forall_inv_tail Kj))) as J2. cbn [k_j snd] in J0, J1, J2. subst j0 j1 j2. clear Kj.
  inversion F0 as [? la ? Ela|]; subst. inversion F1 as [? lb ? Elb|]; subst. clear F0 F1.
  set (r0 := length h) in *. set (t := Nd r0 [(0, Lf la, 0); (1, Lf lb, 0); (2, sub, 0)]) in *.
  assert (Sub : forall n, In n (ids sub) -> In n (ids t)). { intros n Hn. unfold t. cbn [ids flat_map k_t fst snd app]. rewrite app_nil_r. right; right; right; auto. }
  assert (Ni : NoDup (r0 :: la :: lb :: ids sub)). { unfold t in NI. cbn [ids flat_map k_t fst snd app] in NI. rewrite app_nil_r in NI. exact NI. }
  apply NoDup_cons_iff in Ni. destruct Ni as (Nr & Ni). pose proof Ni as Nab. apply NoDup_cons_iff in Ni. destruct Ni as (Na & Ni). apply NoDup_cons_iff in Ni. destruct Ni as (Nb & Ns).
  assert (H10 : forall n, n <> r0 -> hget h1 n = hget h0 n) by (intros n Hn; apply hget_modify_neq; auto).
  assert (Rs : realises h1 (Some (r0, 2)) (conv ht) sub).
  { eapply realises_ext; [exact F2|]. intros x Hx. apply H10. intros ->. apply Nr. right; right; auto. }
  destruct (Permutation_map_inv _ _ Pt) as (ks & Etips & Pk).
  pose proof (realises_tips _ _ _ _ Rs) as Etn. rewrite conv_tips, Etips in Etn.
  assert (Kb : forall n, In n (lids sub) -> exists k, oname (hget h1 n) = Some (str k) /\ k < m).
  { intros n Hn. apply (in_map (fun n => oname (hget h1 n))) in Hn. rewrite Etn in Hn. rewrite map_map in Hn. apply in_map_iff in Hn. destruct Hn as (k & Ek & Hk). exists k. split; auto.
    apply (Permutation_in k (Permutation_sym Pk)) in Hk. apply in_seq in Hk. lia. }
  set (lr := pb ++ [d; d]). assert (Llr : length lr = m + 2) by (unfold lr; rewrite app_length; reflexivity).
  assert (Ela1 : hget h1 la = mkObj (Some (str m)) true None None None false [(0, (r0, 0))] []). { rewrite H10; auto. intros ->. apply Nr. left; auto. }
  assert (Elb1 : hget h1 lb = mkObj (Some (str (m + 1))) true None None None false [(0, (r0, 1))] []). { rewrite H10; auto. intros ->. apply Nr. right; left; auto. }
  assert (Er1 : hget h1 r0 = mkObj (Some "root"%string) false (Some o) None None false [(0, (la, 0)); (1, (lb, 0)); (2, (top sub, 0))] []).
  { unfold h1. rewrite hget_modify_eq by auto. rewrite Eo. reflexivity. }
  assert (Hs1 : hangs h1 (Some (0, (r0, 2))) sub) by exact (realises_hangs _ _ _ _ _ Rs).
  assert (Lfs : forall n, In n (ids sub) -> oleaf (hget h1 n) = true -> In n (lids sub)).
  { clear -Hs1. revert Hs1. generalize (Some (0, (r0, 2))). induction sub as [n|n ks IH] using tree_ind'; intros up Hh z Hz Lz.
    - destruct Hz as [<-|[]]. left; auto.
    - destruct Hz as [<-|Hz]; [pose proof (hangs_leafness _ _ _ _ Hh) as Q; cbn [top inner negb] in Q; congruence|]. apply in_flat_map in Hz. destruct Hz as (k & Hk & Hz).
      destruct (hangs_kids _ _ _ _ _ Hh) as (_ & Fh & _). rewrite Forall_forall in Fh, IH. cbn [lids]. apply in_flat_map. exists k. split; auto. eapply IH; eauto. }
  rewrite (bond_dict_ok h1 lr R (edges t)).
  2:{ intros [[[a i] c] j] He Lc. cbn [fst snd] in *. rewrite Llr. unfold t in He. cbn [edges flat_map k_t k_i k_j fst snd app top] in He. rewrite app_nil_r in He.
      destruct He as [He|[He|[He|He]]].
      - injection He as <- <- <- <-. exists m. rewrite Ela1. split; [reflexivity|lia].
      - injection He as <- <- <- <-. exists (m + 1). rewrite Elb1. split; [reflexivity|lia].
      - injection He as <- <- <- <-. destruct (Kb (top sub)) as (k & Ek & Hk); [|exists k; split; auto; lia]. apply Lfs; auto. destruct sub; left; auto.
      - apply edges_in in He. destruct (Kb c) as (k & Ek & Hk); [apply Lfs; tauto|exists k; split; auto; lia]. }
  cbn [bind]. set (bonds := rev (map (fun e => (e, bond h1 lr R e)) (edges t))).
  assert (Bg : forall x, In x (edges t) -> bget bonds x = Ok (bond h1 lr R x)) by (intros x Hx; apply bget_bond; auto).
  set (D := fun n => name_dim lr (oname (hget h1 n))).
  assert (Dk : forall n k, oname (hget h1 n) = Some (str k) -> k < m -> D n = nth k pb 0).
  { intros n k En' Hk. unfold D, name_dim. rewrite En', int_of_str. unfold lr. apply app_nth1. exact Hk. }
  assert (Rt : ready_tree h1 lr R bonds (r0, 2) (conv ht) sub).
  { split; auto. split; [eapply conv_two; eauto|]. split. { intros n Hn. unfold h1. rewrite length_modify. apply I0. apply Sub. auto. }
    split. { intros n Hn. destruct (Kb n Hn) as (k & Ek & Hk). fold (D n). rewrite (Dk n k Ek Hk). rewrite Forall_forall in Hp. apply Hp. apply nth_In. exact Hk. }
    cbn [fst snd]. split.
    - rewrite Bg. { f_equal. eapply bond_dimt; eauto. } unfold t. cbn [edges flat_map k_t k_i k_j fst snd app top]. right; right; left; auto.
    - intros x Hx. apply Bg. unfold t. cbn [edges flat_map k_t k_i k_j fst snd app top]. right; right; right. rewrite app_nil_r. auto. }
  unfold autocomplete. rewrite Ax. pose proof (visitor_hangs K h1 t None fuel false Hh1 Hgt) as Ev. cbn [option_map] in Ev. change (top t) with r0 in Ev. rewrite Ev. cbn [bind].
  assert (Nid : nids t = r0 :: nids sub). { unfold t. cbn [nids flat_map k_t fst snd app]. rewrite app_nil_r. reflexivity. }
  assert (Nsub : forall n, In n (nids sub) -> In n (ids sub)). { clear. intros n. induction sub as [x|x ks IH] using tree_ind'; [intros []|]. intros [<-|H]; [left; auto|right]. apply in_flat_map in H. destruct H as (k & Hk & H). apply in_flat_map. exists k. rewrite Forall_forall in IH. auto. }
  assert (Nn : NoDup (nids t)).
  { rewrite Nid. constructor; [intros H; apply Nr; right; right; auto|]. clear -Ns. induction sub as [x|x ks IH] using tree_ind'; [constructor|]. cbn [ids nids] in *. apply NoDup_cons_iff in Ns. destruct Ns as (N1 & N2). constructor.
    - intros H. apply N1. apply in_flat_map in H. destruct H as (k & Hk & H). apply in_flat_map. exists k. split; auto. clear -H. revert H. induction (k_t k) as [y|y ks' IH'] using tree_ind'; [intros []|]. intros [<-|H]; [left; auto|right]. apply in_flat_map in H. destruct H as (k' & Hk' & H). apply in_flat_map. exists k'. rewrite Forall_forall in IH'. auto.
    - clear N1. induction IH as [|k ks Hk _ IHl]; [constructor|]. cbn [flat_map] in *. apply NoDup_app_iff in N2. destruct N2 as (A1 & A2 & A3). apply NoDup_app_iff. split; auto. split; auto.
      intros z Hz Hz'. apply (A3 z).
      + clear -Hz. revert Hz. induction (k_t k) as [y|y ks' IH'] using tree_ind'; [intros []|]. intros [<-|H]; [left; auto|right]. apply in_flat_map in H. destruct H as (k' & Hk' & H). apply in_flat_map. exists k'. rewrite Forall_forall in IH'. auto.
      + apply in_flat_map in Hz'. destruct Hz' as (k' & Hk' & H). apply in_flat_map. exists k'. split; auto. clear -H. revert H. induction (k_t k') as [y|y ks' IH'] using tree_ind'; [intros []|]. intros [<-|H]; [left; auto|right]. apply in_flat_map in H. destruct H as (k'' & Hk'' & H). apply in_flat_map. exists k''. rewrite Forall_forall in IH'. auto. }
  assert (Arr1 : forall n, In n (ids sub) -> oarr (hget h1 n) = None).
  { clear -Rs. revert Rs. generalize (conv ht) (Some (r0, 2)). induction sub as [x|x ks IH] using tree_ind'; intros T' up Rs n Hn; inversion Rs as [? ? ? Ex|? ? ? ? ? Ex _ _ Fx]; subst.
    - destruct Hn as [<-|[]]. rewrite Ex. reflexivity.
    - destruct Hn as [<-|Hn]; [rewrite Ex; reflexivity|]. apply in_flat_map in Hn. destruct Hn as (k & Hk & Hn). destruct (pick_r _ _ _ _ Fx Hk) as (T1 & _ & RT). rewrite Forall_forall in IH. eapply IH; eauto. }
  destruct (auto_loop_ok K nrm sqrtf inv rank_of unit_norm sqrt0 sqrt1 rank_eye bonds h1 (nids t) h1 Nn) as (h2 & Ea & S12 & O2 & A2).
  { split; auto. }
  { intros n Hn En'. rewrite Nid in Hn. destruct Hn as [<-|Hn]; [rewrite Er1 in En'; discriminate En'|]. destruct (tree_ready h1 lr R bonds HR _ _ _ Rt n Hn) as (ns & Rn). exists 0, R, ns. exact Rn. }
  rewrite Ea. cbn [bind].
  assert (Er2 : hget h2 r0 = hget h1 r0) by (apply O2; right; rewrite Er1; discriminate).
  assert (Gs : good K (array_at h2) D 0 (dimt h1 lr R sub) sub).
  { apply (tree_good h1 lr R bonds HR h2 _ _ _ Rt). intros n ns Hn Rn. apply (A2 n 0 R ns); auto. rewrite Nid. right; auto. }
  assert (Hh2 : hangs h2 None t). { apply (hangs_on K h1 h2); auto. intros n _. destruct (proj2 S12 n) as (B1 & B2 & _). auto. }
  assert (Ar2 : root_arr K (array_at h2 r0) rho d R). { unfold array_at. rewrite Er2, Er1. cbn [oarr]. apply outer_root; auto. }
  assert (Ha2 : forall n, In n (r0 :: nids sub) -> exists a, oarr (hget h2 n) = Some a).
  { intros n [<-|Hn]; [rewrite Er2, Er1; cbn; eauto|]. destruct (tree_ready h1 lr R bonds HR _ _ _ Rt n Hn) as (ns & Rn). destruct (A2 n 0 R ns) as (a & _ & E2); eauto. rewrite Nid; right; auto. }
  assert (Lsub : forall n, In n (lids sub) -> In n (ids sub)). { clear. intros n. induction sub as [x|x ks IH] using tree_ind'; auto. intros H. right. cbn [lids] in H. apply in_flat_map in H. destruct H as (k & Hk & H). apply in_flat_map. exists k. rewrite Forall_forall in IH. auto. }
  assert (Nl : NoDup (la :: lb :: lids sub)).
  { constructor; [intros [H|H]; [apply Na; left; auto|apply Na; right; auto]|]. constructor; [intros H; apply Nb; auto|].
    clear -Etn Etips Pt. eapply (names_NoDup K h1); [exact Etn|]. rewrite <- Etips. eapply Permutation_NoDup; [symmetry; exact Pt|]. apply FinFun.Injective_map_NoDup; [intros a b; apply str_inj|apply seq_NoDup]. }
  (* leaf dimensions: with a single mode the leaf sits on the root *)
  assert (exists D', good K (array_at h2) D' 0 R sub /\ map D' (lids sub) = map (fun k => if m =? 1 then R else nth k pb 0) ks) as (D' & Gd & Ed).
  { destruct sub as [x|x kk].
    - exists (fun _ => R). split; [apply (good_leaf K (array_at h2) (fun _ => R)); auto|]. cbn [lids map] in *. destruct ks as [|k [|]]; try discriminate Etn. cbn [map]. apply Permutation_length in Pk. rewrite seq_length in Pk. cbn in Pk. rewrite Pk. reflexivity.
    - exists D. split; [exact Gs|].
      assert (m <> 1).
      { apply Permutation_length in Pt. rewrite map_length, seq_length in Pt. rewrite <- Pt. inversion Rs; subst. destruct ht as [|? ts]; [discriminate|]. pose proof (tips_len _ nb _ Dg) as L. inversion Dg as [|? ? D1 _ D2]; subst. 
        cbn [nnames length] in L. destruct ts as [|t1 [|t2 ts]]; [cbn in D1; lia|cbn in D1; lia|]. cbn [tips flat_map] in *. rewrite !app_length.
        destruct (tips_pos _ nb t1 (Forall_inv D2)) as (y & Hy). destruct (tips_pos _ nb t2 (Forall_inv (Forall_inv_tail D2))) as (z & Hz). destruct (tips t1); [destruct Hy|]. destruct (tips t2); [destruct Hz|]. cbn [length]. lia. }
      destruct (Nat.eqb_spec m 1) as [|_]; [contradiction|]. unfold D. rewrite <- (map_map (fun n => oname (hget h1 n)) (name_dim lr)), Etn, !map_map. apply map_ext_in. intros k Hk.
      apply (Permutation_in k (Permutation_sym Pk)) in Hk. apply in_seq in Hk. cbn [name_dim]. rewrite int_of_str. unfold lr. apply app_nth1. lia. }
  assert (Ox : oaxis (hget h2 r0) = None) by (rewrite Er2; exact Ax). rewrite Ox. pose proof (visitor_hangs K h2 t None fuel true Hh2 Hgt) as Ev2. cbn [option_map] in Ev2. change (top t) with r0 in Ev2. rewrite Ev2. cbn [bind].
  assert (SF : stands_for h2 r0 rho d m ks (fun k => if m =? 1 then R else nth k pb 0)).
  { apply (stands_root K h2 r0 la lb 0 0 0 sub rho d R m ks _ D'); auto.
    - rewrite (O2 la), Ela1; [reflexivity|]. left. rewrite Nid. intros [H|H]; [apply Nr; left; auto|apply Na; right; auto].
    - rewrite (O2 lb), Elb1; [reflexivity|]. left. rewrite Nid. intros [H|H]; [apply Nr; right; left; auto|apply Nb; auto].
    - rewrite <- (map_map str Some), <- Etn. apply map_ext. intros n. destruct (proj2 S12 n) as (_ & _ & _ & ->). reflexivity.
    - symmetry; auto. }
  assert (Fit : fits (array_at h2) None 0 t).
  { destruct Ar2 as (W2 & Sh2 & _). unfold t. apply fits_node; auto; unfold ndim; rewrite ?Sh2; [repeat constructor; auto|reflexivity|]. cbn [others]. constructor; [constructor; auto|].
    constructor; [constructor; auto|]. constructor; [|constructor]. eapply good_fits; eauto. }
  replace (forM (fun x => check_completness h2 x true) (ids t)) with (Ok tt).
  2:{ symmetry. apply forM_ok. intros x Hx. apply (strict_ok h0 h2 t 0); auto.
      - destruct S01 as (L01 & E01), S12 as (L12 & E12). split; [lia|]. intros y. destruct (E01 y) as (P1 & P2 & P3 & P4), (E12 y) as (Q1 & Q2 & Q3 & Q4). rewrite Q1, Q2, Q3, Q4. auto.
      - rewrite Nid. exact Ha2.
      - intros n Hn. unfold t in Hn. cbn [lids flat_map k_t fst snd app] in Hn. rewrite app_nil_r in Hn. assert (Hnn : ~ In n (nids t)).
        { rewrite Nid. intros Hn'. destruct Hn as [<-|[<-|Hn]]; [destruct Hn' as [H|H]; [apply Nr; left; auto|apply Na; right; auto]|destruct Hn' as [H|H]; [apply Nr; right; left; auto|apply Nb; auto]|].
          destruct Hn' as [<-|H]; [apply Nr; right; right; auto|]. assert (LN : oleaf (hget h1 n) = true /\ oleaf (hget h1 n) = false); [|destruct LN; congruence].
          clear -Hs1 Hn H Ns. revert Hs1 Hn H Ns. generalize (Some (0, (r0, 2))). induction sub as [y|y ks' IH] using tree_ind'; intros up Hh Hn H Ns; [destruct H|].
          cbn [lids nids ids] in *. apply NoDup_cons_iff in Ns. destruct Ns as (N1 & N2). apply in_flat_map in Hn. destruct Hn as (k & Hk & Hn).
          assert (LI : forall (tt : tree) z, In z (lids tt) -> In z (ids tt)). { clear. intros tt z. induction tt as [x|x kk IH] using tree_ind'; auto. intros H. right. cbn [lids] in H. apply in_flat_map in H. destruct H as (k & Hk & H). apply in_flat_map. exists k. rewrite Forall_forall in IH. auto. }
          assert (NI' : forall (tt : tree) z, In z (nids tt) -> In z (ids tt)). { clear. intros tt z. induction tt as [x|x kk IH] using tree_ind'; [intros []|]. intros [<-|H]; [left; auto|right]. apply in_flat_map in H. destruct H as (k & Hk & H). apply in_flat_map. exists k. rewrite Forall_forall in IH. auto. }
          destruct H as [<-|H]; [exfalso; apply N1; apply in_flat_map; exists k; split; auto|]. apply in_flat_map in H. destruct H as (k' & Hk' & H).
          destruct (hangs_kids _ _ _ _ _ Hh) as (_ & Fh & _).
          assert (k_t k' = k_t k). { clear -N2 Hk Hk' Hn H LI NI'. apply LI in Hn. apply NI' in H. revert N2 Hk Hk'. induction ks' as [|q ks' IHq]; intros N2 Hk Hk'; [destruct Hk|]. cbn [flat_map] in N2. apply NoDup_app_iff in N2. destruct N2 as (X1 & X2 & X3).
            destruct Hk as [->|Hk], Hk' as [->|Hk']; auto; exfalso; apply (X3 n); auto; apply in_flat_map; eauto. }
          rewrite Forall_forall in IH, Fh. rewrite H0 in H. eapply (IH k Hk); eauto. clear -N2 Hk. induction ks' as [|q ks' IHq]; [destruct Hk|]. cbn [flat_map] in N2. apply NoDup_app_iff in N2. destruct Hk as [->|Hk]; tauto. }
        rewrite O2 by auto. destruct Hn as [<-|[<-|Hn]]; [rewrite Ela1; reflexivity|rewrite Elb1; reflexivity|]. apply Arr1. apply Lsub. auto.
      - intros y Hy. apply (realises_complete K h0 T t None Re); auto. discriminate. }
  cbn [bind]. exists h2, ks. split; [reflexivity|]. split; auto. intros n Hn. rewrite O2. { rewrite H10 by lia. apply O0. auto. }
  left. intros H. assert (Hi : In n (ids t)). { rewrite Nid in H. destruct H as [<-|H]; [left; auto|apply Sub; auto]. } specialize (I0 n Hi). lia.
Qed.
End T.
