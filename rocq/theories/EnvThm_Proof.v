(** From environments to the statements about scalar products and caches. *)
From Coq Require Import List Arith Bool Lia Permutation.
From Verif Require Import Py Alg ListX NdArray_Model NdArray_Proof Contract_Model Contract_Spec
  Contract_Proof Mode_Proof Net_Model Net_Spec Trav_Proof Acyc_Proof Link_Spec Link_Proof Env_Spec Env_Proof
  TEnv_Proof EnvSem_Proof.
Import ListNotations.
Local Open Scope nat_scope.

Section Thm.
Variable K : StarRing.
Add Ring Kring3 : (r_theory K).
Implicit Types h : heap K.
Implicit Types A B : id -> arr K.

Lemma erec_env A B M t ax dA dB p q : fits A ax dA t -> fits B ax dB t -> NoDup (lids t) ->
  (inner t = false -> p < dA /\ q < dB) ->
  erec K A B M ax t p q = env_dense A B M ax dA dB t p q.
Proof. apply erec_dense. Qed.

(** Identity matrices on all leaves. *)
Lemma asg_cons_ne l0 L v0 v l : l <> l0 -> asg (l0 :: L) (v0 :: v) l = asg L v l.
Proof. intros H. unfold asg. cbn [index_of]. replace (l0 =? l) with false by (symmetry; apply Nat.eqb_neq; auto). reflexivity. Qed.
Lemma asg_cons_eq l0 L v0 v : asg (l0 :: L) (v0 :: v) l0 = v0.
Proof. unfold asg. cbn [index_of]. now rewrite Nat.eqb_refl. Qed.

Lemma delta_sum L : forall dims v (g : list nat -> K), NoDup L -> length dims = length L -> in_range v dims ->
  sumL (indices dims) (fun w => rmul (g w) (prodL L (fun l => delta (asg L v l) (asg L w l)))) = g v.
Proof.
  induction L as [|l L IH]; intros dims v g D E Hv.
  - destruct dims; [|discriminate]. inversion Hv; subst. rewrite sum_indices_nil, prodL_nil. ring.
  - destruct dims as [|d dims]; [discriminate|]. inversion Hv as [|p ? v' ? Hp Hv']; subst.
    apply NoDup_cons_iff in D. destruct D as (Nl & D).
    rewrite sum_indices_cons, (sumn_single K d p); auto.
    + rewrite <- (IH dims v' (fun w => g (p :: w)) D ltac:(cbn in E; lia) Hv').
      apply sumL_ext. intros w. rewrite prodL_cons, !asg_cons_eq. unfold delta at 1. rewrite Nat.eqb_refl.
      rewrite (prodL_ext_in K L _ (fun l0 => delta (asg L v' l0) (asg L w l0))); [ring|].
      intros x Hx. rewrite !asg_cons_ne by congruence. reflexivity.
    + intros i Hi Hn. apply sumL_zero_in. intros w _. rewrite prodL_cons, !asg_cons_eq. unfold delta at 1.
      replace (p =? i) with false by (symmetry; apply Nat.eqb_neq; auto). ring.
Qed.

Lemma rconj_prod_zprod fs gs x : Forall2 (fun f g : nat -> K => forall v, g v = rconj (f v)) fs gs ->
  zprod gs x = rconj (zprod fs x).
Proof.
  intros H. revert x; induction H as [|f g fs gs E H IH]; intros [|v x]; cbn [zprod]; rewrite ?rconj_1; auto.
  rewrite rconj_mul, E, IH. reflexivity.
Qed.

Lemma amp_conj A s : forall t ax p, amp (fun n => arr_conj (A n)) s ax t p = rconj (amp A s ax t p).
Proof.
  induction t as [n|n ks IH] using tree_ind'; intros ax p.
  - cbn [amp]. unfold delta. destruct (p =? s n); [now rewrite rconj_1|now rewrite rconj_0].
  - cbn [amp]. rewrite rconj_sumL. change (shape (arr_conj (A n))) with (shape (A n)).
    apply sumL_ext. intros x. rewrite rconj_mul, get_conj. f_equal. apply rconj_prod_zprod.
    clear -IH. induction IH as [|k ks Hk _ IHk]; constructor; auto.
Qed.

Lemma fits_conj A : forall t ax d, fits A ax d t -> fits (fun n => arr_conj (A n)) ax d t.
Proof.
  induction t as [n|n ks IH] using tree_ind'; intros ax d H.
  - inversion H; subst. constructor; auto.
  - inversion H as [|? ? ? ? W P X I F]; subst. constructor; auto.
    + now apply wf_conj.
    + cbn. clear -F IH. induction F; constructor; inversion IH; subst; auto.
Qed.

Lemma ldims_conj A : forall t ax d, ldims (fun n => arr_conj (A n)) ax d t = ldims A ax d t.
Proof.
  induction t as [n|n ks IH] using tree_ind'; intros ax d; [reflexivity|].
  rewrite !ldims_node. change (shape (arr_conj (A n))) with (shape (A n)).
  generalize (others ax (shape (A n))) as ms.
  induction IH as [|k ks Hk _ IHk]; intros [|m ms]; cbn [gdims]; auto. now rewrite Hk, IHk.
Qed.

(** Reading the tensors of a network. *)
Lemma hangs_lt h up t : hangs h up t -> forall x, In x (ids t) -> x < length h.
Proof.
  revert up. induction t as [n|n ks IH] using tree_ind'; intros up H x Hx.
  - destruct Hx as [<-|[]]. destruct (Nat.lt_ge_cases n (length h)) as [|Hl]; auto.
    inversion H as [? j p L E| |]; subst. rewrite hget_out in E by auto. discriminate.
  - destruct (hangs_kids _ _ _ _ _ H) as (L & F & _). destruct Hx as [<-|Hx].
    + destruct (Nat.lt_ge_cases n (length h)) as [|Hl]; auto.
      rewrite hget_out in L by auto. discriminate.
    + apply in_flat_map in Hx. destruct Hx as (k & Hk & Hx). rewrite Forall_forall in IH, F. eauto.
Qed.

Lemma filter_leaves h up t : hangs h up t -> filter (fun x => oleaf (hget h x)) (ids t) = lids t.
Proof.
  revert up. induction t as [n|n ks IH] using tree_ind'; intros up H.
  - apply hangs_leafness in H. cbn in H. cbn. now rewrite H.
  - destruct (hangs_kids _ _ _ _ _ H) as (L & F & _). cbn [ids filter lids]. rewrite L.
    clear H L. induction IH as [|k ks Hk _ IHk]; [reflexivity|]. inversion F; subst.
    cbn [flat_map]. rewrite filter_app, IHk by auto. f_equal. eauto.
Qed.

Lemma leaves_ok h t fuel : hangs h None t -> oaxis (hget h (top t)) = None -> height t <= fuel ->
  leaves fuel h (top t) = Ok (lids t).
Proof.
  intros H E Hf. unfold leaves. rewrite E. pose proof (visitor_hangs _ h t None fuel true H Hf) as V.
  cbn [option_map] in V. rewrite V. cbn [bind]. now rewrite (filter_leaves h None t H).
Qed.

Lemma set_all_length (f : obj K -> obj K) l : forall h, length (set_all f h l) = length h.
Proof. induction l as [|x l IH]; intros h; auto. cbn. rewrite IH. apply length_modify. Qed.

Lemma set_all_get (f : obj K -> obj K) l n : (forall o, f (f o) = f o) -> forall h,
  hget (set_all f h l) n = if memb n l && (n <? length h) then f (hget h n) else hget h n.
Proof.
  intros I. induction l as [|x l IH]; intros h; [reflexivity|]. cbn [set_all]. rewrite IH, length_modify.
  destruct (Nat.ltb_spec n (length h)) as [Hl|Hl].
  - rewrite !andb_true_r. unfold memb at 2. cbn [existsb]. fold (memb n l).
    destruct (Nat.eqb_spec n x) as [->|Hn]; cbn [orb].
    + rewrite hget_modify_eq by auto. rewrite I. destruct (memb x l); auto.
    + rewrite hget_modify_neq by auto. reflexivity.
  - rewrite !andb_false_r. destruct (Nat.eq_dec x n) as [->|Hn].
    + now rewrite modify_out.
    + now rewrite hget_modify_neq.
Qed.

Lemma memb_In n l : memb n l = true <-> In n l.
Proof.
  unfold memb. rewrite existsb_exists. split; [intros (x & H & E); apply Nat.eqb_eq in E; congruence|].
  intros H. exists n. split; auto. apply Nat.eqb_refl.
Qed.
Lemma memb_notIn n l : ~ In n l -> memb n l = false.
Proof. intros H. destruct (memb n l) eqn:E; auto. apply memb_In in E. tauto. Qed.

(** Setting [aux] on some tensors keeps the tree. *)
Definition only_aux (f : obj K -> obj K) : Prop :=
  forall o, oleaf (f o) = oleaf o /\ oarr (f o) = oarr o /\ oaxis (f o) = oaxis o /\ onorm (f o) = onorm o
    /\ oacc (f o) = oacc o /\ ocache (f o) = ocache o.

Lemma set_all_fields f l h n : only_aux f -> (forall o, f (f o) = f o) ->
  let o' := hget (set_all f h l) n in let o := hget h n in
  oleaf o' = oleaf o /\ oarr o' = oarr o /\ oaxis o' = oaxis o /\ onorm o' = onorm o
    /\ oacc o' = oacc o /\ ocache o' = ocache o.
Proof.
  intros U I. cbn zeta. rewrite set_all_get by auto.
  destruct (memb n l && (n <? length h)); [apply U|auto 10].
Qed.

Lemma set_all_hangs f l h t up : only_aux f -> (forall o, f (f o) = f o) ->
  hangs h up t -> hangs (set_all f h l) up t.
Proof.
  intros U I. apply hangs_same. intros n. destruct (set_all_fields f l h n U I) as (? & _ & _ & _ & ? & _). auto.
Qed.

Lemma set_all_in f l h n : (forall o, f (f o) = f o) -> In n l -> n < length h ->
  hget (set_all f h l) n = f (hget h n).
Proof.
  intros I H Hl. rewrite set_all_get by auto. apply memb_In in H. rewrite H.
  apply Nat.ltb_lt in Hl. now rewrite Hl.
Qed.
Lemma set_all_notin f l h n : (forall o, f (f o) = f o) -> ~ In n l -> hget (set_all f h l) n = hget h n.
Proof. intros I H. rewrite set_all_get by auto. now rewrite (memb_notIn n l H). Qed.

(** [use_aux]: no cache is read. *)
Lemma partial_env_aux h : forall t up fuel, hangs h up t -> height t <= fuel ->
  forall h0, same_but_cache K h h0 ->
  match tenv K h true (option_map fst up) t with
  | Ok v => partial_env fuel true h0 (top t) (option_map fst up) = Ok (v, h0)
  | Raise e => partial_env fuel true h0 (top t) (option_map fst up) = Raise e
  end.
Proof.
  induction t as [n|n ks IH] using tree_ind'; intros up fuel H Hf h0 S.
  - destruct fuel as [|fuel]; [cbn in Hf; lia|]. cbn [tenv partial_env top].
    pose proof (hangs_leafness _ _ _ _ H) as L. cbn [top inner negb] in L.
    destruct (sbc_fields _ _ _ n S) as (E1 & E2 & E3 & E4 & E5 & E6). now rewrite E1, L, E3.
  - destruct fuel as [|fuel]; [cbn in Hf; lia|]. cbn [top].
    destruct (hangs_kids _ _ _ _ _ H) as (L & F & _).
    destruct (sbc_fields _ _ _ n S) as (E1 & E2 & E3 & E4 & E5 & E6).
    assert (H0 : hangs h0 up (Nd n ks)).
    { eapply hangs_same; [|exact H]. intros x. destruct (sbc_fields _ _ _ x S) as (? & _ & _ & _ & _ & ?). auto. }
    set (ax := option_map fst up) in *.
    cbn [partial_env]. rewrite E1, L.
    replace (match ax with Some k => None | None => None end) with (@None (option (arr K))) by (destruct ax; auto).
    assert (Lc : children h0 n ax true = map kid3 ks).
    { unfold ax. rewrite (children_node _ h0 up n ks true H0). f_equal. apply filter_all. reflexivity. }
    rewrite Lc.
    assert (EL : match emap (fun k => tenv K h true (Some (k_j k)) (k_t k)) k_i ks with
       | Ok es => env_list (fun h c j => partial_env fuel true h c (Some j)) h0 (map kid3 ks) = Ok (es, h0)
       | Raise e => env_list (fun h c j => partial_env fuel true h c (Some j)) h0 (map kid3 ks) = Raise e end).
    { assert (Hh : forall k, In k ks -> height (k_t k) <= fuel).
      { intros k Hk. pose proof (height_kid n ks k Hk). lia. }
      clear -IH F Hh S. induction IH as [|k ks Hk _ IHk]; [reflexivity|]. inversion F; subst.
      cbn [emap map env_list]. unfold kid3 at 1 3.
      specialize (Hk (Some (k_j k, (n, k_i k))) fuel ltac:(auto) ltac:(apply Hh; left; auto) h0 S).
      cbn [option_map fst] in Hk.
      destruct (tenv K h true (Some (k_j k)) (k_t k)) as [v|e]; cbn [bind]; rewrite Hk; cbn [bind]; auto.
      specialize (IHk ltac:(auto) ltac:(intros; apply Hh; right; auto)).
      destruct (emap _ k_i ks) as [es|e]; cbn [bind]; rewrite IHk; reflexivity. }
    assert (T : tenv K h true ax (Nd n ks) =
        (let! env_ := emap (fun k => tenv K h true (Some (k_j k)) (k_t k)) k_i ks in
         let! ans := env_body K true (hget h n) ax env_ in Ok (env_out K ax ans))%py) by reflexivity.
    destruct (emap (fun k => tenv K h true (Some (k_j k)) (k_t k)) k_i ks) as [es|e]; cbn [bind] in T.
    2:{ rewrite T, EL. reflexivity. }
    rewrite EL. cbn [bind].
    change (if negb true && opt_eqb ax (oaxis (hget h0 n)) && onorm (hget h0 n) && forallb (fun e => is_none (snd e)) es
        then Ok None else _) with (env_body K true (hget h0 n) ax es).
    rewrite (env_body_same K true (hget h n)) by auto.
    destruct (env_body K true (hget h n) ax es) as [ans|e]; cbn [bind] in T; rewrite T; [|reflexivity].
    cbn [bind]. destruct ax; reflexivity.
Qed.

Lemma env_at_root h t fuel A B : hangs h None t -> height t <= fuel -> NoDup (lids t) ->
  fits A None 0 t -> fits B None 0 t ->
  (forall n, In n (nids t) -> oarr (hget h n) = Some (A n) /\ oaux (hget h n) = Some (B n)) ->
  Forall2 (fun l d => leaf_fits h true l (fst d) (snd d)) (lids t)
    (combine (ldims A None 0 t) (ldims B None 0 t)) ->
  exists c, partial_env fuel true h (top t) None = Ok (Some c, h) /\ wf c /\ shape c = [] /\
    get c [] = env_dense A B (lmat h true) None 0 0 t 0 0.
Proof.
  intros H Hf ND FA FB N L.
  destruct (tenv_sem K h true A B t None 0 0 FA FB N L) as (v & Ev & c & -> & Wc & Sc & Gc).
  pose proof (partial_env_aux h t None fuel H Hf h (sbc_refl K h)) as P. cbn [option_map] in P. rewrite Ev in P.
  exists c. split; auto. split; auto. split; auto. rewrite Gc. apply erec_env; auto.
  destruct t; [inversion H|discriminate].
Qed.

Lemma aux_none_only : only_aux (put_aux None).
Proof. intros o. auto 10. Qed.
Lemma aux_arr_only : only_aux (fun o => put_aux (oarr o) o).
Proof. intros o. auto 10. Qed.
Lemma conj_aux_only : only_aux (@conj_aux K).
Proof. intros o. auto 10. Qed.

Lemma inner_product_ok h t fuel A B :
  hangs h None t -> no_self_slot h -> oaxis (hget h (top t)) = None -> height t <= fuel ->
  fits A None 0 t -> fits B None 0 t -> ldims A None 0 t = ldims B None 0 t ->
  (forall n, In n (nids t) -> oarr (hget h n) = Some (A n) /\ oaux (hget h n) = Some (B n)) ->
  exists c h', global_inner_product fuel h (top t) = Ok (Some c, h') /\ shape c = [] /\
    get c [] = sumL (indices (ldims A None 0 t)) (fun v => rmul (dense A t v) (dense B t v)).
Proof.
  intros H NS Ax Hf FA FB ED N. pose proof (hangs_nodup _ h t NS H) as ND.
  pose proof (nids_nodup _ h t NS H) as NN. pose proof (lids_nodup _ h t None H NN) as NL.
  unfold global_inner_product. rewrite leaves_ok by auto. cbn [bind].
  assert (Id : forall o : obj K, put_aux None (put_aux None o) = put_aux None o) by (intros []; reflexivity).
  set (h1 := set_all (put_aux None) h (lids t)).
  assert (H1 : hangs h1 None t) by (apply set_all_hangs; auto; apply aux_none_only).
  destruct (env_at_root h1 t fuel A B H1 Hf NL FA FB) as (c & Ec & Wc & Sc & Gc).
  - intros n Hn. unfold h1. rewrite set_all_notin; auto.
    intros Hl. pose proof (nids_inner _ h t None H n Hn). pose proof (lids_leaf _ h t None H n Hl). congruence.
  - rewrite ED. rewrite <- ED at 1. assert (EL : length (ldims A None 0 t) = length (lids t)) by (apply ldims_length; auto).
    rewrite ED in EL |- *. clear -EL H Id. 
    assert (Q : forall l, In l (lids t) -> leafarr h1 true l = None).
    { intros l Hl. unfold leafarr, h1. rewrite set_all_in; auto. eapply hangs_lt; eauto. now apply lids_ids. }
    revert EL Q. generalize (ldims B None 0 t) as ds. generalize (lids t) as ls.
    induction ls as [|l ls IH]; intros [|d ds] EL Q; try discriminate; constructor.
    + unfold leaf_fits. rewrite Q by (left; auto). reflexivity.
    + apply IH; [cbn in EL; lia|]. intros; apply Q; right; auto.
  - exists c, h1. split; auto. split; auto. rewrite Gc. unfold env_dense, dense. rewrite <- ED.
    apply sum_indices_ext. intros v Hv.
    rewrite <- (delta_sum (lids t) (ldims A None 0 t) v (fun w => rmul (amp A (asg (lids t) v) None t 0) (amp B (asg (lids t) w) None t 0))); auto.
    + apply sumL_ext. intros w. f_equal. apply prodL_ext_in. intros l Hl. unfold lmat, leafarr, h1.
      rewrite set_all_in; auto. eapply hangs_lt; eauto. now apply lids_ids.
    + apply ldims_length; auto.
Qed.

Lemma matrix_element_ok h t fuel A B :
  hangs h None t -> no_self_slot h -> oaxis (hget h (top t)) = None -> height t <= fuel ->
  fits A None 0 t -> fits B None 0 t ->
  (forall n, In n (nids t) -> oarr (hget h n) = Some (A n) /\ oaux (hget h n) = Some (B n)) ->
  Forall2 (fun l d => leaf_fits h false l (fst d) (snd d)) (lids t)
    (combine (ldims A None 0 t) (ldims B None 0 t)) ->
  exists c h', matrix_element fuel h (top t) = Ok (Some c, h') /\ shape c = [] /\
    get c [] = sumL (indices (ldims A None 0 t)) (fun v => sumL (indices (ldims B None 0 t)) (fun w =>
      rmul (rmul (dense A t v) (dense B t w))
           (prodL (lids t) (fun l => lmat h false l (asg (lids t) v l) (asg (lids t) w l))))).
Proof.
  intros H NS Ax Hf FA FB N L.
  pose proof (nids_nodup _ h t NS H) as NN. pose proof (lids_nodup _ h t None H NN) as NL.
  unfold matrix_element. rewrite leaves_ok by auto. cbn [bind].
  set (f := fun o : obj K => put_aux (oarr o) o).
  assert (Id : forall o : obj K, f (f o) = f o) by (intros []; reflexivity).
  set (h1 := set_all f h (lids t)).
  assert (H1 : hangs h1 None t) by (apply set_all_hangs; auto; apply aux_arr_only).
  assert (Q : forall l, In l (lids t) -> leafarr h1 true l = leafarr h false l).
  { intros l Hl. unfold leafarr, h1. rewrite set_all_in; auto. eapply hangs_lt; eauto. now apply lids_ids. }
  destruct (env_at_root h1 t fuel A B H1 Hf NL FA FB) as (c & Ec & Wc & Sc & Gc).
  - intros n Hn. unfold h1. rewrite set_all_notin; auto.
    intros Hl. pose proof (nids_inner _ h t None H n Hn). pose proof (lids_leaf _ h t None H n Hl). congruence.
  - revert L Q. generalize (combine (ldims A None 0 t) (ldims B None 0 t)) as ds. generalize (lids t) as ls.
    intros ls ds L. induction L as [|l d ls ds Hl L IH]; intros Q; constructor.
    + unfold leaf_fits in *. rewrite Q by (left; auto). exact Hl.
    + apply IH. intros; apply Q; right; auto.
  - exists c, h1. split; auto. split; auto. rewrite Gc. unfold env_dense, dense.
    apply sumL_ext. intros v. apply sumL_ext. intros w. f_equal. apply prodL_ext_in. intros l Hl.
    unfold lmat. rewrite Q by auto. reflexivity.
Qed.

Lemma conj_aux_heap h t fuel A : hangs h None t -> oaxis (hget h (top t)) = None -> height t <= fuel ->
  (forall n, In n (nids t) -> oarr (hget h n) = Some (A n)) ->
  visitor fuel h (top t) (oaxis (hget h (top t))) false = Ok (nids t) /\
  let h1 := set_all conj_aux h (nids t) in
  hangs h1 None t /\ oaxis (hget h1 (top t)) = None /\
  (forall n, In n (nids t) -> oarr (hget h1 n) = Some (A n) /\ oaux (hget h1 n) = Some (arr_conj (A n))) /\
  (forall l, leafarr h1 false l = leafarr h false l) /\ (no_self_slot h -> no_self_slot h1).
Proof.
  intros H Ax Hf N. split.
  - rewrite Ax. pose proof (visitor_hangs _ h t None fuel false H Hf) as V. exact V.
  - cbn zeta. assert (Id : forall o : obj K, conj_aux (conj_aux o) = conj_aux o) by (intros []; reflexivity).
    split; [apply set_all_hangs; auto; apply conj_aux_only|].
    split; [|split; [|split]].
    + destruct (set_all_fields conj_aux (nids t) h (top t) conj_aux_only Id) as (_ & _ & E & _). congruence.
    + intros n Hn. rewrite set_all_in; auto; [|eapply hangs_lt; eauto; now apply nids_ids].
      cbn. rewrite (N n Hn). auto.
    + intros l. unfold leafarr. destruct (set_all_fields conj_aux (nids t) h l conj_aux_only Id) as (_ & E & _). exact E.
    + intros NS n i. destruct (set_all_fields conj_aux (nids t) h n conj_aux_only Id) as (_ & _ & _ & _ & E & _).
      rewrite E. apply NS.
Qed.

Lemma global_square_ok h t fuel A :
  hangs h None t -> no_self_slot h -> oaxis (hget h (top t)) = None -> height t <= fuel ->
  fits A None 0 t -> (forall n, In n (nids t) -> oarr (hget h n) = Some (A n)) ->
  exists c h', global_square fuel h (top t) = Ok (Some c, h') /\ shape c = [] /\
    get c [] = sumL (indices (ldims A None 0 t)) (fun v => rmul (dense A t v) (rconj (dense A t v))).
Proof.
  intros H NS Ax Hf FA N. destruct (conj_aux_heap h t fuel A H Ax Hf N) as (V & H1 & Ax1 & N1 & _ & NS1).
  unfold global_square. rewrite V. cbn [bind].
  destruct (inner_product_ok _ t fuel A (fun n => arr_conj (A n)) H1 (NS1 NS) Ax1 Hf FA (fits_conj A t None 0 FA)) as (c & h' & E & S & G); auto.
  - now rewrite ldims_conj.
  - exists c, h'. split; auto. split; auto. rewrite G. apply sumL_ext. intros v. unfold dense. now rewrite amp_conj.
Qed.

Lemma expection_ok h t fuel A :
  hangs h None t -> no_self_slot h -> oaxis (hget h (top t)) = None -> height t <= fuel ->
  fits A None 0 t -> (forall n, In n (nids t) -> oarr (hget h n) = Some (A n)) ->
  Forall2 (fun l d => leaf_fits h false l d d) (lids t) (ldims A None 0 t) ->
  exists c h', expection fuel h (top t) = Ok (Some c, h') /\ shape c = [] /\
    get c [] = sumL (indices (ldims A None 0 t)) (fun v => sumL (indices (ldims A None 0 t)) (fun w =>
      rmul (rmul (dense A t v) (rconj (dense A t w)))
           (prodL (lids t) (fun l => lmat h false l (asg (lids t) v l) (asg (lids t) w l))))).
Proof.
  intros H NS Ax Hf FA N L. destruct (conj_aux_heap h t fuel A H Ax Hf N) as (V & H1 & Ax1 & N1 & Q & NS1).
  unfold expection. rewrite V. cbn [bind].
  destruct (matrix_element_ok _ t fuel A (fun n => arr_conj (A n)) H1 (NS1 NS) Ax1 Hf FA (fits_conj A t None 0 FA)) as (c & h' & E & S & G); auto.
  - rewrite ldims_conj. clear -L Q. induction L as [|l d ls ds Hl L IH]; constructor; auto.
    cbn [fst snd]. unfold leaf_fits in *. rewrite Q. exact Hl.
  - exists c, h'. split; auto. split; auto. rewrite G, ldims_conj. apply sumL_ext. intros v. apply sumL_ext. intros w.
    unfold dense. rewrite amp_conj. f_equal. apply prodL_ext_in. intros l _. unfold lmat. now rewrite Q.
Qed.

(** Symmetric matrices on the leaves. *)
Lemma expection_sym A (M : id -> nat -> nat -> K) t :
  (forall l p q, In l (lids t) -> M l p q = M l q p) ->
  sumL (indices (ldims A None 0 t)) (fun v => sumL (indices (ldims A None 0 t)) (fun w =>
      rmul (rmul (dense A t v) (rconj (dense A t w)))
           (prodL (lids t) (fun l => M l (asg (lids t) v l) (asg (lids t) w l)))))
  = sumL (indices (ldims A None 0 t)) (fun v => sumL (indices (ldims A None 0 t)) (fun w =>
      rmul (rmul (rconj (dense A t w)) 
           (prodL (lids t) (fun l => M l (asg (lids t) w l) (asg (lids t) v l)))) (dense A t v))).
Proof.
  intros Sy. apply sumL_ext. intros v. apply sumL_ext. intros w.
  rewrite (prodL_ext_in K (lids t) (fun l => M l (asg (lids t) v l) (asg (lids t) w l))
    (fun l => M l (asg (lids t) w l) (asg (lids t) v l))) by (intros; apply Sy; auto). ring.
Qed.

(** ** Caches *)
Lemma hget_reset h n : hget (reset_all h) n = put_cache [] (hget h n).
Proof. unfold hget, reset_all. change (@no_obj K) with (put_cache [] (@no_obj K)) at 1. apply map_nth. Qed.

Lemma reset_same h : same_but_cache K h (reset_all h).
Proof. split; [apply map_length|]. intros n. rewrite hget_reset. reflexivity. Qed.
Lemma reset_cache_exact h : cache_exact K (reset_all h).
Proof. apply reset_exact. intros n. now rewrite hget_reset. Qed.

(** The tree hanging at a tensor when looking away from one of its links. *)
Lemma hangs_drop h n k1 k k2 : hangs h None (Nd n (k1 ++ k :: k2)) ->
  hangs h (Some (kid_half k)) (Nd n (k1 ++ k2)).
Proof.
  intros H. inversion H as [|? ? L A D F|]; subst. apply hangs_node with (ks := k1) (ks' := k2); auto.
  - rewrite A, map_app. reflexivity.
  - rewrite Forall_forall in F |- *. intros x Hx. apply F. apply in_app_iff in Hx. apply in_app_iff. cbn. tauto.
Qed.

Lemma query_tree h t n i : hangs h None t -> In n (ids t) ->
  (forall k, i = Some k -> exists x, In (k, x) (oacc (hget h n))) ->
  oleaf (hget h n) = true \/
  exists s up, hangs h up s /\ top s = n /\ option_map fst up = i /\ height s <= length (ids t).
Proof.
  intros H Hn Hi.
  destruct (oleaf (hget h n)) eqn:Lf; auto. right.
  assert (Hni : In n (nids t)).
  { eapply Permutation_in in Hn; [|apply ids_split]. apply in_app_iff in Hn. destruct Hn as [|Hn]; auto.
    pose proof (lids_leaf _ h t None H n Hn). congruence. }
  destruct (in_at_depth n t Hni) as (d & Hd). destruct (reroot_any _ h n d t Hd H) as (s & <- & Hs & P).
  destruct i as [k|].
  - destruct (Hi k eq_refl) as (x & Hx). destruct s as [m|m ks].
    { inversion Hs. }
    cbn [top] in *. destruct (hangs_acc _ h _ _ _ Hs) as (_ & _ & Ko & _).
    destruct (Ko _ Hx) as [(k0 & Hk0 & E)|E]; [|discriminate].
    apply in_split in Hk0. destruct Hk0 as (k1 & k2 & ->).
    exists (Nd m (k1 ++ k2)), (Some (kid_half k0)). split; [now apply hangs_drop|].
    split; auto. split; [rewrite <- E; reflexivity|].
    rewrite (Permutation_length P). etransitivity; [apply size_height|]. cbn [ids length].
    rewrite !flat_map_app, !app_length. cbn [flat_map]. rewrite app_length. lia.
  - exists s, None. split; auto. split; auto. split; auto. rewrite (Permutation_length P). apply size_height.
Qed.

Lemma one_query h t fuel n i h0 : hangs h None t -> length (ids t) <= fuel -> In n (ids t) -> 1 <= fuel ->
  (forall k, i = Some k -> exists x, In (k, x) (oacc (hget h n))) ->
  same_but_cache K h h0 -> cache_exact K h0 ->
  match partial_env fuel false (reset_all h) n i with
  | Ok (v, _) => exists h1, partial_env fuel false h0 n i = Ok (v, h1) /\ same_but_cache K h h1 /\ cache_exact K h1
  | Raise e => partial_env fuel false h0 n i = Raise e
  end.
Proof.
  intros H Hf Hn F1 Hi S C.
  destruct (query_tree h t n i H Hn Hi) as [Lf|(s & up & Hs & Et & Ei & Hh)].
  - destruct fuel as [|fuel]; [lia|]. cbn [partial_env].
    destruct (sbc_fields _ _ _ n (reset_same h)) as (E1 & E2 & _). destruct (sbc_fields _ _ _ n S) as (E1' & E2' & _).
    rewrite E1, E1', Lf, E2, E2'. eauto.
  - subst n i.
    pose proof (partial_env_tenv K h false s up fuel h0 Hs ltac:(lia) S C) as P0.
    pose proof (partial_env_tenv K h false s up fuel (reset_all h) Hs ltac:(lia) (reset_same h) (reset_cache_exact h)) as P1.
    destruct (tenv K h false (option_map fst up) s) as [v|e].
    + destruct P1 as (h1 & -> & _). exact P0.
    + now rewrite P1.
Qed.

Lemma queries_ok h t fuel : hangs h None t -> length (ids t) <= fuel -> forall qs,
  (forall n i, In (n, i) qs -> In n (ids t) /\ forall k, i = Some k -> exists x, In (k, x) (oacc (hget h n))) ->
  forall h0, same_but_cache K h h0 -> cache_exact K h0 ->
  match queries fuel h0 qs with Ok (vs, _) => Ok vs | Raise e => Raise e end = fresh fuel h qs.
Proof.
  intros H Hf. assert (F1 : 1 <= fuel) by (destruct (ids_top t) as (l & E); rewrite E in Hf; cbn in Hf; lia).
  induction qs as [|[n i] qs IH]; intros Hq h0 S C; [reflexivity|].
  cbn [queries fresh fst snd]. destruct (Hq n i ltac:(left; auto)) as (Hn & Hi).
  pose proof (one_query h t fuel n i h0 H Hf Hn F1 Hi S C) as Q.
  destruct (partial_env fuel false (reset_all h) n i) as [[v h']|e].
  - destruct Q as (h1 & -> & S1 & C1). specialize (IH ltac:(intros; apply Hq; right; auto) h1 S1 C1).
    destruct (queries fuel h1 qs) as [[vs h2]|e]; rewrite <- IH; reflexivity.
  - now rewrite Q.
Qed.

Lemma queries_fresh h t fuel qs : hangs h None t -> length (ids t) <= fuel ->
  (forall n i, In (n, i) qs -> In n (ids t) /\ forall k, i = Some k -> exists x, In (k, x) (oacc (hget h n))) ->
  match queries fuel (reset_all h) qs with Ok (vs, _) => Ok vs | Raise e => Raise e end = fresh fuel h qs.
Proof.
  intros H Hf Hq. eapply queries_ok; eauto; [apply reset_same|apply reset_cache_exact].
Qed.

Lemma stale_read fuel h n k v a : oleaf (hget h n) = false -> dget (ocache (hget h n)) k = Some v ->
  exists h', partial_env (S fuel) false (modify h n (put_arr (Some a))) n (Some k) = Ok (v, h').
Proof.
  intros L E. assert (Hl : n < length h).
  { destruct (Nat.lt_ge_cases n (length h)); auto. rewrite hget_out in L by auto. discriminate. }
  cbn [partial_env]. rewrite hget_modify_eq by auto. cbn [oleaf ocache put_arr]. rewrite L, E. eauto.
Qed.

(** ** The shortcut *)
Lemma env_stands h t j p fuel A d : hangs h (Some (j, p)) t -> height t <= fuel -> NoDup (lids t) ->
  fits A (Some j) d t ->
  (forall n, In n (nids t) -> oarr (hget h n) = Some (A n) /\
     (onorm (hget h n) = true -> unit_along (A n) (oaxis (hget h n)))) ->
  Forall2 (fun l d => leaf_fits h false l d d) (lids t) (ldims A (Some j) d t) ->
  exists r h', partial_env fuel false (reset_all h) (top t) (Some j) = Ok (r, h') /\
    stands_for r d (env_dense A (fun n => arr_conj (A n)) (lmat h false) (Some j) d d t).
Proof.
  intros H Hf ND FA N L.
  destruct (tenv_sem K h false A (fun n => arr_conj (A n)) t (Some j) d d FA (fits_conj A t (Some j) d FA)) as (v & Ev & Hv).
  - intros n Hn. destruct (N n Hn) as (E & U). split; auto.
  - rewrite ldims_conj. clear -L. induction L as [|l d0 ls ds Hl L IH]; constructor; auto.
  - pose proof (partial_env_tenv K h false t (Some (j, p)) fuel (reset_all h) H Hf (reset_same h) (reset_cache_exact h)) as P.
    cbn [option_map fst] in P. rewrite Ev in P. destruct P as (h' & E & _). exists v, h'. split; auto.
    assert (Q : forall p q, p < d -> q < d -> erec K A (fun n => arr_conj (A n)) (lmat h false) (Some j) t p q
       = env_dense A (fun n => arr_conj (A n)) (lmat h false) (Some j) d d t p q).
    { intros p0 q0 Hp Hq. apply erec_env; auto. now apply fits_conj. }
    unfold env_is, stands_for in *. destruct v as [m|].
    + destruct Hv as (W & S & G). split; auto. split; auto. intros p0 q0 Hp Hq. rewrite <- Q by auto. auto.
    + destruct Hv as (_ & G). intros p0 q0 Hp Hq. rewrite <- Q by auto. auto.
Qed.

Lemma emap_none h : forall ks es, emap (fun k => tenv K h false (Some (k_j k)) (k_t k)) k_i ks = Ok es ->
  forallb (fun e => is_none (snd e)) es = true <->
  Forall (fun k => tenv K h false (Some (k_j k)) (k_t k) = Ok None) ks.
Proof.
  induction ks as [|k ks IH]; intros es E; cbn [emap] in E.
  - inversion E; subst. split; auto.
  - destruct (tenv K h false (Some (k_j k)) (k_t k)) as [v|e] eqn:Ek; [|discriminate]. cbn [bind] in E.
    destruct (emap _ k_i ks) as [es'|e] eqn:Es; [|discriminate]. cbn [bind] in E. inversion E; subst.
    cbn [forallb snd]. rewrite andb_true_iff, (IH es' eq_refl). split.
    + intros (N & F). constructor; auto. destruct v; [discriminate|auto].
    + intros F. inversion F as [|? ? F1 F2]; subst. split; auto. rewrite Ek in F1. inversion F1. reflexivity.
Qed.

Lemma tenv_skips h : forall t j v, tenv K h false (Some j) t = Ok v -> (v = None <-> skips h j t).
Proof.
  induction t as [n|n ks IH] using tree_ind'; intros j v E.
  - cbn in E. inversion E; subst. split; intros H; [constructor; auto|now inversion H].
  - cbn [tenv] in E. destruct (emap (fun k => tenv K h false (Some (k_j k)) (k_t k)) k_i ks) as [es|e] eqn:Es; [|discriminate]. cbn [bind] in E.
    pose proof (emap_none h ks es Es) as EN.
    assert (Hok : Forall (fun k => exists v, tenv K h false (Some (k_j k)) (k_t k) = Ok v) ks).
    { clear -Es. revert es Es. induction ks as [|k ks IHk]; intros es Es; constructor; cbn [emap] in Es.
      - destruct (tenv K h false (Some (k_j k)) (k_t k)) eqn:Q; [eauto|discriminate].
      - destruct (tenv K h false (Some (k_j k)) (k_t k)) eqn:Q; [|discriminate]. cbn [bind] in Es.
        destruct (emap _ k_i ks); [eauto|discriminate]. }
    assert (SK : Forall (fun k => tenv K h false (Some (k_j k)) (k_t k) = Ok None) ks <->
                 Forall (fun k => skips h (k_j k) (k_t k)) ks).
    { rewrite !Forall_forall in *. split; intros F k Hk.
      - eapply (IH k Hk); eauto.
      - destruct (Hok k Hk) as (w & Ew). rewrite Ew. f_equal. eapply (IH k Hk); eauto. }
    rewrite SK in EN. clear SK Hok.
    unfold env_body in E. cbn [negb andb] in E.
    destruct (opt_eqb (Some j) (oaxis (hget h n)) && onorm (hget h n) && forallb (fun e => is_none (snd e)) es) eqn:B.
    + cbn [bind env_out] in E. inversion E; subst. split; auto. intros _.
      apply andb_true_iff in B. destruct B as (B & B3). apply andb_true_iff in B. destruct B as (B1 & B2).
      constructor; auto; [|now apply EN]. destruct (oaxis (hget h n)); cbn in B1; [|discriminate].
      apply Nat.eqb_eq in B1. congruence.
    + assert (Nn : v <> None).
      { destruct (oarr (hget h n)); [|discriminate]. destruct (pp_all _ es); [|discriminate]. cbn [bind] in E.
        destruct (partial_trace _ _ _ _); [|discriminate]. cbn [bind env_out] in E. congruence. }
      split; [tauto|]. intros Sk. exfalso. inversion Sk as [|? ? ? O X F]; subst.
      rewrite X, O in B. cbn [opt_eqb] in B. rewrite Nat.eqb_refl in B. cbn [andb] in B.
      apply EN in F. congruence.
Qed.

Lemma shortcut_iff h t j p fuel r h' : hangs h (Some (j, p)) t -> height t <= fuel ->
  partial_env fuel false (reset_all h) (top t) (Some j) = Ok (r, h') -> (r = None <-> skips h j t).
Proof.
  intros H Hf E.
  pose proof (partial_env_tenv K h false t (Some (j, p)) fuel (reset_all h) H Hf (reset_same h) (reset_cache_exact h)) as P.
  cbn [option_map fst] in P. destruct (tenv K h false (Some j) t) as [v|e] eqn:T; [|congruence].
  destruct P as (h2 & E2 & _). assert (r = v) by congruence. subst. eapply tenv_skips; eauto.
Qed.
End Thm.
