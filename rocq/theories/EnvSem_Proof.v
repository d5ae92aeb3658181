(** Environments compute the dense sums. *)
From Coq Require Import List Arith Bool Lia Permutation.
From Verif Require Import Py Alg ListX NdArray_Model NdArray_Proof Contract_Model Contract_Spec
  Contract_Proof Mode_Proof Net_Model Net_Spec Trav_Proof Acyc_Proof Link_Spec Link_Proof Env_Spec Env_Proof TEnv_Proof.
Import ListNotations.
Local Open Scope nat_scope.

Lemma Forall2_split {A B} (R : A -> B -> Prop) l1 l2 m1 m2 : length l1 = length m1 ->
  Forall2 R (l1 ++ l2) (m1 ++ m2) -> Forall2 R l1 m1 /\ Forall2 R l2 m2.
Proof.
  revert m1; induction l1 as [|x l1 IH]; intros [|y m1] E H; try discriminate; [auto|].
  cbn in H. inversion H; subst. destruct (IH m1) as (H1 & H2); auto.
Qed.

Section Sem.
Variable K : StarRing.
Add Ring Kring2 : (r_theory K).
Implicit Types h : heap K.
Implicit Types A B : id -> arr K.

Lemma fits_pos A ax d t : fits A ax d t -> ax <> None -> 0 < d.
Proof.
  intros H N. inversion H as [|n a0 d0 ks W P X I F]; subst; auto. destruct ax as [a|]; [|congruence].
  destruct X as (Hl & <-). rewrite Forall_forall in P. apply P. apply nth_In. auto.
Qed.

Lemma ldims_eq_len A B ax dA dB t : fits A ax dA t -> fits B ax dB t ->
  length (ldims A ax dA t) = length (ldims B ax dB t).
Proof. intros. rewrite !ldims_length; auto. Qed.

Lemma kids_sem (h : heap K) ua A B ks : forall msA msB,
  Forall (fun k => forall dA dB, fits A (Some (k_j k)) dA (k_t k) -> fits B (Some (k_j k)) dB (k_t k) ->
     (forall n, In n (nids (k_t k)) -> node_ok h ua A B n) ->
     Forall2 (fun l d => leaf_fits h ua l (fst d) (snd d)) (lids (k_t k))
        (combine (ldims A (Some (k_j k)) dA (k_t k)) (ldims B (Some (k_j k)) dB (k_t k))) ->
     exists v, tenv K h ua (Some (k_j k)) (k_t k) = Ok v /\
       env_is K v dA dB (erec K A B (lmat h ua) (Some (k_j k)) (k_t k))) ks ->
  Forall2 (fun k m => fits A (Some (k_j k)) m (k_t k)) ks msA ->
  Forall2 (fun k m => fits B (Some (k_j k)) m (k_t k)) ks msB ->
  (forall n, In n (flat_map (fun k => nids (k_t k)) ks) -> node_ok h ua A B n) ->
  Forall2 (fun l d => leaf_fits h ua l (fst d) (snd d)) (kid_lids ks)
      (combine (gdims K A ks msA) (gdims K B ks msB)) ->
  exists rs, emap (fun k => tenv K h ua (Some (k_j k)) (k_t k)) k_i ks = Ok (combine (map k_i ks) rs) /\
    envs K rs msA msB (map (fun k => erec K A B (lmat h ua) (Some (k_j k)) (k_t k)) ks).
Proof.
  induction ks as [|k ks IH]; intros msA msB H FA FB N L.
  - inversion FA; inversion FB; subst. exists []. split; [reflexivity|constructor].
  - inversion FA as [|? m ? msA' fA FA']; subst. inversion FB as [|? m' ? msB' fB FB']; subst.
    inversion H as [|? ? Hk H']; subst.
    cbn [gdims] in L. unfold kid_lids in L. cbn [flat_map] in L.
    rewrite combine_app' in L by (apply ldims_eq_len; auto).
    apply Forall2_split in L; [|rewrite combine_length, !ldims_length by auto; lia].
    destruct L as (L1 & L2).
    destruct (Hk m m' fA fB) as (v & Ev & Hv); auto.
    { intros n Hn. apply N. cbn [flat_map]. apply in_app_iff; auto. }
    destruct (IH msA' msB') as (rs & Er & Hr); auto.
    { intros n Hn. apply N. cbn [flat_map]. apply in_app_iff; auto. }
    exists (v :: rs). split; [|constructor; auto].
    cbn [emap map combine]. rewrite Ev. cbn [bind]. rewrite Er. reflexivity.
Qed.

Lemma combine_none {X} (ks : list X) (rs : list (option (arr K))) : length ks = length rs ->
  forallb (fun e : X * option (arr K) => is_none (snd e)) (combine ks rs) = forallb (@is_none _) rs.
Proof.
  revert rs; induction ks as [|k ks IH]; intros [|r rs] E; try discriminate; auto. cbn. now rewrite IH by auto.
Qed.

(** What a normalised node contributes. *)
Lemma unit_erec A B M ax n ks rs :
  let fs := map (fun k => erec K A B M (Some (k_j k)) (k_t k)) ks in
  B n = arr_conj (A n) -> envs K rs (others ax (shape (A n))) (others ax (shape (B n))) fs ->
  forallb (@is_none _) rs = true ->
  forall p q, erec K A B M ax (Nd n ks) p q
    = sumL (indices (others ax (shape (A n)))) (fun x => rmul (get (A n) (full ax p x)) (rconj (get (A n) (full ax q x)))).
Proof.
  intros fs EB E N p q. cbn [erec]. fold fs. rewrite EB. change (shape (arr_conj (A n))) with (shape (A n)).
  rewrite EB in E. destruct (none_sum K _ _ _ _ E N) as (_ & G).
  apply sum_indices_ext. intros x Hx.
  rewrite <- get_conj.
  exact (G x (fun y => rmul (get (A n) (full ax p x)) (get (arr_conj (A n)) (full ax q y))) Hx).
Qed.

Lemma tenv_sem (h : heap K) ua A B : forall t ax dA dB, fits A ax dA t -> fits B ax dB t ->
  (forall n, In n (nids t) -> node_ok h ua A B n) ->
  Forall2 (fun l d => leaf_fits h ua l (fst d) (snd d)) (lids t)
    (combine (ldims A ax dA t) (ldims B ax dB t)) ->
  exists v, tenv K h ua ax t = Ok v /\
    match ax with
    | Some _ => env_is K v dA dB (erec K A B (lmat h ua) ax t)
    | None => exists c, v = Some c /\ wf c /\ shape c = [] /\ get c [] = erec K A B (lmat h ua) None t 0 0
    end.
Proof.
  induction t as [n|n ks IH] using tree_ind'; intros ax dA dB FA FB N L.
  - inversion FA as [? j ? Hd|]; subst. exists (leafarr h ua n). split; [reflexivity|].
    cbn [ldims combine lids] in L. inversion L as [|? ? ? ? Hl _]; subst. cbn [fst snd] in Hl.
    cbn [erec]. unfold env_is, lmat, leaf_fits in *. destruct (leafarr h ua n) as [m|].
    + destruct Hl as (W & S). auto.
    + split; auto.
  - pose proof (fits_pos _ _ _ _ FA) as PA0. pose proof (fits_pos _ _ _ _ FB) as PB0.
    inversion FA as [|? ? ? ? WA PA XA IA GA]; subst. inversion FB as [|? ? ? ? WB PB XB IB GB]; subst.
    rewrite !ldims_node in L.
    destruct (kids_sem h ua A B ks (others ax (shape (A n))) (others ax (shape (B n)))) as (rs & Er & Hr); auto.
    { rewrite Forall_forall in IH |- *. intros k Hk dA' dB' F1 F2 N' L'.
      destruct (IH k Hk (Some (k_j k)) dA' dB' F1 F2 N' L') as (v & Ev & Hv). eauto. }
    { intros m Hm. apply N. right. exact Hm. }
    cbn [tenv]. rewrite Er. cbn [bind].
    assert (Lk : length ks = length rs).
    { destruct (envs_len K _ _ _ _ Hr) as (_ & _ & E). rewrite map_length in E. auto. }
    unfold env_body. rewrite combine_none by (rewrite map_length; auto).
    destruct (N n ltac:(left; auto)) as (Ha & Hb). rewrite Ha.
    (* the contraction of the general branch *)
    assert (Gen : exists c, (let! temp := pp_all (A n) (combine (map k_i ks) rs) in
        match (if ua then oaux (hget h n) else Some (arr_conj (A n))) with
        | None => Raise AttributeError
        | Some b => let! x := partial_trace temp ax b ax in Ok (Some x)
        end)%py = Ok (Some c) /\
        match ax with
        | Some _ => env_is K (Some c) dA dB (erec K A B (lmat h ua) ax (Nd n ks))
        | None => wf c /\ shape c = [] /\ get c [] = erec K A B (lmat h ua) None (Nd n ks) 0 0
        end).
    { assert (Xa : match ax with Some i => i < ndim (A n) | None => True end) by (destruct ax; tauto).
      destruct (pp_node K ax (A n) rs _ _ WA Xa Hr) as (temp & Et & Wt & St & Gt).
      rewrite IA, Et. cbn [bind].
      assert (Eb : (if ua then oaux (hget h n) else Some (arr_conj (A n))) = Some (B n)).
      { destruct ua; [auto|]. destruct Hb as (-> & _). reflexivity. }
      rewrite Eb. destruct ax as [a|]; cbn [others full] in *.
      - destruct XA as (XA1 & XA2). destruct XB as (XB1 & XB2).
        specialize (PA0 ltac:(discriminate)). specialize (PB0 ltac:(discriminate)).
        unfold ndim in *.
        assert (La : a <= length (del a (shape (B n)))) by (rewrite length_del by auto; lia).
        assert (Sd : del a (shape temp) = del a (shape (B n))) by (rewrite St; now apply del_ins).
        assert (Sn : nth a (shape temp) 0 = dA) by (rewrite St, nth_ins_eq by auto; auto).
        destruct (partial_trace_ok K temp a (B n) a) as (c & Ec & Wc & Sc & Gc); auto.
        + unfold ndim. rewrite St, length_ins. lia.
        + rewrite Sn. lia.
        + rewrite XB2. lia.
        + exists c. rewrite Ec. cbn [bind]. split; [reflexivity|]. cbn [env_is].
          split; auto. split; [rewrite Sc, Sn, XB2; reflexivity|].
          intros p q Hp Hq. rewrite Gc by (rewrite ?Sn, ?XB2; auto). cbn [erec others full].
          rewrite sumL_swap, Sd. apply sum_indices_ext. intros y Hy.
          rewrite Gt by (auto; intros; rewrite XA2; auto).
          rewrite <- sumL_scal_r. apply sum_indices_ext. intros x Hx. ring.
      - destruct (partial_trace_all_ok K temp (B n)) as (c & Ec & Wc & Sc & Gc); auto.
        exists c. rewrite Ec. cbn [bind]. split; [reflexivity|]. split; auto. split; auto.
        rewrite Gc, St. cbn [erec others full]. rewrite sumL_swap. apply sum_indices_ext. intros y Hy.
        rewrite (Gt 0) by (auto; congruence).
        rewrite <- sumL_scal_r. apply sum_indices_ext. intros x Hx. ring. }
    destruct (negb ua && opt_eqb ax (oaxis (hget h n)) && onorm (hget h n) && forallb (@is_none _) rs) eqn:Sh.
    + cbn [bind]. apply andb_true_iff in Sh. destruct Sh as (Sh & Nn). apply andb_true_iff in Sh. destruct Sh as (Sh & Nr).
      apply andb_true_iff in Sh. destruct Sh as (Nu & Nax). destruct ua; [discriminate|].
      destruct Hb as (Hb & Hu). specialize (Hu Nr).
      assert (Eax : oaxis (hget h n) = ax).
      { destruct ax, (oaxis (hget h n)); cbn in Nax; try discriminate; auto. apply Nat.eqb_eq in Nax. congruence. }
      rewrite Eax in Hu.
      pose proof (unit_erec A B (lmat h false) ax n ks rs Hb Hr Nn) as U.
      eexists. split; [reflexivity|]. destruct ax as [a|]; cbn [env_out].
      * cbn [env_is]. destruct XA as (XA1 & XA2). destruct XB as (XB1 & XB2).
        rewrite Hb in XB2. change (shape (arr_conj (A n))) with (shape (A n)) in XB2.
        assert (dA = dB) by congruence. subst dB. split; auto.
        intros p q Hp Hq. rewrite U. cbn [others full].
        rewrite <- XA2 in Hp, Hq. specialize (Hu q p Hq Hp).
        transitivity (delta (K := K) q p); [|unfold delta; rewrite Nat.eqb_sym; reflexivity].
        rewrite <- Hu. apply sumL_ext. intros x. ring.
      * exists scalar1. split; [reflexivity|]. split; [reflexivity|]. split; [reflexivity|].
        rewrite U. cbn [others full]. rewrite <- Hu. apply sumL_ext. intros x. ring.
    + destruct Gen as (c & Ec & Gc). rewrite Ec. cbn [bind]. eexists. split; [reflexivity|].
      destruct ax as [a|]; cbn [env_out]; auto. exists c. tauto.
Qed.

End Sem.
