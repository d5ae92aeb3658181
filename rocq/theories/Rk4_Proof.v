(** The derivatives of [eom] when environments and densities are given. *)
From Coq Require Import String List Arith Bool Lia Permutation.
From Verif Require Import Py Alg ListX NdArray_Model NdArray_Proof Contract_Model Contract_Spec Contract_Proof Mode_Proof Net_Model Net_Spec Sweep_Spec Trav_Proof Acyc_Proof Contraction_Proof
  Link_Spec Link_Proof Env_Spec Env_Proof TEnv_Proof EnvSem_Proof EnvThm_Proof Unite_Proof State_Spec State_Proof Cache_Model Cache_Spec Cache_Proof CacheExact_Proof Reroot_Proof Eom_Spec Eom_Proof Direct_Model Direct_Spec
  DirectAlg_Proof DirectSem_Proof DirectGrad_Proof DirectRun_Proof Rk4_Spec Rk4_Model.
Import ListNotations.
Local Open Scope nat_scope.
Local Open Scope list_scope.

Section Pure.
Variable K : StarRing.
Add Ring Kring_rk : (r_theory K).

(** The array [a] holds the values of [f]. *)
Definition carries (sh : list nat) (a : arr K) (f : field K) : Prop :=
  wf a /\ shape a = sh /\ forall x, in_range x sh -> get a x = f x.
Definition square (sh : list nat) (i : nat) (m : option (arr K)) : Prop :=
  match m with None => True | Some m => shape m = [nth i sh 0; nth i sh 0] end.
Definition squares (sh : list nat) (i : nat) (ms : list (option (arr K))) : Prop :=
  forall j m, nth_error ms j = Some m -> i + j < length sh /\ square sh (i + j) m.
Definition agree (sh : list nat) (f g : field K) : Prop := forall x, in_range x sh -> f x = g x.

Lemma carries_self a : wf a -> carries (shape a) a (get a).
Proof. intros W. repeat split; auto. Qed.
Lemma carries_agree sh a f g : carries sh a f -> agree sh f g -> carries sh a g.
Proof. intros (W & Sa & G) E. repeat split; auto. intros x Hx. rewrite G; auto. Qed.
Lemma carries_ext sh a f g : carries sh a f -> carries sh a g -> agree sh f g.
Proof. intros (_ & _ & G) (_ & _ & G') x Hx. rewrite <- G, <- G'; auto. Qed.

Lemma along_agree sh d i m f g : i < length sh -> d = nth i sh 0 -> agree sh f g -> agree sh (along d i m f) (along d i m g).
Proof.
  intros Hi -> E x Hx. destruct m as [m|]; cbn [along]; [|auto]. apply sumn_ext. intros p Hp. rewrite E; auto. apply in_range_upd_same; auto.
Qed.
Lemma along_pp sh a i m f : i < length sh -> square sh i m -> carries sh a f ->
  exists c, partial_product a i m 0 = Ok c /\ carries sh c (along (nth i sh 0) i m f).
Proof.
  intros Hi Sq (W & Sa & G). destruct m as [m|]; cbn [square along] in *; [|exists a; repeat split; auto].
  exists (mode0 a i m). split; [apply (pp_mode0 K a i m (nth i sh 0) (nth i sh 0)); unfold ndim; congruence|].
  assert (Su : ListX.upd i (nth 1 (shape m) 0) (shape a) = sh) by (rewrite Sq, Sa; cbn [nth]; apply ListX.upd_same).
  split; [apply wf_build|]. split; [unfold mode0; cbn [build shape]; exact Su|].
  intros x Hx. rewrite get_mode0 by (rewrite Su; auto). rewrite Sa. apply sumn_ext. intros p Hp. rewrite G; auto. apply in_range_upd_same; auto.
Qed.
Lemma squares_tail sh i m ms : squares sh i (m :: ms) -> squares sh (S i) ms.
Proof. intros Sq j x E. replace (S i + j) with (i + S j) by lia. apply Sq. auto. Qed.
Lemma everywhere_agree sh ms : forall i f g, squares sh i ms -> agree sh f g -> agree sh (everywhere sh i ms f) (everywhere sh i ms g).
Proof.
  induction ms as [|m ms IH]; intros i f g Sq E; cbn [everywhere]; auto. destruct (Sq 0 m eq_refl) as (Hi & _). rewrite Nat.add_0_r in Hi.
  apply IH; [eapply squares_tail; eauto|]. apply along_agree; auto.
Qed.
Lemma everywhere_pp sh ms : forall i a f, squares sh i ms -> carries sh a f ->
  exists c, pp_all a (combine (seq i (length ms)) ms) = Ok c /\ carries sh c (everywhere sh i ms f).
Proof.
  induction ms as [|m ms IH]; intros i a f Sq C; cbn [everywhere length seq combine pp_all]; [eauto|].
  destruct (Sq 0 m eq_refl) as (Hi & Sm). rewrite Nat.add_0_r in Hi, Sm. destruct (along_pp sh a i m f Hi Sm C) as (c & E & C'). rewrite E. cbn [bind].
  apply IH; auto. eapply squares_tail; eauto.
Qed.
Lemma del_ins_len i m (z : list nat) (sh : list nat) : i < length sh -> in_range z (del i sh) -> m < nth i sh 0 -> in_range (ins i m z) sh.
Proof.
  intros Hi Hz Hm. rewrite <- (ins_del i 0 sh Hi). apply Forall2_ins; auto.
Qed.
Lemma beyond_agree sh ax y y' f f' : ax < length sh -> agree sh y y' -> agree sh f f' -> agree sh (beyond sh ax y f) (beyond sh ax y' f').
Proof.
  intros Ha Ey Ef x Hx. unfold beyond. rewrite (Ef x Hx). f_equal. apply sumn_ext. intros q Hq. rewrite Ey by (apply in_range_upd_same; auto). f_equal.
  assert (Hn : nth ax x 0 < nth ax sh 0) by (apply in_range_nth; auto).
  apply sum_indices_ext. intros z Hz. rewrite Ef, Ey by (apply del_ins_len; auto). reflexivity.
Qed.
Lemma slope_agree sh axis ms y y' : squares sh 0 ms -> match axis with None => True | Some (ax, _) => ax < length sh end ->
  agree sh y y' -> agree sh (slope sh axis ms y) (slope sh axis ms y').
Proof.
  intros Sq Ax E. unfold slope. destruct axis as [(ax, inv)|]; [|apply everywhere_agree; auto].
  apply beyond_agree; auto. apply along_agree; auto. apply everywhere_agree; auto.
Qed.
Lemma frozen_agree sh axis mss icoef e0 y y' : Forall (squares sh 0) mss -> match axis with None => True | Some (ax, _) => ax < length sh end ->
  agree sh y y' -> agree sh (frozen icoef e0 sh axis mss y) (frozen icoef e0 sh axis mss y').
Proof.
  intros Sq Ax E x Hx. unfold frozen. f_equal.
  - f_equal. rewrite Forall_forall in Sq. apply sumL_ext_in. intros ms Hm. apply slope_agree; auto.
  - destruct axis; auto. rewrite E; auto.
Qed.
Lemma project_slope sh a ax inv tmp y g : ax < length sh -> nth ax sh 0 <> 0 -> shape inv = [nth ax sh 0; nth ax sh 0] -> carries sh a y -> carries sh tmp g ->
  exists c, project K a ax inv tmp = Ok c /\ carries sh c (beyond sh ax y (along (nth ax sh 0) ax (Some inv) g)).
Proof.
  intros Ha Hd Si Ca Ct. unfold project. destruct (along_pp sh tmp ax (Some inv) g Ha Si Ct) as (t1 & E1 & C1). rewrite E1. cbn [bind].
  pose proof C1 as (W1 & S1 & G1). pose proof Ca as (Wa & Sa & Ga).
  destruct (partial_trace_ok K t1 ax (arr_conj a) ax) as (c & Ec & Wc & Sc & Gc); auto; try (unfold ndim; cbn [arr_conj shape]; congruence); try (apply wf_conj; auto).
  rewrite Ec. cbn [bind]. cbn [arr_conj shape] in Sc. rewrite S1, Sa in Sc.
  rewrite (pp_mode1 K a ax c (nth ax sh 0) (nth ax sh 0)) by (unfold ndim; congruence). cbn [bind].
  assert (Su : ListX.upd ax (nth 0 (shape c) 0) (shape a) = sh) by (rewrite Sc, Sa; cbn [nth]; apply ListX.upd_same).
  rewrite arr_sub_ok; auto; [|apply wf_build|unfold mode1; cbn [build shape]; congruence]. eexists. split; [reflexivity|].
  split; [apply wf_build|]. split; [auto|]. intros x Hx. rewrite get_build by (rewrite S1; auto). unfold beyond. rewrite G1 by auto. f_equal.
  unfold mode1. rewrite get_build by (rewrite Su; auto). rewrite Sa. apply sumn_ext. intros q Hq. rewrite Ga by (apply in_range_upd_same; auto). f_equal.
  assert (Hn : nth ax x 0 < nth ax sh 0) by (apply in_range_nth; auto).
  rewrite Gc by (cbn [arr_conj shape]; rewrite ?S1, ?Sa; auto). rewrite S1. apply sum_indices_ext. intros z Hz.
  rewrite G1 by (apply del_ins_len; auto). rewrite get_conj. rewrite Ga by (apply del_ins_len; auto). reflexivity.
Qed.
End Pure.

(** ** Loops that treat the tensors one by one *)
Lemma over_local {A V} (f : id -> A -> res A) (view : id -> A -> V) (J : A -> Prop) (P : id -> V -> Prop) (Q : id -> V -> V -> Prop) (G : A -> A -> Prop) L :
  (forall a, G a a) -> (forall a b c, G a b -> G b c -> G a c) ->
  (forall t a, In t L -> J a -> P t (view t a) -> exists a', f t a = Ok a' /\ J a' /\ G a a' /\ Q t (view t a) (view t a') /\ forall x, x <> t -> view x a' = view x a) ->
  forall l a, NoDup l -> incl l L -> J a -> (forall t, In t l -> P t (view t a)) ->
  exists a', Direct_Model.over f l a = Ok a' /\ J a' /\ G a a' /\ (forall t, In t l -> Q t (view t a) (view t a')) /\ forall x, ~ In x l -> view x a' = view x a.
Proof.
  intros Gr Gt Step. induction l as [|t l IH]; intros a Nl Hl Ja Pa; cbn [Direct_Model.over]. { exists a. split; auto. split; auto. split; auto. split; auto. intros t []. }
  apply NoDup_cons_iff in Nl. destruct Nl as (Nt & Nl).
  destruct (Step t a (Hl t (or_introl eq_refl)) Ja (Pa t (or_introl eq_refl))) as (b & E & Jb & Gb & Qb & Fb). rewrite E. cbn [bind].
  destruct (IH b Nl) as (c & E' & Jc & Gc & Qc & Fc); auto.
  - intros x Hx. apply Hl. right. auto.
  - intros x Hx. rewrite Fb by congruence. apply Pa. right. auto.
  - exists c. split; auto. split; auto. split; [eauto|]. split.
    + intros x [<-|Hx]; [rewrite Fc by auto; auto|]. rewrite <- (Fb x) by congruence. auto.
    + intros x Hx. rewrite Fc by (intros Z; apply Hx; right; auto). apply Fb. intros ->. apply Hx. left. auto.
Qed.

Section Frozen.
Variable K : StarRing.
Add Ring Kring_rk2 : (r_theory K).
Variable T : Type.
Variable sys : system K T.
Variable fuel : nat.
Variable inv : inverses K.
Variable e : envs K.
Variable r : id.
Variable ks0 : list (nat * tree * nat).
Notation R := (Nd r ks0).
Variable ax : id -> option nat.
Variable sh : id -> list nat.
Variable mss : id -> list (list (option (arr K))).
Variable time : T.
Notation terms := (all_terms K T sys time).

Definition axis_of (t : id) : option (nat * arr K) := match ax t, inv t with Some a, Some m => Some (a, m) | _, _ => None end.

(** The environments of all terms at all axes, and the inverses, are there. *)
Record ready : Prop := {
  rd_len : forall t, In t (nids R) -> length (mss t) = length terms;
  rd_env : forall t n ms, In t (nids R) -> nth_error (mss t) n = Some ms ->
    length ms = length (sh t) /\ squares K (sh t) 0 ms /\ forall j v, nth_error ms j = Some v -> e n t j = Some v;
  rd_inv : forall t a, In t (nids R) -> ax t = Some a -> a < length (sh t) /\ nth a (sh t) 0 <> 0 /\
    exists m, inv t = Some m /\ shape m = [nth a (sh t) 0; nth a (sh t) 0] }.
(** The arrays [Y] are in place. *)
Record placed (h : heap K) (Y : id -> arr K) : Prop := {
  pl_hangs : hangs h None R;
  pl_or : oriented h None R;
  pl_ax : forall t, In t (nids R) -> oaxis (hget h t) = ax t;
  pl_arr : forall t, In t (nids R) -> oarr (hget h t) = Some (Y t);
  pl_sh : forall t, In t (nids R) -> wf (Y t) /\ shape (Y t) = sh t;
  pl_order : forall t, In t (nids R) -> order h t = length (sh t);
  pl_fits : fits Y None 0 R;
  pl_leaf : forall term p, In term terms -> In p term -> oleaf (hget h (fst p)) = true }.
Hypothesis Rd : ready.
Hypothesis ND : NoDup (ids R).
Hypothesis Hf : length (ids R) <= fuel.
Hypothesis Ne : terms <> [].

Lemma apply_frozen n t s : forall ms i tmp, (forall j v, nth_error ms j = Some v -> senv K s n t (i + j) = Some v) ->
  apply_envs K fuel n t false (seq i (length ms)) tmp s = bind (pp_all tmp (combine (seq i (length ms)) ms)) (fun c => Ok (c, s)).
Proof.
  induction ms as [|m ms IH]; intros i tmp Ev; cbn [length seq combine apply_envs pp_all bind]; auto.
  pose proof (Ev 0 m eq_refl) as E0. rewrite Nat.add_0_r in E0. rewrite E0. cbn [bind].
  destruct (partial_product tmp i m 0) as [c|]; cbn [bind]; auto. apply IH. intros j v Hj. replace (S i + j) with (i + S j) by lia. auto.
Qed.

Lemma single_frozen h Y t n ms s : placed h Y -> In t (nids R) -> nth_error (mss t) n = Some ms -> core K h (sheap K s) -> senv K s = e ->
  exists X, single_eom_any K fuel inv t n s = Ok (X, s) /\ carries K (sh t) X (slope (sh t) (axis_of t) ms (get (Y t))).
Proof.
  intros P Ht Em C Ee. destruct (rd_env Rd t n ms Ht Em) as (Lm & Sq & Ev). unfold single_eom_any.
  pose proof C as (_ & Ck). destruct (Ck t) as (_ & _ & Kx & _ & _ & Ka). rewrite Ka, (pl_arr _ _ P t Ht) by (apply (nids_inner K h R None (pl_hangs _ _ P) t Ht)).
  rewrite (core_order K h (sheap K s) t C), (pl_order _ _ P t Ht), <- Lm, apply_frozen by (intros j v Hj; rewrite Ee; auto).
  destruct (pl_sh _ _ P t Ht) as (Wy & Sy).
  assert (Cy : carries K (sh t) (Y t) (get (Y t))) by (rewrite <- Sy; apply carries_self; auto).
  destruct (everywhere_pp K (sh t) ms 0 (Y t) _ Sq Cy) as (g & Eg & Cg). rewrite Eg. cbn [bind]. rewrite Kx, (pl_ax _ _ P t Ht).
  unfold axis_of, slope. destruct (ax t) as [a|] eqn:Ea; [|exists g; auto].
  destruct (rd_inv Rd t a Ht Ea) as (La & Da & m & Emm & Sm). rewrite Emm.
  destruct (project_slope K (sh t) (Y t) a m g _ _ La Da Sm Cy Cg) as (X & EX & CX). rewrite EX. cbn [bind]. eauto.
Qed.

(** The sum over the first [n] terms. *)
Definition part (Y : id -> arr K) (t : id) (n : nat) (v : option (arr K)) : Prop :=
  match n with
  | 0 => v = None
  | _ => exists y, v = Some y /\ carries K (sh t) y (fun x => sumL (firstn n (mss t)) (fun ms => slope (sh t) (axis_of t) ms (get (Y t)) x))
  end.
Definition same (s s' : state K) : Prop := shell K (sheap K s) (sheap K s') /\ senv K s' = senv K s /\ sroot K s' = sroot K s.

Lemma acc_frozen h Y n s : placed h Y -> n < length terms -> core K h (sheap K s) -> senv K s = e ->
  (forall t, In t (nids R) -> part Y t n (oaux (hget (sheap K s) t))) ->
  exists s', Direct_Model.over (accumulate K fuel inv n) (nids R) s = Ok s' /\ same s s' /\
    forall t, In t (nids R) -> part Y t (S n) (oaux (hget (sheap K s') t)).
Proof.
  intros P Hn C Ee Pa.
  destruct (over_local (accumulate K fuel inv n) (fun t s => oaux (hget (sheap K s) t)) (fun s => core K h (sheap K s) /\ senv K s = e)
    (fun t v => part Y t n v) (fun t v v' => part Y t (S n) v') same (nids R)) with (l := nids R) (a := s) as (s' & E & _ & G & Q & _); auto.
  - intros a. split; auto. apply shell_refl.
  - intros a b c (A1 & A2 & A3) (B1 & B2 & B3). split; [eapply shell_trans; eauto|]. split; congruence.
  - clear s C Ee Pa. intros t s Ht (C & Ee) Pt.
    assert (Em : exists ms, nth_error (mss t) n = Some ms).
    { destruct (nth_error (mss t) n) eqn:En; eauto. apply nth_error_None in En. rewrite (rd_len Rd t Ht) in En. lia. }
    destruct Em as (ms & Em). destruct (single_frozen h Y t n ms s P Ht Em C Ee) as (X & EX & CX). unfold accumulate. rewrite EX. cbn [bind].
    assert (Lt : t < length (sheap K s)).
    { destruct C as (-> & _). apply (hangs_lt K h None R (pl_hangs _ _ P)). apply nids_ids. auto. }
    assert (Y' : exists y, match oaux (hget (sheap K s) t) with None => Ok X | Some p => arr_add p X end = Ok y /\ part Y t (S n) (Some y)).
    { destruct n as [|n]; cbn [part] in Pt |- *.
      - rewrite Pt. exists X. split; auto. exists X. split; auto. eapply carries_agree; [exact CX|]. intros x Hx. destruct (mss t); [discriminate|]. injection Em as ->.
        cbn [firstn]. rewrite sumL_cons, sumL_nil. ring.
      - destruct Pt as (p & -> & Cp). pose proof Cp as (Wp & Sp & Gp). pose proof CX as (WX & SX & GX).
        rewrite arr_add_ok by congruence. eexists. split; [reflexivity|]. eexists. split; [reflexivity|]. split; [apply wf_build|]. split; auto.
        intros x Hx. rewrite get_build by (rewrite Sp; auto). rewrite Gp, GX by auto. rewrite (firstn_snoc (mss t) (S n) ms Em), sumL_app, sumL_cons, sumL_nil. ring. }
    destruct Y' as (y & Ey & Py). rewrite Ey. cbn [bind]. eexists. split; [reflexivity|]. cbn [with_heap sheap senv sroot].
    split; [split; auto; eapply core_trans; [exact C|apply shell_core, shell_aux]|].
    split; [split; [apply shell_aux|auto]|]. split; [rewrite hget_modify_eq by auto; exact Py|]. intros x Hx. rewrite hget_modify_neq by auto. auto.
  - apply nids_nodup; auto.
  - apply incl_refl.
  - exists s'. auto.
Qed.

Lemma placed_core h h' Y : placed h Y -> core K h h' -> placed h' Y.
Proof.
  intros P C. pose proof C as (_ & Ck). constructor; try apply P.
  - eapply core_hangs; [exact C|apply P].
  - pose proof (pl_or _ _ P) as O. revert O. generalize (None (A := nat)). generalize R as t. induction t as [n|n kk IH] using tree_ind'; intros up Ot; [constructor|].
    inversion Ot as [|? ? ? Ea Fo]; subst. constructor.
    + destruct (Ck n) as (_ & _ & -> & _). auto.
    + rewrite Forall_forall in IH, Fo |- *. auto.
  - intros t Ht. destruct (Ck t) as (_ & _ & -> & _). apply P. auto.
  - intros t Ht. destruct (Ck t) as (_ & _ & _ & _ & _ & ->); [apply P; auto|]. apply (nids_inner K h R None (pl_hangs _ _ P) t Ht).
  - intros t Ht. rewrite (core_order K h h' t C). apply P. auto.
  - intros term p H1 H2. destruct (Ck (fst p)) as (_ & -> & _). eapply pl_leaf; eauto.
Qed.

Lemma eom_frozen Y icoef e0 s : placed (sheap K s) Y -> sroot K s = r -> senv K s = e ->
  exists s', eom K T sys fuel icoef e0 inv time s = Ok s' /\ core K (sheap K s) (sheap K s') /\ sroot K s' = r /\ senv K s' = e /\
    forall t, In t (nids R) -> exists D, oaux (hget (sheap K s') t) = Some D /\ carries K (sh t) D (frozen icoef e0 (sh t) (axis_of t) (mss t) (get (Y t))).
Proof.
  intros P Er Ee. set (h := sheap K s) in *. unfold eom. rewrite (tensors_run K fuel h r ks0 (pl_hangs _ _ P) Hf (pl_or _ _ P) true s (core_refl K h) Er). cbn [bind].
  set (ha := set_all (put_aux None) (sheap K s) (ids R)). assert (Ca : core K h ha) by (apply shell_core, shell_aux_all).
  unfold term_visitor. cbn [with_heap sheap sroot]. assert (Ha : hangs ha None R) by (eapply core_hangs; [exact Ca|apply P]).
  replace (visitor fuel ha (sroot K s) None true) with (Ok (ids R)).
  2:{ symmetry. rewrite Er. apply (visitor_hangs K ha R None fuel true Ha). pose proof (size_height R). lia. }
  cbn [bind]. set (hr := set_all (reset_obj K) ha (ids R)).
  destruct (each_run K fuel h r ks0 (pl_hangs _ _ P) Hf (fun n s => senv K s = e /\ forall t, In t (nids R) -> part Y t n (oaux (hget (sheap K s) t)))
    (eom_body K fuel inv) terms) with (rest := terms) (n := 0) (s := mkState K hr (sroot K s) (senv K s)) as (s1 & E1 & C1 & _ & R1 & Ee1 & G1); cbn [sheap sroot senv]; auto; try lia.
  - intros n s1 h1 (X1 & X2) Ha1. split; auto. intros t Ht. cbn [with_heap sheap]. rewrite Ha1. auto.
  - intros n term s1 Hn B (X1 & X2). assert (Ln : n < length terms) by (apply nth_error_Some; congruence).
    unfold eom_body. rewrite (tensors_run K fuel h r ks0 (pl_hangs _ _ P) Hf (pl_or _ _ P) false s1 (bs_core _ _ _ _ _ _ B) (bs_root _ _ _ _ _ _ B)). cbn [bind].
    destruct (acc_frozen h Y n s1 P Ln (bs_core _ _ _ _ _ _ B) X1 X2) as (s2 & E2 & (S1 & S2 & S3) & G2). rewrite E2. cbn [bind]. exists s2. split; auto.
    split; [split; [congruence|auto]|]. split; auto. rewrite S3. apply B.
  - apply Forall_forall. intros term Ht. apply forallb_forall. intros p Hp. eapply pl_leaf; eauto.
  - eapply core_trans; [exact Ca|apply core_set_all, kept_reset].
  - apply reset_clean. eauto.
  - split; auto. intros t Ht. cbn [part]. unfold hr. rewrite set_all_get by apply reset_idem.
    assert (Ea : oaux (hget ha t) = None).
    { unfold ha. rewrite set_all_get by reflexivity. pose proof (nids_ids _ _ Ht) as Hi.
      replace (memb t (ids R)) with true by (symmetry; apply memb_In; auto).
      replace (t <? length (sheap K s)) with true; auto. symmetry. apply Nat.ltb_lt. eapply hangs_lt; [|exact Hi]. apply P. }
    assert (Eb : forall o, oaux (reset_obj K o) = oaux o) by (intros o; unfold reset_obj; destruct (oleaf o); auto).
    destruct (_ && _); rewrite ?Eb, Ea; reflexivity.
  - change (with_heap K (with_heap K s ha) hr) with (mkState K hr (sroot K s) (senv K s)). rewrite E1. cbn [bind snd].
    rewrite (tensors_run K fuel h r ks0 (pl_hangs _ _ P) Hf (pl_or _ _ P) false s1 C1 R1). cbn [bind].
    assert (G2 : forall t, In t (nids R) -> exists y, oaux (hget (sheap K s1) t) = Some y /\
       carries K (sh t) y (fun x => sumL (mss t) (fun ms => slope (sh t) (axis_of t) ms (get (Y t)) x))).
    { intros t Ht. specialize (G1 t Ht). unfold part in G1. destruct (length terms) as [|n] eqn:El; [apply length_zero_iff_nil in El; contradiction|].
      destruct G1 as (y & Ey & Cy). exists y. split; auto. rewrite <- El, <- (rd_len Rd t Ht), firstn_all in Cy. exact Cy. }
    destruct (finish_run K h r ks0 Y (pl_hangs _ _ P) (pl_fits _ _ P) (pl_or _ _ P) (pl_arr _ _ P) icoef e0 (nids R) s1 (nids_nodup r ks0 ND) (incl_refl _) C1) as (s2 & E2 & S2 & Ee2 & Er2 & _ & In2).
    { intros t Ht. destruct (G2 t Ht) as (y & Ey & Wy & Sy & _). exists y. destruct (pl_sh _ _ P t Ht) as (_ & ->). auto. }
    exists s2. split; auto. split; [eapply core_trans; [exact C1|apply shell_core; auto]|]. split; [congruence|]. split; [congruence|].
    intros t Ht. destruct (G2 t Ht) as (y & Ey & Wy & Sy & Gy). destruct (In2 t Ht y Ey) as (D & ED & WD & SD & GD). destruct (pl_sh _ _ P t Ht) as (_ & ST). rewrite ST in SD, GD.
    exists D. split; auto. split; auto. split; auto. intros x Hx. rewrite GD, Gy by auto. unfold frozen. f_equal.
    pose proof (axis_root K h r ks0 (pl_or _ _ P) t Ht) as Ar. rewrite (pl_ax _ _ P t Ht) in Ar. unfold axis_of. destruct (Nat.eqb_spec t r) as [->|Nt].
    + rewrite (proj2 Ar eq_refl). reflexivity.
    + destruct (ax t) as [a|] eqn:Ea; [|exfalso; apply Nt; apply Ar; auto]. destruct (rd_inv Rd t a Ht Ea) as (_ & _ & m & -> & _). reflexivity.
Qed.

(** ** The four stages *)
Definition view (t : id) (p : stored K * state K) : option (arr K) * option (arr K) * (option (arr K) * option (arr K) * option (arr K) * option (arr K)) :=
  let '(k, s) := p in (oarr (hget (sheap K s) t), oaux (hget (sheap K s) t), (k 0 t, k 1 t, k 2 t, k 3 t)).
Definition frame (s s' : state K) : Prop := length (sheap K s') = length (sheap K s) /\ senv K s' = senv K s /\ sroot K s' = sroot K s /\
  forall x, oleaf (hget (sheap K s') x) = oleaf (hget (sheap K s) x) /\ oaxis (hget (sheap K s') x) = oaxis (hget (sheap K s) x) /\
    onorm (hget (sheap K s') x) = onorm (hget (sheap K s) x) /\ oacc (hget (sheap K s') x) = oacc (hget (sheap K s) x).
Definition harmless (up : obj K -> obj K) : Prop := forall o, oleaf (up o) = oleaf o /\ oaxis (up o) = oaxis o /\ onorm (up o) = onorm o /\ oacc (up o) = oacc o.

Lemma frame_refl s : frame s s.
Proof. repeat split; auto. Qed.
Lemma frame_trans a b c : frame a b -> frame b c -> frame a c.
Proof.
  intros (A1 & A2 & A3 & A4) (B1 & B2 & B3 & B4). split; [congruence|]. split; [congruence|]. split; [congruence|]. intros x.
  destruct (A4 x) as (P1 & P2 & P3 & P4), (B4 x) as (Q1 & Q2 & Q3 & Q4). repeat split; congruence.
Qed.
Lemma frame_core s s' : core K (sheap K s) (sheap K s') -> senv K s' = senv K s -> sroot K s' = sroot K s -> frame s s'.
Proof. intros (L & C) E1 E2. split; auto. split; auto. split; auto. intros x. destruct (C x) as (_ & P1 & P2 & P3 & P4 & _). auto. Qed.

Lemma stage_run f (Pre Post : id -> option (arr K) * option (arr K) * (option (arr K) * option (arr K) * option (arr K) * option (arr K)) -> Prop) :
  (forall t k s, In t (nids R) -> t < length (sheap K s) -> Pre t (view t (k, s)) ->
     exists k' up, f t (k, s) = Ok (k', with_heap K s (modify (sheap K s) t up)) /\ harmless up /\
       Post t (view t (k', with_heap K s (modify (sheap K s) t up))) /\ forall x j, x <> t -> k' j x = k j x) ->
  forall k s, (forall t, In t (nids R) -> t < length (sheap K s)) -> (forall t, In t (nids R) -> Pre t (view t (k, s))) ->
  exists k' s', Direct_Model.over f (nids R) (k, s) = Ok (k', s') /\ frame s s' /\ forall t, In t (nids R) -> Post t (view t (k', s')).
Proof.
  intros Step k s Ln Pr.
  destruct (over_local f view (fun p => forall t, In t (nids R) -> t < length (sheap K (snd p))) Pre (fun t _ v => Post t v) (fun p q => frame (snd p) (snd q)) (nids R))
    with (l := nids R) (a := (k, s)) as ((k' & s') & E & _ & G & Q & _); auto.
  - intros a. apply frame_refl.
  - intros a b c. apply frame_trans.
  - clear k s Ln Pr. intros t (k & s) Ht Ln Pr. cbn [snd] in Ln. destruct (Step t k s Ht (Ln t Ht) Pr) as (k' & up & E & Hu & Po & Fr).
    exists (k', with_heap K s (modify (sheap K s) t up)). split; auto. cbn [snd with_heap sheap].
    split; [intros x Hx; rewrite length_modify; auto|]. split.
    + split; [apply length_modify|]. split; auto. split; auto. intros x. cbn [with_heap sheap]. destruct (Nat.eq_dec t x) as [<-|Nx].
      * rewrite hget_modify_eq by auto. apply Hu.
      * rewrite hget_modify_neq by auto. auto.
    + split; auto. intros x Hx. unfold view. cbn [with_heap sheap]. rewrite hget_modify_neq by auto. rewrite !Fr by auto. reflexivity.
  - apply nids_nodup; auto.
  - apply incl_refl.
  - exists k', s'. auto.
Qed.

Lemma placed_moved s s' Y Y' : placed (sheap K s) Y -> frame s s' ->
  (forall t, In t (nids R) -> oarr (hget (sheap K s') t) = Some (Y' t) /\ wf (Y' t) /\ shape (Y' t) = sh t) -> placed (sheap K s') Y'.
Proof.
  intros P (_ & _ & _ & Fr) A. constructor.
  - apply (TEnv_Proof.hangs_same K (sheap K s)); [|apply P]. intros n. destruct (Fr n) as (P1 & _ & _ & P2); auto.
  - pose proof (pl_or _ _ P) as O. revert O. generalize (None (A := nat)). generalize R as t. induction t as [n|n kk IH] using tree_ind'; intros up Ot; [constructor|].
    inversion Ot as [|? ? ? Ea Fo]; subst. constructor.
    + destruct (Fr n) as (_ & -> & _). auto.
    + rewrite Forall_forall in IH, Fo |- *. auto.
  - intros t Ht. destruct (Fr t) as (_ & -> & _). apply P. auto.
  - intros t Ht. apply A. auto.
  - intros t Ht. apply A. auto.
  - intros t Ht. rewrite <- (pl_order _ _ P t Ht). unfold order. destruct (Fr t) as (-> & _ & _ & ->). reflexivity.
  - apply (fits_shapes K Y); [|apply P]. intros n Hn. destruct (A n Hn) as (_ & W & Sn). destruct (pl_sh _ _ P n Hn) as (_ & ->). auto.
  - intros term p H1 H2. destruct (Fr (fst p)) as (-> & _). eapply pl_leaf; eauto.
Qed.

Variables half sixth dt icoef : K.
Variable e0 : option K.
Variable A : id -> arr K.
Notation F t := (frozen icoef e0 (sh t) (axis_of t) (mss t)).
Definition f1 t : field K := F t (get (A t)).
Definition f2 t : field K := F t (plus (get (A t)) (rmul half dt) (f1 t)).
Definition f3 t : field K := F t (plus (get (A t)) (rmul half dt) (f2 t)).
Definition f4 t : field K := F t (plus (get (A t)) dt (f3 t)).
Definition times (c : K) (f : field K) : field K := fun x => rmul c (f x).

Lemma F_agree t y y' : In t (nids R) -> agree K (sh t) y y' -> agree K (sh t) (F t y) (F t y').
Proof.
  intros Ht E. apply frozen_agree; auto.
  - apply Forall_forall. intros ms Hm. apply In_nth_error in Hm. destruct Hm as (n & Hn). apply (rd_env Rd t n ms Ht Hn).
  - unfold axis_of. destruct (ax t) as [a|] eqn:Ea; auto. destruct (rd_inv Rd t a Ht Ea) as (La & _ & m & -> & _). auto.
Qed.
Lemma carries_scale shp c a f : carries K shp a f -> carries K shp (arr_scale c a) (times c f).
Proof. intros (W & Sa & G). split; [apply wf_scale; auto|]. split; auto. intros x Hx. rewrite get_scale, G by auto. reflexivity. Qed.
Lemma carries_add shp a b f g : carries K shp a f -> carries K shp b g -> exists c, arr_add a b = Ok c /\ carries K shp c (fun x => radd (f x) (g x)).
Proof.
  intros (W & Sa & G) (W' & Sb & G'). rewrite arr_add_ok by congruence. eexists. split; [reflexivity|]. split; [apply wf_build|]. split; auto.
  intros x Hx. rewrite get_build by (rewrite Sa; auto). rewrite G, G' by auto. reflexivity.
Qed.
Lemma carries_any shp a f g : carries K shp a f -> (forall x, f x = g x) -> carries K shp a g.
Proof. intros C E. eapply carries_agree; [exact C|]. intros x _. auto. Qed.

Lemma eom_at g s Y : placed (sheap K s) Y -> sroot K s = r -> senv K s = e -> (forall t, In t (nids R) -> carries K (sh t) (Y t) (g t)) ->
  exists s', eom K T sys fuel icoef e0 inv time s = Ok s' /\ core K (sheap K s) (sheap K s') /\ sroot K s' = r /\ senv K s' = e /\ placed (sheap K s') Y /\
    forall t, In t (nids R) -> exists D, oaux (hget (sheap K s') t) = Some D /\ carries K (sh t) D (F t (g t)).
Proof.
  intros P Er Ee C. destruct (eom_frozen Y icoef e0 s P Er Ee) as (s' & E & C' & Er' & Ee' & G). exists s'. do 4 (split; auto). split; [eapply placed_core; eauto|].
  intros t Ht. destruct (G t Ht) as (D & ED & CD). exists D. split; auto. eapply carries_agree; [exact CD|]. apply F_agree; auto.
  intros x Hx. destruct (C t Ht) as (_ & _ & Gt). auto.
Qed.

Definition got (o : option (arr K)) (t : id) (f : field K) : Prop := exists a, o = Some a /\ carries K (sh t) a f.

Lemma picked s (g : id -> field K) : (forall t, In t (nids R) -> got (oarr (hget (sheap K s) t)) t (g t)) ->
  exists Y, forall t, In t (nids R) -> oarr (hget (sheap K s) t) = Some (Y t) /\ carries K (sh t) (Y t) (g t).
Proof.
  intros G. exists (fun t => match oarr (hget (sheap K s) t) with Some y => y | None => mkArr [] [] end). intros t Ht. destruct (G t Ht) as (a & -> & C). auto.
Qed.

Lemma rk4_run s : placed (sheap K s) A -> sroot K s = r -> senv K s = e ->
  exists s1 s', eom K T sys fuel icoef e0 inv time s = Ok s1 /\ rk4_with K fuel half sixth dt (eom K T sys fuel icoef e0 inv time) s = Ok s' /\ frame s s' /\
    (forall t, In t (nids R) -> got (oaux (hget (sheap K s1) t)) t (f1 t)) /\
    forall t, In t (nids R) -> oaux (hget (sheap K s') t) = None /\ got (oarr (hget (sheap K s') t)) t (runge_kutta_4 half sixth dt (F t) (get (A t))).
Proof.
  intros P Er Ee. unfold rk4_with.
  assert (CA : forall t, In t (nids R) -> carries K (sh t) (A t) (get (A t))) by (intros t Ht; destruct (pl_sh _ _ P t Ht) as (W & <-); apply carries_self; auto).
  destruct (eom_at (fun t => get (A t)) s A P Er Ee CA) as (s1 & E1 & C1 & Er1 & Ee1 & P1 & G1). rewrite E1. cbn [bind].
  rewrite (tensors_run K fuel _ r ks0 (pl_hangs _ _ P1) Hf (pl_or _ _ P1) false s1 (core_refl K _) Er1). cbn [bind].
  destruct (stage_run (stage1 K half dt)
    (fun t v => fst (fst v) = Some (A t) /\ got (snd (fst v)) t (f1 t))
    (fun t v => got (fst (fst v)) t (plus (get (A t)) (rmul half dt) (f1 t)) /\ fst (fst (fst (snd v))) = Some (A t) /\ got (snd (fst (fst (snd v)))) t (times dt (f1 t))))
    with (k := nothing K) (s := s1) as (k1 & s2 & E2 & Fr2 & G2).
  { intros t k s2 Ht Lt (Ea & d & Ed & Cd). unfold view in Ea, Ed. cbn [fst snd] in Ea, Ed. unfold stage1. rewrite Ea, Ed.
    destruct (carries_add (sh t) (A t) (arr_scale half (arr_scale dt d)) (get (A t)) (times half (times dt (f1 t)))) as (y & Ey & Cy); auto using carries_scale.
    rewrite Ey. cbn [bind]. eexists _, _. split; [reflexivity|]. split; [intros o; repeat split; auto|]. split.
    - unfold view. cbn [with_heap sheap fst snd]. rewrite hget_modify_eq by auto. cbn [put_arr oarr]. split; [exists y; split; auto|].
      + eapply carries_any; [exact Cy|]. intros x. unfold plus, times. ring.
      + unfold keep. rewrite !Nat.eqb_refl. cbn. split; auto. eexists. split; [reflexivity|apply carries_scale; auto].
    - intros x j Hx. unfold keep. replace (x =? t) with false by (symmetry; apply Nat.eqb_neq; auto). now rewrite !andb_false_r. }
  { intros t Ht. eapply hangs_lt; [apply P1|apply nids_ids; auto]. }
  { intros t Ht. unfold view. cbn [fst snd]. split; [apply P1; auto|]. apply G1. auto. }
  rewrite E2. cbn [bind].
  destruct (picked s2 (fun t => plus (get (A t)) (rmul half dt) (f1 t))) as (Y2 & HY2). { intros t Ht. apply (G2 t Ht). }
  assert (P2 : placed (sheap K s2) Y2) by (apply (placed_moved s1 s2 A Y2 P1 Fr2); intros t Ht; destruct (HY2 t Ht) as (X & W & Sy & _); auto).
  destruct Fr2 as (L2 & Ee2 & Er2 & Fr2). rewrite Er1 in Er2. rewrite Ee1 in Ee2.
  destruct (eom_at (fun t => plus (get (A t)) (rmul half dt) (f1 t)) s2 Y2 P2 Er2 Ee2) as (s3 & E3 & C3 & Er3 & Ee3 & P3 & G3). { intros t Ht. apply HY2. auto. }
  rewrite E3. cbn [bind].
  rewrite (tensors_run K fuel _ r ks0 (pl_hangs _ _ P3) Hf (pl_or _ _ P3) false s3 (core_refl K _) Er3). cbn [bind].
  destruct (stage_run (stage2 K half dt)
    (fun t v => got (snd (fst v)) t (f2 t) /\ fst (fst (fst (snd v))) = Some (A t) /\ got (snd (fst (fst (snd v)))) t (times dt (f1 t)))
    (fun t v => got (fst (fst v)) t (plus (get (A t)) (rmul half dt) (f2 t)) /\ fst (fst (fst (snd v))) = Some (A t) /\ got (snd (fst (fst (snd v)))) t (times dt (f1 t)) /\
       got (snd (fst (snd v))) t (times dt (f2 t))))
    with (k := k1) (s := s3) as (k2 & s4 & E4 & Fr4 & G4).
  { intros t k s4 Ht Lt ((d & Ed & Cd) & Ea & Kk). unfold view in Ea, Ed, Kk. cbn [fst snd] in Ea, Ed, Kk. unfold stage2. rewrite Ea, Ed.
    destruct (carries_add (sh t) (A t) (arr_scale half (arr_scale dt d)) (get (A t)) (times half (times dt (f2 t)))) as (y & Ey & Cy); auto using carries_scale.
    rewrite Ey. cbn [bind]. eexists _, _. split; [reflexivity|]. split; [intros o; repeat split; auto|]. split.
    - unfold view. cbn [with_heap sheap fst snd]. rewrite hget_modify_eq by auto. cbn [put_arr oarr]. split; [exists y; split; auto|].
      + eapply carries_any; [exact Cy|]. intros x. unfold plus, times. ring.
      + unfold keep. rewrite !Nat.eqb_refl. cbn. split; auto. split; auto. eexists. split; [reflexivity|apply carries_scale; auto].
    - intros x j Hx. unfold keep. replace (x =? t) with false by (symmetry; apply Nat.eqb_neq; auto). now rewrite !andb_false_r. }
  { intros t Ht. eapply hangs_lt; [apply P3|apply nids_ids; auto]. }
  { intros t Ht. unfold view. cbn [fst snd]. split; [apply G3; auto|]. apply (G2 t Ht). }
  rewrite E4. cbn [bind].
  destruct (picked s4 (fun t => plus (get (A t)) (rmul half dt) (f2 t))) as (Y4 & HY4). { intros t Ht. apply (G4 t Ht). }
  assert (P4 : placed (sheap K s4) Y4) by (apply (placed_moved s3 s4 Y2 Y4 P3 Fr4); intros t Ht; destruct (HY4 t Ht) as (X & W & Sy & _); auto).
  destruct Fr4 as (L4 & Ee4 & Er4 & Fr4). rewrite Er3 in Er4. rewrite Ee3 in Ee4.
  destruct (eom_at (fun t => plus (get (A t)) (rmul half dt) (f2 t)) s4 Y4 P4 Er4 Ee4) as (s5 & E5 & C5 & Er5 & Ee5 & P5 & G5). { intros t Ht. apply HY4. auto. }
  rewrite E5. cbn [bind].
  rewrite (tensors_run K fuel _ r ks0 (pl_hangs _ _ P5) Hf (pl_or _ _ P5) false s5 (core_refl K _) Er5). cbn [bind].
  destruct (stage_run (stage3 K dt)
    (fun t v => got (snd (fst v)) t (f3 t) /\ fst (fst (fst (snd v))) = Some (A t) /\ got (snd (fst (fst (snd v)))) t (times dt (f1 t)) /\ got (snd (fst (snd v))) t (times dt (f2 t)))
    (fun t v => got (fst (fst v)) t (plus (get (A t)) dt (f3 t)) /\ fst (fst (fst (snd v))) = Some (A t) /\ got (snd (fst (fst (snd v)))) t (times dt (f1 t)) /\
       got (snd (fst (snd v))) t (times dt (f2 t)) /\ got (snd (snd v)) t (times dt (f3 t))))
    with (k := k2) (s := s5) as (k3 & s6 & E6 & Fr6 & G6).
  { intros t k s6 Ht Lt ((d & Ed & Cd) & Ea & Kk). unfold view in Ea, Ed, Kk. cbn [fst snd] in Ea, Ed, Kk. unfold stage3. rewrite Ea, Ed.
    destruct (carries_add (sh t) (A t) (arr_scale dt d) (get (A t)) (times dt (f3 t))) as (y & Ey & Cy); auto using carries_scale.
    rewrite Ey. cbn [bind]. eexists _, _. split; [reflexivity|]. split; [intros o; repeat split; auto|]. split.
    - unfold view. cbn [with_heap sheap fst snd]. rewrite hget_modify_eq by auto. cbn [put_arr oarr]. split; [exists y; split; auto|].
      unfold keep. rewrite !Nat.eqb_refl. cbn. split; auto. split; [apply Kk|]. split; [apply Kk|]. eexists. split; [reflexivity|apply carries_scale; auto].
    - intros x j Hx. unfold keep. replace (x =? t) with false by (symmetry; apply Nat.eqb_neq; auto). now rewrite !andb_false_r. }
  { intros t Ht. eapply hangs_lt; [apply P5|apply nids_ids; auto]. }
  { intros t Ht. unfold view. cbn [fst snd]. split; [apply G5; auto|]. apply (G4 t Ht). }
  rewrite E6. cbn [bind].
  destruct (picked s6 (fun t => plus (get (A t)) dt (f3 t))) as (Y6 & HY6). { intros t Ht. apply (G6 t Ht). }
  assert (P6 : placed (sheap K s6) Y6) by (apply (placed_moved s5 s6 Y4 Y6 P5 Fr6); intros t Ht; destruct (HY6 t Ht) as (X & W & Sy & _); auto).
  destruct Fr6 as (L6 & Ee6 & Er6 & Fr6). rewrite Er5 in Er6. rewrite Ee5 in Ee6.
  destruct (eom_at (fun t => plus (get (A t)) dt (f3 t)) s6 Y6 P6 Er6 Ee6) as (s7 & E7 & C7 & Er7 & Ee7 & P7 & G7). { intros t Ht. apply HY6. auto. }
  rewrite E7. cbn [bind].
  rewrite (tensors_run K fuel _ r ks0 (pl_hangs _ _ P7) Hf (pl_or _ _ P7) false s7 (core_refl K _) Er7). cbn [bind].
  destruct (stage_run (stage4 K sixth dt)
    (fun t v => got (snd (fst v)) t (f4 t) /\ fst (fst (fst (snd v))) = Some (A t) /\ got (snd (fst (fst (snd v)))) t (times dt (f1 t)) /\ got (snd (fst (snd v))) t (times dt (f2 t)) /\
       got (snd (snd v)) t (times dt (f3 t)))
    (fun t v => snd (fst v) = None /\ got (fst (fst v)) t (runge_kutta_4 half sixth dt (F t) (get (A t)))))
    with (k := k3) (s := s7) as (k4 & s8 & E8 & Fr8 & G8).
  { intros t k s8 Ht Lt ((d & Ed & Cd) & Ea & (c1 & K1 & D1) & (c2 & K2 & D2) & (c3 & K3 & D3)). unfold view in *. cbn [fst snd] in *. unfold stage4. rewrite Ea, Ed, K1, K2, K3.
    destruct (carries_add (sh t) c1 (arr_scale (r1 + r1)%S c2) _ _ D1 (carries_scale _ _ _ _ D2)) as (b1 & B1 & H1). rewrite B1. cbn [bind].
    destruct (carries_add (sh t) b1 (arr_scale (r1 + r1)%S c3) _ _ H1 (carries_scale _ _ _ _ D3)) as (b2 & B2 & H2). rewrite B2. cbn [bind].
    destruct (carries_add (sh t) b2 (arr_scale dt d) _ _ H2 (carries_scale _ _ _ _ Cd)) as (b3 & B3 & H3). rewrite B3. cbn [bind].
    destruct (carries_add (sh t) (A t) (arr_scale sixth b3) _ _ (CA t Ht) (carries_scale _ _ _ _ H3)) as (y & Ey & Cy). rewrite Ey. cbn [bind].
    eexists _, _. split; [reflexivity|]. split; [intros o; repeat split; auto|]. split; [|auto].
    cbn [with_heap sheap]. rewrite hget_modify_eq by auto. cbn [put_arr put_aux oarr oaux]. split; auto. exists y. split; auto.
    eapply carries_any; [exact Cy|]. intros x. unfold times, runge_kutta_4. fold (f1 t). fold (f2 t). fold (f3 t). fold (f4 t). ring. }
  { intros t Ht. eapply hangs_lt; [apply P7|apply nids_ids; auto]. }
  { intros t Ht. unfold view. cbn [fst snd]. split; [apply G7; auto|]. apply (G6 t Ht). }
  rewrite E8. cbn [bind snd]. exists s1, s8. split; auto. split; auto. split.
  { eapply frame_trans; [apply (frame_core s s1 C1); congruence|]. eapply frame_trans; [split; [exact L2|split; [congruence|split; [congruence|exact Fr2]]]|].
    eapply frame_trans; [apply (frame_core s2 s3 C3); congruence|]. eapply frame_trans; [split; [exact L4|split; [congruence|split; [congruence|exact Fr4]]]|].
    eapply frame_trans; [apply (frame_core s4 s5 C5); congruence|]. eapply frame_trans; [split; [exact L6|split; [congruence|split; [congruence|exact Fr6]]]|].
    eapply frame_trans; [apply (frame_core s6 s7 C7); congruence|]. exact Fr8. }
  split; [intros t Ht; apply (G1 t Ht)|]. intros t Ht. apply (G8 t Ht).
Qed.
End Frozen.
