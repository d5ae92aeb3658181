(** The network of the initial state for finite temperature. *)
From Coq Require Import String Ascii List Arith Bool Lia Ring.
From Verif Require Import Py Alg ListX NdArray_Model NdArray_Proof Contract_Model Contract_Spec Contract_Proof Net_Model Net_Spec Link_Proof Trav_Proof
  Tri_Model Tri_Spec Tri_Proof Normalize_Model Normalize_Spec Normalize_Proof Template_Model Template_Spec Template_Proof TplAuto_Proof TplTree_Proof PoDvr_Proof
  Ft_Model Ft_Spec Ft_Proof.
From Verif Require Davidson_Model Davidson_Spec Gen_Proof TEnv_Proof Vec_Proof HuffName_Proof.
Import ListNotations.
Local Open Scope nat_scope.
Local Open Scope list_scope.

Section T.
Variable K : StarRing.
Add Ring Kr : (r_theory K).
Notation arr := (arr K).
Notation heap := (heap K).
Variables (nrm : list K -> K) (sqrtf inv : K -> K) (rank_of : arr -> nat) (isqrt : nat -> K) (close : list K -> list K -> bool).
Variable lib : nat -> (list K -> list K) -> @Davidson_Model.library K.
Variables max_cycle max_space : nat.
Variables (h_list : list (list (id * arr))) (f_list : option (list (list (id * (K -> arr))))).
Variable bonds : list (edge * nat).
Notation step me := (ft_step nrm sqrtf inv rank_of isqrt close lib max_cycle max_space h_list f_list bonds me).
Notation loop me := (ft_loop nrm sqrtf inv rank_of isqrt close lib max_cycle max_space h_list f_list bonds me).

(** ** Without entanglement it is [autocomplete] of C41 *)
Lemma axis_modify (h : heap) n m (f : obj K -> obj K) : (forall o, oaxis (f o) = oaxis o) -> oaxis (hget (modify h n f) m) = oaxis (hget h m).
Proof.
  intros F. destruct (Nat.eq_dec m n) as [->|Ne]; [|rewrite hget_modify_neq; auto].
  destruct (Nat.lt_ge_cases n (length h)) as [Lt|Ge]; [rewrite hget_modify_eq; auto|].
  unfold modify, upd. rewrite (proj2 (Nat.ltb_ge _ _)) by auto. reflexivity.
Qed.
Lemma normalize_axis (h h' : heap) n f ns m : normalize nrm sqrtf inv h n f = Ok (ns, h') -> oaxis (hget h' m) = oaxis (hget h m).
Proof.
  unfold normalize. destruct (oarr (hget h n)) as [a|]; [|intros E; injection E as <- <-; reflexivity].
  destruct (_ && _); [intros E; injection E as <- <-; reflexivity|]. destruct (oaxis (hget h n)) as [ax|].
  - destruct (normalize_along nrm inv a ax) as [r|]; cbn [bind]; [|discriminate]. intros E. injection E as <- <-. apply axis_modify. reflexivity.
  - destruct (partial_trace a None (arr_conj a) None) as [r|]; cbn [bind]; [|discriminate]. intros E. injection E as <- <-. rewrite !axis_modify by reflexivity. reflexivity.
Qed.
Lemma step_plain me (h : heap) prev n : me && (length (children h n (oaxis (hget h n)) false) =? 0) = false ->
  step me h prev n = bind (auto_step nrm sqrtf inv rank_of bonds h n) (fun h' => Ok (h', prev)).
Proof.
  intros Hc. unfold ft_step, auto_step. destruct (oarr (hget h n)) as [a|]; [reflexivity|]. rewrite Hc.
  destruct (mapM _ _) as [ns|]; cbn [bind]; [|reflexivity].
  destruct (match oaxis (hget h n) with Some _ => _ | None => _ end) as [np|]; cbn [bind]; [|reflexivity].
  destruct (auto_array _ np ns) as [a|]; cbn [bind]; [|reflexivity]. unfold finish.
  destruct (normalize nrm sqrtf inv (modify h n (put_arr (Some a))) n true) as [[no h']|] eqn:E; cbn [bind fst snd]; [|reflexivity].
  rewrite (normalize_axis _ _ _ _ _ n E), axis_modify by reflexivity.
  destruct (oaxis (hget h n)) as [ax|]; [|reflexivity]. destruct (oarr (hget h' n)) as [b|]; [|reflexivity].
  destruct (partial_trace b (Some ax) (arr_conj b) (Some ax)) as [g|]; cbn [bind]; [|reflexivity]. destruct (_ =? _); reflexivity.
Qed.
Lemma loop_plain l : forall (h : heap) prev, loop false h prev l = auto_loop nrm sqrtf inv rank_of bonds h l.
Proof.
  induction l as [|n l IH]; intros h prev; [reflexivity|]. cbn [ft_loop auto_loop]. rewrite step_plain by reflexivity. destruct (auto_step _ _ _ _ _ h n); cbn [bind fst snd]; auto.
Qed.

(** ** Steps *)
Hypothesis nontrivial : (r1 : K) <> r0.
Hypothesis norm_ok : forall v, ~ (forall x, x < length v -> nth x v r0 = r0) ->
  rmul (nrm v) (inv (nrm v)) = r1 /\ rmul (rmul (rconj (inv (nrm v))) (inv (nrm v))) (cdot v v) = r1.
Hypothesis unit_norm : forall v, cdot v v = r1 -> inv (nrm v) = r1.
Hypothesis sqrt0 : sqrtf r0 = r0.
Hypothesis sqrt1 : sqrtf r1 = r1.
Hypothesis inv1 : inv r1 = r1.
Hypothesis rank_eye : forall d, rank_of (eye d d) = d.
Hypothesis isqrt_real : forall n, rconj (isqrt n) = isqrt n.
Hypothesis isqrt_ok : forall n, 0 < n -> sumn n (fun _ => rmul (isqrt n) (isqrt n)) = r1.
Hypothesis close_refl : forall v, close v v = true.

(** What is left of an object by a step. *)
Definition stepped (h h' : heap) (n : id) (a : arr) : Prop :=
  length h' = length h /\ (forall m, m <> n -> hget h' m = hget h m) /\ oarr (hget h' n) = Some a /\
  oleaf (hget h' n) = oleaf (hget h n) /\ oacc (hget h' n) = oacc (hget h n) /\ oaxis (hget h' n) = oaxis (hget h n) /\ oname (hget h' n) = oname (hget h n).

Definition pair_rows (m p : nat) (c : id) (rows : list (list K)) : Prop :=
  exists mat ws, local_h h_list f_list c = Ok mat /\ found isqrt lib max_cycle max_space m p mat = Ok ws /\ ft_rows m p ws = Ok rows /\
    nth 0 rows [] = vec_i isqrt m /\ free_rows (m * m) rows.

Definition pair_array (a : arr) (p m : nat) : Prop := wf a /\ shape a = [p; m; m] /\
  (forall x y, x < m -> y < m -> get a [0; x; y] = rmul (isqrt m) (delta x y)).

Lemma pair_step (h : heap) prev n m c q rows cs : n < length h -> oarr (hget h n) = None -> oaxis (hget h n) = Some 0 ->
  children h n (Some 0) false = [] -> children h n (Some 0) true = cs -> length cs = 2 -> pick bonds h n prev None cs = Ok (m, c) ->
  dindex (oacc (hget h n)) 0 = Ok q -> forall p, bget bonds (fst q, snd q, n, 0) = Ok p -> 0 < p -> 0 < m -> pair_rows m p c rows ->
  exists h' a, step true h prev n = Ok (h', Some m) /\ stepped h h' n a /\ pair_array a p m.
Proof.
  intros Hn Ea Ex Cn Cc L2 Ep Ed p Eb Hp Hm (mat & ws & El & Ef & Er & E0 & Fr). unfold ft_step. rewrite Ea, Ex, Cn, Cc, L2. cbn [length Nat.eqb andb negb].
  rewrite Ep. cbn [bind]. rewrite Ed. cbn [bind]. rewrite Eb. cbn [bind fst snd]. rewrite El. cbn [bind]. rewrite Ef. cbn [bind]. rewrite Er. cbn [bind].
  pose proof (rows_len K _ _ _ _ Er) as Lr.
  destruct (array_ok K isqrt close close_refl m p rows Lr Hp (proj1 Fr) E0) as (a & Eaa & Wa & Sa & Ga). rewrite Eaa. cbn [bind].
  assert (Nd : 0 < ndim a) by (unfold ndim; rewrite Sa; cbn; lia). assert (Pa : Forall (fun x => 0 < x) (shape a)) by (rewrite Sa; repeat constructor; auto).
  assert (Row : forall x y, x < m -> y < m -> get a [0; x; y] = rmul (isqrt m) (delta x y)).
  { intros x y Hx Hy. rewrite Ga, E0 by auto. rewrite vec_at by nia. destruct (div_mod_at m x y Hy) as (-> & ->). reflexivity. }
  destruct (finish_ok K nrm sqrtf inv rank_of nontrivial norm_ok unit_norm sqrt0 sqrt1 rank_eye h n 0 a Hn Ex Nd Pa) as (b & h' & Ef' & Wb & Sb & _ & H0 & L' & O' & H').
  { rewrite Sa. change (del 0 [p; m; m]) with [m; m]. cbn [nth]. exact (free_along K m p rows a Lr Fr Sa Ga). }
  { rewrite Sa. change (del 0 [p; m; m]) with [m; m]. unfold inner_prod.
    rewrite (sum_indices_ext K _ _ (fun r => rmul (rconj (nth (nth 0 r 0 * m + nth 1 r 0) (vec_i isqrt m) r0)) (nth (nth 0 r 0 * m + nth 1 r 0) (vec_i isqrt m) r0))).
    - rewrite (sum_nn K m (fun x y => rmul (rconj (nth (x * m + y) (vec_i isqrt m) r0)) (nth (x * m + y) (vec_i isqrt m) r0))).
      rewrite <- (sum_square K m m (fun k => rmul (rconj (nth k (vec_i isqrt m) r0)) (nth k (vec_i isqrt m) r0))). apply vec_unit; auto.
    - intros r Hr. inversion Hr as [|x ? r' ? Hx Hr']; subst. inversion Hr' as [|y ? r'' ? Hy Hr'']; subst. inversion Hr''; subst. cbn [nth].
      unfold along, ins. cbn [firstn skipn app]. rewrite Ga, E0 by auto. reflexivity. }
  rewrite Ef'. cbn [bind]. exists h', b. split; [reflexivity|]. split.
  - split; auto. split; auto. rewrite H'. cbn [put_aux put_arr oarr oleaf oacc oaxis oname]. auto.
  - split; auto. split; [congruence|]. intros x y Hx Hy. specialize (H0 [x; y]). unfold along, ins in H0. cbn [firstn skipn app] in H0. rewrite H0; [auto|]. rewrite Sa. repeat constructor; auto.
Qed.

Lemma root_step (h : heap) prev n ns : n < length h -> oarr (hget h n) = None -> oaxis (hget h n) = None -> length (children h n None false) <> 0 ->
  mapM (fun x => bget bonds (n, fst (fst x), snd (fst x), snd x)) (children h n None true) = Ok ns -> 0 < prod ns ->
  exists h' a, step true h prev n = Ok (h', prev) /\ stepped h h' n a /\ auto_array None 1 ns = Ok a.
Proof.
  intros Hn Ea Ex Hc Ec Hp. rewrite step_plain by (rewrite Ex; cbn [andb]; apply Nat.eqb_neq; auto).
  destruct (auto_array_none K 1 ns Hp) as (a & Eaa & Wa & Sa & Ga). unfold auto_step. rewrite Ea, Ex, Ec. cbn [bind]. rewrite Eaa. cbn [bind].
  set (h1 := modify h n (put_arr (Some a))). assert (L1 : length h1 = length h) by apply length_modify.
  assert (H1 : hget h1 n = put_arr (Some a) (hget h n)) by (apply hget_modify_eq; auto).
  unfold normalize. rewrite H1. cbn [oarr put_arr onorm oaxis]. rewrite Ex, andb_false_r.
  destruct (partial_trace_all_ok K a (arr_conj a)) as (c & Et & _ & _ & Gc); auto; [apply wf_conj; auto|]. rewrite Et. cbn [bind fst snd].
  assert (Gone : get c [] = r1).
  { rewrite Gc, Sa. transitivity (sumL (indices ns) (fun x => rmul (delta (ravel ns x) 0) (delta (ravel ns x) 0)) : K).
    - apply sumL_ext_in. intros x Hx. apply in_indices in Hx. rewrite get_conj, Ga by auto. unfold delta. destruct (_ =? _); rewrite ?rconj_1, ?rconj_0; reflexivity.
    - rewrite <- (sumn_ravel_gen K ns (fun k => rmul (delta k 0) (delta k 0))). rewrite (sumn_delta K (prod ns) 0 (fun k => delta k 0)) by auto. reflexivity. }
  rewrite Gone, sqrt1, inv1.
  assert (Sc : arr_scale r1 a = a). { destruct a as [sh d]. unfold arr_scale. cbn [shape data]. f_equal. rewrite <- (map_id d) at 2. apply map_ext. intros x. ring. }
  rewrite Sc. eexists _, a. split; [reflexivity|]. split; [|reflexivity].
  set (h2 := modify h1 n (put_aux (Some (arr_conj a)))). assert (L2 : length h2 = length h) by (unfold h2; rewrite length_modify; auto).
  assert (H2 : hget h2 n = put_aux (Some (arr_conj a)) (put_arr (Some a) (hget h n))) by (unfold h2; rewrite hget_modify_eq, H1 by lia; reflexivity).
  split; [rewrite length_modify; auto|]. split.
  - intros m Hm. rewrite hget_modify_neq by auto. unfold h2. rewrite hget_modify_neq by auto. unfold h1. apply hget_modify_neq. auto.
  - rewrite hget_modify_eq by lia. rewrite H2. cbn [put_aux put_arr oarr oleaf oacc oaxis oname]. auto.
Qed.

(** ** The loop *)
Lemma loop_ok (h0 : heap) (R : id -> arr -> Prop) : forall l, NoDup l ->
  (forall n h prev, In n l -> same_tree K h0 h -> oarr (hget h n) = None -> exists h' prev' a, step true h prev n = Ok (h', prev') /\ stepped h h' n a /\ R n a) ->
  forall h prev, same_tree K h0 h -> (forall n, In n l -> oarr (hget h n) = None) ->
  exists h', loop true h prev l = Ok h' /\ same_tree K h0 h' /\ (forall n, ~ In n l -> hget h' n = hget h n) /\ forall n, In n l -> exists a, oarr (hget h' n) = Some a /\ R n a.
Proof.
  induction l as [|n l IH]; intros N Hs h prev St Hn.
  - exists h. split; [reflexivity|]. split; auto. split; auto. intros n [].
  - inversion N as [|? ? N1 N2]; subst. destruct (Hs n h prev (or_introl eq_refl) St (Hn n (or_introl eq_refl))) as (h1 & p1 & a & E1 & (L1 & O1 & A1 & X1 & X2 & X3 & X4) & R1).
    cbn [ft_loop]. rewrite E1. cbn [bind fst snd].
    assert (S1 : same_tree K h0 h1).
    { destruct St as (L & E). split; [lia|]. intros x. destruct (E x) as (Y1 & Y2 & Y3 & Y4). destruct (Nat.eq_dec x n) as [->|Nx]; [rewrite X1, X2, X3, X4; auto|rewrite O1; auto]. }
    destruct (IH N2 (fun m g p Hm => Hs m g p (or_intror Hm)) h1 p1 S1) as (h' & E' & S' & O' & R').
    { intros m Hm. rewrite O1; [apply Hn; right; auto|]. intros ->. auto. }
    exists h'. split; auto. split; auto. split.
    + intros m Hm. rewrite O', O1; auto; intros Hm'; apply Hm; [left; auto|right; auto].
    + intros m [<-|Hm]; [|auto]. exists a. split; auto. rewrite O' by auto. exact A1.
Qed.

(** ** The tree *)
Variable h0 : heap.
Variable B : id -> nat.
Definition okp (n c : id) : Prop := exists rows, pair_rows (B c) (B n) c rows.
Notation kid_dims cs := (map (fun x : nat * id * nat => B (snd (fst x))) cs).
Definition made (n : id) (a : arr) : Prop :=
  match oaxis (hget h0 n) with
  | None => auto_array None 1 (kid_dims (children h0 n None true)) = Ok a
  | Some ax =>
      if length (children h0 n (Some ax) false) =? 0 then exists x cs, children h0 n (Some ax) true = x :: cs /\ pair_array a (B n) (B (snd (fst x)))
      else auto_array (Some ax) (B n) (kid_dims (children h0 n (Some ax) true)) = Ok a
  end.

Lemma up_index (h : heap) j p n ks : hangs h (Some (j, p)) (Nd n ks) -> dindex (oacc (hget h n)) j = Ok p.
Proof.
  intros H. inversion H as [| |? ? ? k1 k2 L A D F]; subst. unfold dindex. rewrite (Gen_Proof.dget_nodup _ j p D); [reflexivity|]. rewrite A. apply in_app_iff. right; left; auto.
Qed.
Lemma bond_dims n cs : (forall x, In x cs -> bget bonds (n, fst (fst x), snd (fst x), snd x) = Ok (B (snd (fst x)))) ->
  mapM (fun x => bget bonds (n, fst (fst x), snd (fst x), snd x)) cs = Ok (kid_dims cs).
Proof. intros H. apply Vec_Proof.mapM_ok. exact H. Qed.
Lemma filter_inner (ks : list (nat * tree * nat)) : existsb (fun k => inner (k_t k)) ks = true -> length (map kid3 (filter (fun k => false || inner (k_t k)) ks)) <> 0.
Proof.
  intros E. apply existsb_exists in E. destruct E as (k & Hk & Ik). rewrite map_length. intros Z. apply length_zero_iff_nil in Z.
  assert (X : In k (filter (fun k => false || inner (k_t k)) ks)) by (apply filter_In; auto). rewrite Z in X. exact X.
Qed.
Lemma filter_true {X} (f : X -> bool) l : filter (fun k => true || f k) l = l.
Proof. induction l as [|x l IH]; [reflexivity|]. cbn. now f_equal. Qed.

Definition advances (n : id) : Prop := forall h prev, same_tree K h0 h -> oarr (hget h n) = None ->
  exists h' prev' a, step true h prev n = Ok (h', prev') /\ stepped h h' n a /\ made n a.

Lemma purified_pos j t : purified h0 B okp j t -> 0 < B (top t).
Proof. destruct 1 as [|? ? ? ? ? ? (_ & H & _)|]; auto. Qed.

Lemma kids_pos (ks : list (nat * tree * nat)) : Forall (fun k => purified h0 B okp (k_j k) (k_t k)) ks -> Forall (fun m => 0 < m) (map (fun k => B (top (k_t k))) ks).
Proof. induction 1 as [|k ks H _ IH]; [constructor|]. cbn [map]. constructor; auto. eapply purified_pos; eauto. Qed.
Lemma pos_prod l : Forall (fun m => 0 < m) l -> 0 < prod l.
Proof. induction 1; cbn [prod]; [lia|]. apply Nat.mul_pos_pos; auto. Qed.
Lemma kid3_dims ks : kid_dims (map kid3 ks) = map (fun k => B (top (k_t k))) ks.
Proof. rewrite map_map. apply map_ext. intros k. reflexivity. Qed.

Lemma steps_below : forall t j p, hangs h0 (Some (j, p)) t -> purified h0 B okp j t -> (forall n, In n (ids t) -> n < length h0) ->
  (forall e, In e (edges t) -> bget bonds e = Ok (B (snd (fst e)))) -> bget bonds (fst p, snd p, top t, j) = Ok (B (top t)) ->
  forall n, In n (nids t) -> advances n.
Proof.
  induction t as [l|x ks IH] using tree_ind'; intros j p Hh Pf Hi He Hb n Hn; [destruct Hn|]. destruct Hn as [<-|Hn].
  - intros h prev St Ea. pose proof (children_same K h0 h x (Some j)) as Cs. pose proof (children_node K h0 _ x ks true Hh) as C1. pose proof (children_node K h0 _ x ks false Hh) as C2.
    cbn [option_map fst] in C1, C2. rewrite filter_true in C1. assert (Hx : x < length h) by (destruct St as (-> & _); apply Hi; left; auto).
    pose proof (up_index h0 j p x ks Hh) as Ed. destruct (proj2 St x) as (_ & Eacc & Eax & _). rewrite <- Eacc in Ed.
    inversion Pf as [|? a b c ja jb (Ox & Hp & Hm & Eb & sa & sb & Na & Nb & Hc) Ok_|? ? ? Ox Hax Ki Ei Hp Hle Fk]; subst.
    + cbn [map filter orb inner k_t fst snd kid3] in C1, C2. unfold kid3 in C1. cbn [k_i k_t k_j fst snd top] in C1.
      destruct Ok_ as (rows & Pr).
      assert (B1 : bget bonds (x, 1, a, ja) = Ok (B a)) by (apply (He (x, 1, a, ja)); cbn; auto).
      assert (B2 : bget bonds (x, 2, b, jb) = Ok (B b)) by (apply (He (x, 2, b, jb)); cbn; auto).
      assert (Bc : B c = B a) by (destruct Hc as [(-> & _)|(-> & _)]; auto).
      destruct (pair_step h prev x (B a) c p rows [(1, a, ja); (2, b, jb)]) with (p := B x) as (h' & A & E & Sd & Pa); auto.
      * congruence.
      * rewrite Cs; auto.
      * rewrite Cs; auto.
      * cbn [pick]. destruct (proj2 St a) as (_ & _ & _ & ->). destruct (proj2 St b) as (_ & _ & _ & ->). rewrite Na, Nb. destruct Hc as [(-> & P1)|(-> & P1 & P2)].
        -- rewrite (proj2 (primed_false sa) P1), B1. reflexivity.
        -- rewrite (proj2 (primed_spec sa) P1), (proj2 (primed_false sb) P2), B2. cbn [bind]. now rewrite Eb.
      * rewrite <- Bc at 1. exact Pr.
      * exists h', (Some (B a)), A. split; auto. split; auto. unfold made. rewrite Ox, C2. cbn [length Nat.eqb]. rewrite C1. eexists _, _. split; [reflexivity|]. exact Pa.
    + assert (Cd : mapM (fun y => bget bonds (x, fst (fst y), snd (fst y), snd y)) (children h x (Some j) true) = Ok (map (fun k => B (top (k_t k))) ks)).
      { rewrite Cs by auto. rewrite C1. rewrite bond_dims; [now rewrite kid3_dims|]. intros y Hy. apply in_map_iff in Hy. destruct Hy as (k & <- & Hk). unfold kid3. cbn [fst snd].
        apply (He (x, k_i k, top (k_t k), k_j k)). cbn [edges]. apply in_flat_map. exists k. split; auto. left; auto. }
      assert (Hne : length (children h x (oaxis (hget h x)) false) <> 0). { rewrite Eax, Ox. rewrite Cs by auto. rewrite C2. apply filter_inner. auto. }
      destruct (auto_step_ok K nrm sqrtf inv rank_of unit_norm sqrt0 sqrt1 rank_eye bonds h x j (map (fun k => B (top (k_t k))) ks) (B x) p) as (A & EA & h' & E & L' & O' & H'); auto.
      * congruence.
      * rewrite map_length. auto.
      * apply kids_pos. auto.
      * rewrite step_plain by (cbn [andb]; apply Nat.eqb_neq; auto). rewrite E. cbn [bind]. exists h', prev, A. split; auto. split.
        -- split; auto. split; auto. rewrite H'. cbn [put_aux put_arr oarr oleaf oacc oaxis oname]. auto.
        -- unfold made. rewrite Ox. rewrite (proj2 (Nat.eqb_neq _ _)) by (rewrite C2; apply filter_inner; auto). rewrite C1, kid3_dims. exact EA.
  - apply in_flat_map in Hn. destruct Hn as (k & Hk & Hn). rewrite Forall_forall in IH. destruct (hangs_kids _ _ _ _ _ Hh) as (_ & Fh & _). rewrite Forall_forall in Fh.
    inversion Pf as [|? a b c ja jb|? ? ? Ox Hax Ki Ei Hp Hle Fk]; subst; [destruct Hk as [<-|[<-|[]]]; destruct Hn|]. rewrite Forall_forall in Fk.
    apply (IH k Hk (k_j k) (x, k_i k)); auto.
    + intros m Hm. apply Hi. right. apply in_flat_map. eauto.
    + intros e Hke. apply He. cbn [edges]. apply in_flat_map. exists k. split; auto. right; auto.
    + apply (He (x, k_i k, top (k_t k), k_j k)). cbn [edges]. apply in_flat_map. exists k. split; auto. left; auto.
Qed.

Lemma steps_all t : hangs h0 None t -> purified_root h0 B okp t -> (forall n, In n (ids t) -> n < length h0) ->
  (forall e, In e (edges t) -> bget bonds e = Ok (B (snd (fst e)))) -> forall n, In n (nids t) -> advances n.
Proof.
  intros Hh (r & ks & -> & Ox & Ki & Ei & Fk) Hi He n Hn. destruct Hn as [<-|Hn].
  - intros h prev St Ea. pose proof (children_same K h0 h r None) as Cs. pose proof (children_node K h0 _ r ks true Hh) as C1. pose proof (children_node K h0 _ r ks false Hh) as C2.
    cbn [option_map fst] in C1, C2. rewrite filter_true in C1. assert (Hx : r < length h) by (destruct St as (-> & _); apply Hi; left; auto). destruct (proj2 St r) as (_ & Eacc & Eax & _).
    destruct (root_step h prev r (map (fun k => B (top (k_t k))) ks)) as (h' & A & E & Sd & EA); auto.
    + congruence.
    + rewrite Cs, C2 by auto. apply filter_inner. auto.
    + rewrite Cs, C1 by auto. rewrite bond_dims; [now rewrite kid3_dims|]. intros y Hy. apply in_map_iff in Hy. destruct Hy as (k & <- & Hk). unfold kid3. cbn [fst snd].
      apply (He (r, k_i k, top (k_t k), k_j k)). cbn [edges]. apply in_flat_map. exists k. split; auto. left; auto.
    + apply pos_prod, kids_pos; auto.
    + exists h', prev, A. split; auto. split; auto. unfold made. rewrite Ox, C1, kid3_dims. exact EA.
  - apply in_flat_map in Hn. destruct Hn as (k & Hk & Hn). destruct (hangs_kids _ _ _ _ _ Hh) as (_ & Fh & _). rewrite Forall_forall in Fh, Fk.
    apply (steps_below (k_t k) (k_j k) (r, k_i k)); auto.
    + intros m Hm. apply Hi. right. apply in_flat_map. eauto.
    + intros e Hke. apply He. cbn [edges]. apply in_flat_map. exists k. split; auto. right; auto.
    + apply (He (r, k_i k, top (k_t k), k_j k)). cbn [edges]. apply in_flat_map. exists k. split; auto. left; auto.
Qed.

(** ** The tensor of the network *)
Inductive egood (A : id -> arr) : nat -> nat -> tree -> Prop :=
| eg_leaf n j : 0 < B n -> egood A j (B n) (Lf n)
| eg_pair n a b ja jb p : pair_array (A n) p (B a) -> 0 < p -> 0 < B a -> B b = B a -> egood A 0 p (Nd n [(1, Lf a, ja); (2, Lf b, jb)])
| eg_node n ax ks : wf (A n) -> Forall (fun m => 0 < m) (shape (A n)) -> ax < ndim (A n) -> map k_i ks = del ax (seq 0 (ndim (A n))) ->
    (forall x, in_range x (del ax (shape (A n))) -> get (A n) (ins ax 0 x) = delta (ravel (del ax (shape (A n))) x) 0) ->
    existsb (fun k => inner (k_t k)) ks = true ->
    Forall2 (fun k m => egood A (k_j k) m (k_t k)) ks (del ax (shape (A n))) -> egood A ax (nth ax (shape (A n)) 0) (Nd n ks).

Lemma egood_pos A ax d t : egood A ax d t -> 0 < d.
Proof. destruct 1; auto. apply Forall_nth; auto. Qed.

Lemma egood_fits A : forall t ax d, egood A ax d t -> fits A (Some ax) d t.
Proof.
  induction t as [n|n ks IH] using tree_ind'; intros ax d H; inversion H as [? ? P|? a b ja jb p (W & Sh & _) P1 P2 Eb|? ? ? W P Hax Ki G Ei F]; subst.
  - constructor; auto.
  - apply fits_node; auto; rewrite ?Sh; [repeat constructor; auto|unfold ndim; rewrite Sh; cbn; lia|unfold ndim; rewrite Sh; reflexivity|].
    cbn [others]. change (del 0 [d; B a; B a]) with [B a; B a]. constructor; [constructor; auto|]. constructor; [constructor; auto|constructor].
  - constructor; auto. cbn [others]. clear -IH F. revert F. generalize (del ax (shape (A n))). induction IH as [|k ks Hk _ IHl]; intros l F; inversion F; subst; constructor; auto.
Qed.
Lemma egood_ldims A : forall t ax d, egood A ax d t -> ldims A (Some ax) d t = map B (lids t).
Proof.
  induction t as [n|n ks IH] using tree_ind'; intros ax d H; inversion H as [? ? P|? a b ja jb p (W & Sh & _) P1 P2 Eb|? ? ? W P Hax Ki G Ei F]; subst.
  - reflexivity.
  - cbn [ldims lids others flat_map k_t fst snd app map k_j]. rewrite Sh. change (del 0 [d; B a; B a]) with [B a; B a]. cbn [app]. now rewrite Eb.
  - cbn [ldims lids others]. clear -IH F. revert F. generalize (del ax (shape (A n))). induction IH as [|k ks Hk _ IHl]; intros l F; inversion F as [|? m ? l' F1 F2]; subst; [reflexivity|].
    cbn [flat_map]. rewrite map_app, (Hk _ _ F1). f_equal. apply IHl; auto.
Qed.

Notation cc := (fun a : id => isqrt (B a)).
Lemma pairs_node n ks : existsb (fun k => inner (k_t k)) ks = true -> pairs (Nd n ks) = flat_map (fun k => pairs (k_t k)) ks /\ lone (Nd n ks) = flat_map (fun k => lone (k_t k)) ks.
Proof.
  intros E. destruct ks as [|[[i [x|x kx]] j] [|[[i' [y|y ky]] j'] [|z ks]]]; cbn [pairs lone flat_map k_t fst snd]; auto. discriminate E.
Qed.
Lemma entangled_node (c : id -> K) n ks s : existsb (fun k => inner (k_t k)) ks = true -> entangled c (Nd n ks) s = prodL ks (fun k => entangled c (k_t k) s).
Proof.
  intros E. unfold entangled. destruct (pairs_node n ks E) as (-> & ->). rewrite !prodL_flat. clear E. induction ks as [|k ks IH]; [rewrite !prodL_nil; ring|]. rewrite !prodL_cons, <- IH. ring.
Qed.

Lemma egood_amp A s : forall t ax d, egood A ax d t -> (forall l, In l (lids t) -> s l < B l) -> amp A s (Some ax) t 0 = entangled cc t s.
Proof.
  induction t as [n|n ks IH] using tree_ind'; intros ax d H Hs; inversion H as [? ? P|? a b ja jb p (W & Sh & G) P1 P2 Eb|? ? ? W P Hax Ki G Ei F]; subst.
  - cbn [amp]. unfold entangled. cbn [pairs lone]. rewrite prodL_nil, prodL_cons, prodL_nil. ring.
  - cbn [amp others full map k_j k_t fst snd]. rewrite Sh. change (del 0 [d; B a; B a]) with [B a; B a].
    assert (Ha : s a < B a) by (apply Hs; left; auto). assert (Hb : s b < B a) by (rewrite <- Eb; apply Hs; right; left; auto).
    rewrite sum_indices_cons, (sumn_single K (B a) (s a)); auto.
    2:{ intros x Hx Nx. apply sumL_zero_in. intros y _. cbn [zprod]. rewrite (delta_ne K x (s a)) by auto. ring. }
    rewrite sum_indices_cons, (sumn_single K (B a) (s b)); auto.
    2:{ intros x Hx Nx. apply sumL_zero_in. intros y _. cbn [zprod]. rewrite (delta_ne K x (s b)) by auto. ring. }
    rewrite sum_indices_nil. cbn [zprod ins firstn skipn app]. change (ins 0 0 [s a; s b]) with [0; s a; s b]. rewrite G, !delta_eq by auto.
    unfold entangled. cbn [pairs lone]. rewrite prodL_cons, !prodL_nil. cbn [fst snd]. ring.
  - cbn [amp others full]. rewrite entangled_node by auto.
    rewrite (sum_indices_ext K _ _ (fun x => rmul (delta (ravel (del ax (shape (A n))) x) 0) (zprod (map (fun k => amp A s (Some (k_j k)) (k_t k)) ks) x))) by (intros x Hx; rewrite G; auto).
    rewrite sum_ground.
    + rewrite prodL_map. apply prodL_ext_in. intros k Hk. rewrite Forall_forall in IH.
      assert (exists m, egood A (k_j k) m (k_t k)) as (m & Gm). { clear -F Hk. induction F; [destruct Hk|]. destruct Hk as [->|]; eauto. }
      apply (IH k Hk _ _ Gm). intros l Hl. apply Hs. cbn [lids]. apply in_flat_map. eauto.
    + clear -P. revert ax. induction P as [|m l Hm P IH]; intros [|ax]; [constructor|constructor|exact P|]. exact (Forall_cons m Hm (IH ax)).
    + rewrite map_length. eapply Forall2_len; eauto.
Qed.

Lemma row_zero j np ns (a : arr) : j <= length ns -> np <= prod ns -> 0 < np -> auto_array (Some j) np ns = Ok a ->
  wf a /\ shape a = ins j np ns /\ forall x, in_range x ns -> get a (ins j 0 x) = delta (ravel ns x) 0.
Proof.
  intros Hj Hle Hp E. destruct (auto_array_some K np ns j Hj Hle) as (a' & Ea' & Wa & Sa & Ga). assert (a' = a) by congruence. subst a'. split; auto. split; auto.
  intros x Hx. rewrite Ga by auto. f_equal. destruct (triangular_head ns) as (tl & ->); [|reflexivity]. rewrite <- prod_product. lia.
Qed.

Lemma made_good (h2 : heap) : forall t j p, hangs h0 (Some (j, p)) t -> purified h0 B okp j t ->
  (forall n, In n (nids t) -> exists a, oarr (hget h2 n) = Some a /\ made n a) -> egood (array_at h2) j (B (top t)) t.
Proof.
  induction t as [l|x ks IH] using tree_ind'; intros j p Hh Pf Hm.
  - inversion Pf; subst. cbn [top]. apply eg_leaf. auto.
  - destruct (Hm x (or_introl eq_refl)) as (a & Eo & Ma). assert (Aa : array_at h2 x = a) by (unfold array_at; rewrite Eo; reflexivity).
    pose proof (children_node K h0 _ x ks true Hh) as C1. pose proof (children_node K h0 _ x ks false Hh) as C2. cbn [option_map fst] in C1, C2. rewrite filter_true in C1. cbn [top].
    inversion Pf as [|? la lb c ja jb (Ox & Hp & Hl & Eb & _) Ok_|? ? ? Ox Hax Ki Ei Hp Hle Fk]; subst.
    + unfold made in Ma. rewrite Ox, C2, C1 in Ma. cbn [map filter orb inner k_t fst snd length Nat.eqb] in Ma. destruct Ma as (y & cs & E & Pa). injection E as <- _. cbn [fst snd kid3 k_t top] in Pa. apply eg_pair; auto.
    + unfold made in Ma. rewrite Ox in Ma. rewrite (proj2 (Nat.eqb_neq _ _)) in Ma by (rewrite C2; apply filter_inner; auto). rewrite C1, kid3_dims in Ma.
      set (ns := map (fun k => B (top (k_t k))) ks) in *. assert (Ln : length ns = length ks) by (unfold ns; apply map_length).
      destruct (row_zero j (B x) ns (array_at h2 x) ltac:(lia) Hle Hp Ma) as (Wa & Sa & Ga).
      assert (Nd : ndim (array_at h2 x) = S (length ks)) by (unfold ndim; rewrite Sa, length_ins by lia; lia).
      assert (Nj : nth j (shape (array_at h2 x)) 0 = B x) by (rewrite Sa; apply nth_ins_eq; lia). assert (Dj : del j (shape (array_at h2 x)) = ns) by (rewrite Sa; apply del_ins; lia).
      rewrite <- Nj. apply eg_node; auto; rewrite ?Dj; auto.
      * rewrite Sa. pose proof (kids_pos ks Fk) as Hpos. fold ns in Hpos. unfold ins. rewrite <- (firstn_skipn j ns) in Hpos. apply Forall_app in Hpos. destruct Hpos. apply Forall_app. split; auto.
      * lia.
      * rewrite Nd. exact Ki.
      * destruct (hangs_kids _ _ _ _ _ Hh) as (_ & Fh & _).
        assert (G : forall k, In k ks -> egood (array_at h2) (k_j k) (B (top (k_t k))) (k_t k)).
        { intros k Hk. rewrite Forall_forall in IH, Fh, Fk. eapply IH; eauto. intros n Hn. apply Hm. right. apply in_flat_map. eauto. }
        unfold ns. clear -G. induction ks as [|k ks IHk]; constructor; [apply G; left; auto|apply IHk; intros; apply G; right; auto].
Qed.

Lemma asg_in ls v l : length v = length ls -> in_range v (map B ls) -> In l ls -> asg ls v l < B l.
Proof.
  revert v. induction ls as [|x ls IH]; intros [|y v] L R Hl; cbn [map] in *; try discriminate; [destruct Hl|]. inversion R as [|? ? ? ? R1 R2]; subst. unfold asg. cbn [index_of].
  destruct (Nat.eqb_spec x l) as [->|Ne]; [exact R1|]. destruct Hl as [|Hl]; [congruence|]. apply (IH v); auto.
Qed.

Theorem state_ok t fuel : hangs h0 None t -> purified_root h0 B okp t -> NoDup (ids t) -> (forall n, In n (ids t) -> n < length h0) ->
  (forall n, In n (ids t) -> oarr (hget h0 n) = None) -> (forall e, In e (edges t) -> bget bonds e = Ok (B (snd (fst e)))) ->
  (forall x, In x (ids t) -> check_completness h0 x false = Ok tt) -> height t <= fuel ->
  exists h', ft_autocomplete nrm sqrtf inv rank_of isqrt close lib max_cycle max_space h_list f_list bonds true fuel h0 (top t) = Ok h' /\
    hangs h' None t /\ (forall n, ~ In n (nids t) -> hget h' n = hget h0 n) /\ (forall n, In n (nids t) -> exists a, oarr (hget h' n) = Some a) /\
    fits (array_at h') None 0 t /\ ldims (array_at h') None 0 t = map B (lids t) /\
    forall v, in_range v (map B (lids t)) -> dense (array_at h') t v = entangled cc t (asg (lids t) v).
Proof.
  intros Hh Pr Nd Hi Ha He Hc Hf. pose proof (steps_all t Hh Pr Hi He) as Adv. pose proof Pr as (r & ks & Et & Ox & Ki & Ei & Fk).
  assert (LI : forall (u : tree) z, In z (lids u) -> In z (ids u)). { clear. intros u z. induction u as [x|x kk IH] using tree_ind'; auto. intros H. right. cbn [lids] in H. apply in_flat_map in H. destruct H as (k & Hk & H). apply in_flat_map. exists k. rewrite Forall_forall in IH. auto. }
  assert (NI : forall (u : tree) z, In z (nids u) -> In z (ids u)). { clear. intros u z. induction u as [x|x kk IH] using tree_ind'; [intros []|]. intros [<-|H]; [left; auto|right]. apply in_flat_map in H. destruct H as (k & Hk & H). apply in_flat_map. exists k. rewrite Forall_forall in IH. auto. }
  assert (Nn : NoDup (nids t)).
  { clear -Nd NI. induction t as [x|x kk IH] using tree_ind'; [constructor|]. cbn [ids nids] in *. apply NoDup_cons_iff in Nd. destruct Nd as (N1 & N2). constructor.
    - intros H. apply N1. apply in_flat_map in H. destruct H as (k & Hk & H). apply in_flat_map. eauto.
    - clear N1. induction IH as [|k kk Hk _ IHl]; [constructor|]. cbn [flat_map] in *. apply HuffName_Proof.NoDup_app_iff in N2. destruct N2 as (A1 & A2 & A3). apply HuffName_Proof.NoDup_app_iff. split; auto. split; auto.
      intros z Hz Hz'. apply (A3 z); auto. apply in_flat_map in Hz'. destruct Hz' as (q & Hq & Hz'). apply in_flat_map. eauto. }
  pose proof (loop_ok h0 made (nids t) Nn) as LO. destruct LO with (h := h0) (prev := @None nat) as (h' & El & St & Eo & Em).
  { intros n h prev Hn Sh En. exact (Adv n Hn h prev Sh En). }
  { split; [reflexivity|]. intros m. auto. }
  { intros n Hn. apply Ha. auto. }
  assert (Hh' : hangs h' None t). { apply (TEnv_Proof.hangs_same K h0 h'); auto. intros n. destruct (proj2 St n) as (E1 & E2 & _). auto. }
  destruct (hangs_kids _ _ _ _ _ ltac:(rewrite Et in Hh; exact Hh)) as (_ & Fh & _).
  assert (Gk : forall k, In k ks -> egood (array_at h') (k_j k) (B (top (k_t k))) (k_t k)).
  { intros k Hk. rewrite Forall_forall in Fh, Fk. eapply made_good; eauto. intros n Hn. apply Em. rewrite Et. right. apply in_flat_map. eauto. }
  set (ns := map (fun k => B (top (k_t k))) ks).
  assert (F2 : Forall2 (fun k m => egood (array_at h') (k_j k) m (k_t k)) ks ns).
  { unfold ns. clear -Gk. induction ks as [|k ks IHk]; constructor; [apply Gk; left; auto|apply IHk; intros; apply Gk; right; auto]. }
  destruct (Em r) as (a & Ear & Ma); [rewrite Et; left; auto|]. assert (Aa : array_at h' r = a) by (unfold array_at; rewrite Ear; reflexivity).
  pose proof (kids_pos ks Fk) as Kp. fold ns in Kp. pose proof (pos_prod ns Kp) as Pp.
  assert (Ra : wf a /\ shape a = ns /\ forall x, in_range x ns -> get a x = delta (ravel ns x) 0).
  { unfold made in Ma. rewrite Ox in Ma. pose proof (children_node K h0 None r ks true ltac:(rewrite Et in Hh; exact Hh)) as C1. cbn [option_map] in C1. rewrite filter_true in C1. rewrite C1, kid3_dims in Ma. fold ns in Ma.
    destruct (auto_array_none K 1 ns Pp) as (a' & Ea' & W). assert (a' = a) by congruence. subst a'. exact W. }
  destruct Ra as (Wa & Sa & Ga).
  assert (Fit : fits (array_at h') None 0 t).
  { rewrite Et. apply fits_node; auto; rewrite ?Aa, ?Sa; auto.
    - cbn [others]. rewrite Ki. unfold ndim. rewrite Sa. unfold ns. now rewrite map_length.
    - cbn [others]. clear -F2. induction F2; constructor; auto. apply egood_fits. auto. }
  exists h'. split.
  { unfold ft_autocomplete. assert (Tx : top t = r) by (rewrite Et; reflexivity). rewrite Tx, Ox. pose proof (visitor_hangs K h0 t None fuel false Hh Hf) as V1. cbn [option_map] in V1. rewrite Tx in V1. rewrite V1. cbn [bind].
    rewrite El. cbn [bind]. destruct (proj2 St r) as (_ & _ & -> & _). rewrite Ox. pose proof (visitor_hangs K h' t None fuel true Hh' Hf) as V2. cbn [option_map] in V2. rewrite Tx in V2. rewrite V2. cbn [bind].
    replace (forM (fun x => check_completness h' x true) (ids t)) with (Ok tt); [reflexivity|]. symmetry. apply forM_ok. intros x Hx. apply (strict_ok K h0 h' t 0); auto.
    - intros n Hn. destruct (Em n Hn) as (b & Eb & _). eauto.
    - intros n Hn. rewrite Eo; [apply Ha; auto|]. intros Hn'.
      clear -Hh Hn Hn' Nd LI NI. revert Hh Hn Hn' Nd. generalize (@None (nat * half)).
      induction t as [y|y ks' IH] using tree_ind'; intros up Hh Hn H Ns; [destruct H|].
      cbn [lids nids ids] in *. apply NoDup_cons_iff in Ns. destruct Ns as (N1 & N2). apply in_flat_map in Hn. destruct Hn as (k & Hk & Hn).
      destruct H as [<-|H]; [apply N1; apply in_flat_map; exists k; split; auto|]. apply in_flat_map in H. destruct H as (k' & Hk' & H).
      destruct (hangs_kids _ _ _ _ _ Hh) as (_ & Fh & _).
      assert (k_t k' = k_t k). { clear -N2 Hk Hk' Hn H LI NI. apply LI in Hn. apply NI in H. revert N2 Hk Hk'. induction ks' as [|q ks' IHq]; intros N2 Hk Hk'; [destruct Hk|]. cbn [flat_map] in N2. apply HuffName_Proof.NoDup_app_iff in N2. destruct N2 as (X1 & X2 & X3).
        destruct Hk as [->|Hk], Hk' as [->|Hk']; auto; exfalso; apply (X3 n); auto; apply in_flat_map; eauto. }
      rewrite Forall_forall in IH, Fh. rewrite H0 in H. eapply (IH k Hk); eauto. clear -N2 Hk. induction ks' as [|q ks' IHq]; [destruct Hk|]. cbn [flat_map] in N2. apply HuffName_Proof.NoDup_app_iff in N2. destruct Hk as [->|Hk]; tauto. }
  split; auto. split; auto. split. { intros n Hn. destruct (Em n Hn) as (b & Eb & _). eauto. } split; auto. split.
  - rewrite Et. cbn [ldims lids others]. rewrite Aa, Sa. clear -F2. induction F2 as [|k m ks' ms F1 _ IH]; [reflexivity|]. cbn [flat_map]. rewrite map_app, <- IH. f_equal. eapply egood_ldims; eauto.
  - intros v Hv. pose proof (in_range_len _ _ Hv) as Lv. rewrite map_length in Lv. unfold dense. rewrite Et at 2 3. cbn [amp others full]. rewrite entangled_node by auto. rewrite Aa, Sa.
    rewrite (sum_indices_ext K _ _ (fun x => rmul (delta (ravel ns x) 0) (zprod (map (fun k => amp (array_at h') (asg (lids t) v) (Some (k_j k)) (k_t k)) ks) x))) by (intros x Hx; rewrite Ga; auto).
    rewrite sum_ground; auto; [|unfold ns; rewrite !map_length; auto].
    rewrite prodL_map. apply prodL_ext_in. intros k Hk. apply (egood_amp _ _ _ _ _ (Gk k Hk)). intros l Hl. apply asg_in; auto. rewrite Et. cbn [lids]. apply in_flat_map. eauto.
Qed.
End T.
