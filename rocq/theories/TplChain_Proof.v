From Coq Require Import String List Arith Bool Lia Ring Permutation.
From Verif Require Import Py Alg ListX NdArray_Model NdArray_Proof Contract_Model Contract_Spec Contract_Proof Net_Model Net_Spec Link_Proof Trav_Proof
  Heom_Model Normalize_Model Template_Model Template_Spec Template_Proof.
Import ListNotations.
Local Open Scope nat_scope.
Local Open Scope list_scope.

Section T.
Variable K : StarRing.
Add Ring Kr : (r_theory K).
Notation arr := (arr K).
Notation heap := (heap K).

Lemma hget_link_l (h : heap) a i b j : a < length h -> a <> b -> hget (link h a i b j) a = put_acc (dput (oacc (hget h a)) i (b, j)) (hget h a).
Proof. intros H N. unfold link. rewrite hget_modify_neq by auto. rewrite hget_modify_eq by auto. reflexivity. Qed.
Lemma hget_link_r (h : heap) a i b j : b < length h -> a <> b -> hget (link h a i b j) b = put_acc (dput (oacc (hget h b)) j (a, i)) (hget h b).
Proof. intros H N. unfold link. rewrite hget_modify_eq by (rewrite length_modify; auto). rewrite hget_modify_neq by auto. reflexivity. Qed.
Lemma hget_link_o (h : heap) a i b j n : n <> a -> n <> b -> hget (link h a i b j) n = hget h n.
Proof. intros H N. unfold link. rewrite !hget_modify_neq by auto. reflexivity. Qed.
Lemma len_link (h : heap) a i b j : length (link h a i b j) = length h.
Proof. unfold link. rewrite !length_modify. reflexivity. Qed.

(** ** One leaf *)
Lemma add_leaf_ok (h : heap) r i nm : r < length h ->
  length (add_leaf h r i nm) = S (length h) /\
  (forall n, n < length h -> n <> r -> hget (add_leaf h r i nm) n = hget h n) /\
  hget (add_leaf h r i nm) r = put_acc (dput (oacc (hget h r)) i (length h, 0)) (hget h r) /\
  hget (add_leaf h r i nm) (length h) = mkObj (Some nm) true None None None false [(0, (r, i))] [].
Proof.
  intros Hr. unfold add_leaf. split; [rewrite len_link, app_length; cbn; lia|]. split; [|split].
  - intros n Hn N. rewrite hget_link_o by lia. apply hget_app_l; auto.
  - rewrite hget_link_l by (rewrite ?app_length; cbn; lia). rewrite hget_app_l by auto. reflexivity.
  - rewrite hget_link_r by (rewrite ?app_length; cbn; lia). rewrite hget_app_last. reflexivity.
Qed.

(** ** simple_heom *)
Lemma dput_end {V} (d : list (nat * V)) k v : (forall x, In x (map fst d) -> x < k) -> dput d k v = d ++ [(k, v)].
Proof.
  induction d as [|[k' v'] d IH]; intros H; [reflexivity|]. cbn [dput]. assert (k' < k) by (apply H; left; auto).
  rewrite (proj2 (Nat.eqb_neq _ _)), (proj2 (Nat.ltb_ge _ _)) by lia. rewrite IH; [reflexivity|]. intros x Hx. apply H. right. auto.
Qed.

Lemma add_leaves_ok r : forall m k (h : heap) acc, r < length h -> oacc (hget h r) = acc -> map fst acc = seq 0 (k + 2) ->
  let h' := add_leaves h r (seq k m) in
  length h' = length h + m /\ (forall n, n < length h -> n <> r -> hget h' n = hget h n) /\
  hget h' r = put_acc (acc ++ map (fun i => (k + 2 + i, (length h + i, 0))) (seq 0 m)) (hget h r) /\
  forall i, i < m -> hget h' (length h + i) = mkObj (Some (str (k + i))) true None None None false [(0, (r, k + i + 2))] [].
Proof.
  induction m as [|m IH]; intros k h acc Hr Ea Ek; cbn [seq add_leaves].
  - split; [lia|]. split; [auto|]. split; [|intros i Hi; lia]. cbn [map]. rewrite app_nil_r, <- Ea. destruct (hget h r); reflexivity.
  - destruct (add_leaf_ok h r (k + 2) (str k) Hr) as (L1 & O1 & R1 & N1). set (h1 := add_leaf h r (k + 2) (str k)) in *.
    assert (A1 : oacc (hget h1 r) = acc ++ [(k + 2, (length h, 0))]).
    { rewrite R1. cbn [oacc put_acc]. rewrite Ea. apply dput_end. intros x Hx. rewrite Ek in Hx. apply in_seq in Hx. lia. }
    destruct (IH (S k) h1 _ ltac:(lia) A1) as (L2 & O2 & R2 & N2).
    { rewrite map_app, Ek. cbn [map fst]. replace (S k + 2) with (S (k + 2)) by lia. rewrite seq_S. reflexivity. }
    cbv zeta in *. set (h2 := add_leaves h1 r (seq (S k) m)) in *. split; [lia|]. split; [intros n Hn Nn; rewrite O2, O1; auto; lia|]. split.
    + rewrite R2, R1. unfold put_acc. cbn [oname oleaf oarr oaux oaxis onorm oacc ocache]. f_equal. rewrite <- app_assoc. f_equal. cbn [map app].
      rewrite !Nat.add_0_r. f_equal. rewrite <- seq_shift, map_map. apply map_ext. intros i. rewrite L1. f_equal; [lia|]. f_equal. lia.
    + intros [|i] Hi.
      * rewrite Nat.add_0_r, O2 by lia. rewrite N1. rewrite Nat.add_0_r. reflexivity.
      * replace (length h + S i) with (length h1 + i) by lia. rewrite N2 by lia. replace (S k + i) with (k + S i) by lia. reflexivity.
Qed.

Local Open Scope star_scope.
Lemma sum_point sh : forall v (f : list nat -> K), in_range v sh -> sumL (indices sh) (fun x => f x * zprod (map (fun a => fun p => delta p a) v) x) = f v.
Proof.
  induction sh as [|m sh IH]; intros v f Hv; inversion Hv as [|a ? v' ? Ha Hv']; subst.
  - rewrite sum_indices_nil. cbn [map zprod]. ring.
  - rewrite sum_indices_cons, (sumn_single K m a); auto.
    + rewrite <- (IH v' (fun x => f (a :: x)) Hv'). apply sumL_ext. intros x. cbn [map zprod]. rewrite (delta_eq K). ring.
    + intros i Hi Ni. apply sumL_zero_in. intros x _. cbn [map zprod]. rewrite (delta_ne K i a) by auto. ring.
Qed.
Local Open Scope nat_scope.

Lemma simple_ok (h : heap) rho d dims : wf rho -> shape rho = [d; d] -> 0 < d -> dims <> [] -> Forall (fun x => 0 < x) dims ->
  exists h', simple_heom h rho dims = Ok (h', length h) /\ (forall n, n < length h -> hget h' n = hget h n) /\
    stands_for h' (length h) rho d (length dims) (seq 0 (length dims)) (fun k => nth k dims 0).
Proof.
  intros W E Hd Hne Hp. unfold simple_heom, get_n_state. rewrite E, Nat.eqb_refl. cbn [bind].
  destruct (Nat.eqb_spec (length dims) 0) as [L0|_]; [destruct dims; [congruence|discriminate]|].
  assert (Pp : 0 < prod dims) by (clear -Hp; induction Hp; cbn; nia).
  unfold first_unit. rewrite (proj2 (Nat.eqb_neq _ 0)) by lia. cbn [bind].
  set (e := build [prod dims] (fun x => delta (nth 0 x 0) 0) : arr).
  assert (Ro : root_arr K (outer rho e) rho d (prod dims)). { apply outer_root; auto. unfold first_unit. rewrite (proj2 (Nat.eqb_neq _ 0)) by lia. reflexivity. }
  destruct Ro as (Wo & So & Go). set (o := outer rho e) in *.
  rewrite reshape_ok; [|exact Wo|rewrite So; cbn [prod]; lia]. cbn [bind].
  set (b := mkArr (d :: d :: dims) (data o)). set (r := length h). set (m := length dims).
  set (h1 := h ++ [new_tensor (Some "root"%string) (Some b) None false]).
  assert (L1 : length h1 = S r) by (unfold h1; rewrite app_length; cbn; lia).
  destruct (add_leaf_ok h1 r 0 (str m) ltac:(lia)) as (L2 & O2 & R2 & N2). set (h2 := add_leaf h1 r 0 (str m)) in *.
  destruct (add_leaf_ok h2 r 1 (str (m + 1)) ltac:(lia)) as (L3 & O3 & R3 & N3). set (h3 := add_leaf h2 r 1 (str (m + 1))) in *.
  assert (Er : hget h3 r = mkObj (Some "root"%string) false (Some b) None None false [(0, (S r, 0)); (1, (S (S r), 0))] []).
  { assert (E1 : hget h1 r = new_tensor (Some "root"%string) (Some b) None false) by apply hget_app_last. rewrite R3, R2, E1, L2, L1. reflexivity. }
  destruct (add_leaves_ok r m 0 h3 _ ltac:(lia) ltac:(rewrite Er; reflexivity) eq_refl) as (L4 & O4 & R4 & N4). cbv zeta in *.
  set (h4 := add_leaves h3 r (seq 0 m)) in *. rewrite Er in R4. unfold put_acc in R4. cbn [oname oleaf oarr oaux oaxis onorm oacc ocache app] in R4.
  exists h4. split; [reflexivity|]. split.
  { intros n Hn. rewrite O4, O3, O2 by lia. unfold h1. apply hget_app_l; auto. }
  assert (Ea : array_at h4 r = b) by (unfold array_at; rewrite R4; reflexivity).
  set (lvs := S r :: S (S r) :: map (fun i => length h3 + i) (seq 0 m)).
  set (ks := map (fun p => (fst p, Lf (snd p), 0)) (combine (seq 0 (m + 2)) lvs) : list (nat * tree * nat)).
  assert (Lks : length ks = m + 2) by (unfold ks, lvs; rewrite map_length, combine_length, seq_length; cbn [length]; rewrite map_length, seq_length; lia).
  assert (Ek : map (fun k : nat * tree * nat => (k_i k, (top (k_t k), k_j k))) ks = (0, (S r, 0)) :: (1, (S (S r), 0)) :: map (fun i => (0 + 2 + i, (length h3 + i, 0))) (seq 0 m)).
  { unfold ks, lvs. rewrite Nat.add_comm. cbn [Nat.add seq combine map fst snd k_i k_t k_j top]. f_equal. f_equal.
    rewrite map_map. cbn [fst snd k_i k_t k_j top]. rewrite <- (seq_shift m 1), <- seq_shift, map_map.
    generalize (seq 0 m). intros l. induction l as [|x l IH]; [reflexivity|]. cbn [map combine fst snd]. f_equal. exact IH. }
  assert (Ll : lids (Nd r ks) = lvs).
  { cbn [lids]. unfold ks. assert (G : forall l l' : list nat, length l = length l' -> flat_map (fun k : nat * tree * nat => lids (k_t k)) (map (fun p => (fst p, Lf (snd p), 0)) (combine l l')) = l').
    { induction l as [|x l IH]; intros [|y l'] E2; try discriminate E2; [reflexivity|]. cbn [combine map flat_map k_t fst snd lids app]. f_equal. apply IH. cbn in E2. lia. }
    apply G. unfold lvs. rewrite seq_length. cbn [length]. rewrite map_length, seq_length. lia. }
  assert (Kt : forall k, In k ks -> exists x, k = (k_i k, Lf x, 0) /\ In (k_i k, x) (combine (seq 0 (m + 2)) lvs)).
  { intros k Hk. apply in_map_iff in Hk. destruct Hk as (p & <- & Hp'). exists (snd p). split; [reflexivity|]. cbn [k_i fst]. destruct p; exact Hp'. }
  assert (Hks : map k_i ks = seq 0 (m + 2)).
  { unfold ks. rewrite map_map. cbn [k_i fst]. transitivity (map fst (combine (seq 0 (m + 2)) lvs)); [reflexivity|].
    assert (Lc : length (seq 0 (m + 2)) = length lvs) by (unfold lvs; rewrite seq_length; cbn [length]; rewrite map_length, seq_length; lia).
    revert Lc. generalize (seq 0 (m + 2)) lvs. induction l as [|x l IH]; intros [|y l'] E2; try discriminate E2; [reflexivity|]. cbn. f_equal. apply IH. cbn in E2. lia. }
  exists (Nd r ks). split; [reflexivity|]. split; [|split; [|split; [|split; [|split; [|split]]]]].
  - apply hangs_root.
    + rewrite R4. reflexivity.
    + rewrite R4. cbn [oacc]. symmetry. exact Ek.
    + rewrite R4. cbn [oacc]. rewrite <- Ek, map_map. cbn [fst]. change (map (fun x => k_i x) ks) with (map k_i ks). rewrite Hks. apply seq_NoDup.
    + apply Forall_forall. intros k Hk. destruct (Kt k Hk) as (x & Ekx & Hx). rewrite Ekx. cbn [k_j k_i k_t fst snd].
      assert (hget h4 x = mkObj (oname (hget h4 x)) true None None None false [(0, (r, k_i k))] []) as Hx4.
      { unfold lvs in Hx. rewrite Nat.add_comm in Hx. cbn [Nat.add seq combine] in Hx. destruct Hx as [Hx|[Hx|Hx]].
        - injection Hx as <- <-. rewrite O4, O3 by lia. rewrite <- L1, N2. reflexivity.
        - injection Hx as <- <-. rewrite O4 by lia. rewrite <- L1, <- L2, N3. reflexivity.
        - assert (Hi : exists i, i < m /\ k_i k = i + 2 /\ x = length h3 + i).
          { clear -Hx. rewrite <- (seq_shift m 1), <- seq_shift, map_map in Hx. assert (Hs : forall i, In i (seq 0 m) -> i < m) by (intros i Hi; apply in_seq in Hi; lia).
            revert Hx Hs. generalize (seq 0 m). induction l as [|i l IH]; intros Hx Hs; [destruct Hx|]. cbn [map combine] in Hx. destruct Hx as [Hx|Hx].
            - injection Hx as H1 H2. exists i. split; [apply Hs; left; auto|]. split; lia.
            - apply IH; auto. intros; apply Hs; right; auto. }
          destruct Hi as (i & Hi & -> & ->). rewrite N4 by auto. cbn [oname]. repeat f_equal. }
      apply hangs_leaf; rewrite Hx4; reflexivity.
  - intros n Hn. cbn [nids] in Hn. replace (flat_map (fun k : nat * tree * nat => nids (k_t k)) ks) with (@nil nat) in Hn.
    + destruct Hn as [<-|[]]. rewrite R4. cbn [oarr]. exists b. reflexivity.
    + symmetry. unfold ks. generalize (combine (seq 0 (m + 2)) lvs). induction l as [|x l IH]; [reflexivity|]. exact IH.
  - assert (Sb : shape b = d :: d :: dims) by reflexivity. apply fits_node; rewrite ?Ea; auto.
    + unfold wf, b. cbn [data shape]. unfold wf in Wo. rewrite Wo, So. cbn [prod]. lia.
    + rewrite Sb. repeat constructor; auto.
    + rewrite Hks. unfold ndim. rewrite Sb. cbn [length others]. f_equal. unfold m. lia.
    + cbn [others]. rewrite Sb. assert (Lb : length ks = length (d :: d :: dims)) by (rewrite Lks; cbn [length]; unfold m; lia).
      assert (Pb : Forall (fun x => 0 < x) (d :: d :: dims)) by (repeat constructor; auto). clear -Lb Pb Kt.
      revert Lb Pb Kt. generalize (d :: d :: dims). revert ks. induction ks as [|k ks IH]; intros [|x l] L P Kt; try discriminate L; constructor.
      * destruct (Kt k (or_introl eq_refl)) as (y & -> & _). constructor. exact (Forall_inv P).
      * apply IH; [cbn in L; lia|exact (Forall_inv_tail P)|]. intros k' Hk'. apply Kt. right. auto.
  - rewrite Ll. unfold lvs. cbn [map]. rewrite O4, O3 by lia. rewrite <- L1 at 1. rewrite N2. rewrite (O4 (S (S r))) by lia. replace (S (S r)) with (length h2) by lia. rewrite N3. cbn [oname]. f_equal. f_equal.
    rewrite map_map. apply map_ext_in. intros i Hi. apply in_seq in Hi. rewrite N4 by lia. reflexivity.
  - apply Permutation_refl.
  - assert (Sb : shape b = d :: d :: dims) by reflexivity. cbn [ldims others]. rewrite Ea, Sb.
    replace (map (fun k => nth k dims 0) (seq 0 m)) with dims by (symmetry; apply map_nth_seq).
    assert (Lb : length ks = length (d :: d :: dims)) by (rewrite Lks; cbn [length]; unfold m; lia). clear -Lb Kt.
    revert Lb Kt. generalize (d :: d :: dims). revert ks. induction ks as [|k ks IH]; intros [|x l] L Kt; try discriminate L; [reflexivity|].
    destruct (Kt k (or_introl eq_refl)) as (y & -> & _). cbn [k_j k_t fst snd ldims app]. f_equal. apply IH; [cbn in L; lia|]. intros k' Hk'. apply Kt. right. auto.
  - intros i j v Hi Hj Hv. replace (map (fun k => nth k dims 0) (seq 0 m)) with dims in Hv by (symmetry; apply map_nth_seq).
    assert (Sb : shape b = d :: d :: dims) by reflexivity. unfold dense. rewrite Ll. cbn [amp others full]. rewrite Ea, Sb.
    assert (Hvv : in_range (i :: j :: v) (d :: d :: dims)) by (repeat constructor; auto).
    transitivity (get b (i :: j :: v)).
    + rewrite <- (sum_point (d :: d :: dims) (i :: j :: v) (fun x => get b x) Hvv). apply sumL_ext. intros x. f_equal.
      assert (X : forall (s : nat -> nat) w, map s lvs = w -> zprod (map (fun k => amp (array_at h4) s (Some (k_j k)) (k_t k)) ks) x = zprod (map (fun a p => delta p a) w) x).
      { intros s w <-. rewrite <- Ll. cbn [lids]. f_equal.
        assert (Kt' : forall k, In k ks -> exists x, k = (k_i k, Lf x, 0)) by (intros k Hk; destruct (Kt k Hk) as (y & Ey & _); eauto). clear -Kt'. induction ks as [|k l IH]; [reflexivity|].
        destruct (Kt' k (or_introl eq_refl)) as (y & ->). cbn [map flat_map k_t fst snd k_j lids app amp]. f_equal. apply IH. intros; apply Kt'; right; auto. }
      apply X. apply asg_all.
      * unfold lvs. constructor; [|constructor].
        -- intros [H|H]; [lia|]. apply in_map_iff in H. destruct H as (q & Eq & _). lia.
        -- intros H. apply in_map_iff in H. destruct H as (q & Eq & _). lia.
        -- apply FinFun.Injective_map_NoDup; [intros p q Epq; lia|apply seq_NoDup].
      * apply in_range_len in Hv. unfold lvs. cbn [length]. rewrite map_length, seq_length, Hv. reflexivity.
    + unfold b. rewrite (get_reshape_data K (d :: d :: dims) [d; d; prod dims] (data o) (i :: j :: v) [i; j; ravel dims v]) by (cbn [ravel prod]; lia).
      replace (mkArr [d; d; prod dims] (data o)) with o by (rewrite <- So; symmetry; apply arr_eta). rewrite Go by (auto; apply ravel_lt; auto).
      assert (Z : forallb (Nat.eqb 0) v = (ravel dims v =? 0)).
      { clear -Hv Hp. induction Hv as [|x n v dims Hx Hv IH]; [reflexivity|]. inversion Hp; subst. cbn [forallb ravel]. rewrite IH by auto.
        assert (0 < prod dims) by (clear -H2; induction H2; cbn; nia). destruct x as [|x]; cbn [Nat.eqb andb]; [reflexivity|]. symmetry. apply Nat.eqb_neq. nia. }
      rewrite Z. unfold delta. destruct (ravel dims v =? 0); ring.
Qed.

(** ** tensor_train_template *)
Lemma shaped_eye p d R : 0 < p -> 0 < d -> 0 < R ->
  exists a, reshape_infer (eye2 p (d * R)) [p] [R] = Ok a /\ wf a /\ shape a = [p; d; R] /\
    forall x, in_range x [d; R] -> get a (0 :: x) = @delta K (ravel [d; R] x) 0.
Proof.
  intros Hp Hd HR. assert (We : wf (eye2 (K := K) p (d * R))) by apply wf_build.
  rewrite (reshape_infer_ok K (eye2 p (d * R)) [p] [R] d) by (auto; unfold eye2; rewrite ?shape_build; cbn [prod]; nia).
  eexists. split; [reflexivity|]. split; [unfold wf in *; cbn [data shape app]; rewrite We; unfold eye2; rewrite shape_build; cbn [prod]; nia|]. split; [reflexivity|].
  intros x Hx. inversion Hx as [|n ? x' ? Hn Hx']; subst. inversion Hx' as [|r ? x'' ? Hr Hx'']; subst. inversion Hx''; subst.
  cbn [app]. rewrite (get_reshape_data K [p; d; R] [p; d * R] _ [0; n; r] [0; n * R + r]) by (cbn [ravel prod]; nia).
  change (get (eye2 (K := K) p (d * R)) [0; n * R + r] = delta (ravel [d; R] [n; r]) 0). unfold eye2. rewrite get_build by (repeat constructor; auto; nia). cbn [nth ravel prod].
  replace (n * (R * 1) + (r * 1 + 0)) with (n * R + r) by lia. unfold delta. rewrite Nat.eqb_sym. reflexivity.
Qed.
Lemma last_eye p d : 0 < p -> 0 < d -> wf (eye2 (K := K) p d) /\ shape (eye2 (K := K) p d) = [p; d] /\ forall x, in_range x [d] -> get (eye2 p d) (0 :: x) = @delta K (ravel [d] x) 0.
Proof.
  intros Hp Hd. split; [apply wf_build|]. split; [reflexivity|]. intros x Hx. inversion Hx as [|n ? x' ? Hn Hx']; subst. inversion Hx'; subst.
  unfold eye2. rewrite get_build by (repeat constructor; auto). cbn [nth ravel prod]. replace (n * 1 + 0) with n by lia. unfold delta. rewrite Nat.eqb_sym. reflexivity.
Qed.

Lemma good_ext A A' D : forall t ax d, good K A D ax d t -> (forall n, In n (nids t) -> A' n = A n) -> good K A' D ax d t.
Proof.
  induction t as [n|n ks IH] using tree_ind'; intros ax d H E; inversion H as [? ? P|? ? ? W P Hax Ki G F]; subst.
  - constructor; auto.
  - assert (En : A' n = A n) by (apply E; left; auto). rewrite <- En in *. constructor; auto.
    assert (E' : forall x, In x (flat_map (fun k => nids (k_t k)) ks) -> A' x = A x) by (intros x Hx; apply E; right; auto). clear -IH F E'.
    revert F E'. generalize (del ax (shape (A' n))). induction IH as [|k ks Hk _ IHl]; intros l F E'; inversion F; subst; constructor.
    + apply Hk; auto. intros x Hx. apply E'. cbn. apply in_app_iff. auto.
    + apply IHl; auto. intros x Hx. apply E'. cbn. apply in_app_iff. auto.
Qed.

Lemma train_ok ns total rank (D : id -> nat) : ns = 2 -> 2 <= total -> 0 < rank -> forall todo k (h : heap) prev x y nm ar au ax nz ca,
  prev < length h -> hget h prev = mkObj nm false ar au ax nz [(0, x); (1, y)] ca -> k + length todo = total -> Forall (fun d => 0 < d) todo ->
  (forall i, i < length todo -> D (length h + 1 + 2 * i) = nth i todo 0) ->
  exists h', train_loop ns total rank h prev k todo = Ok h' /\ length h' = length h + 2 * length todo /\
    (forall n, n < length h -> n <> prev -> hget h' n = hget h n) /\
    (todo = [] -> h' = h) /\
    (todo <> [] -> hget h' prev = mkObj nm false ar au ax nz [(0, x); (1, y); (2, (length h, 0))] ca /\
      exists t, top t = length h /\ hangs h' (Some (0, (prev, 2))) t /\ good K (array_at h') D 0 (if k =? 0 then 4 else rank) t /\
        (forall n, In n (ids t) -> length h <= n) /\ (forall n, In n (nids t) -> exists a, oarr (hget h' n) = Some a) /\
        lids t = map (fun i => length h + 1 + 2 * i) (seq 0 (length todo)) /\
        map (fun n => oname (hget h' n)) (lids t) = map (fun i => Some (str i)) (seq k (length todo))).
Proof.
  intros -> Ht Hr. induction todo as [|d todo IH]; intros k h prev x y nm ar au ax nz ca Hprev Ep Ek Hd HD.
  - exists h. split; [reflexivity|]. split; [cbn; lia|]. split; [auto|]. split; [auto|]. congruence.
  - pose proof (Forall_inv Hd) as Hd0. pose proof (Forall_inv_tail Hd) as Hd'. cbn [length] in Ek. cbn beta in Hd0.
    assert (Ha : exists a, train_array 2 total rank k d = Ok a /\ wf a /\ shape a = (if k =? 0 then 4 else rank) :: d :: (if length todo =? 0 then [] else [rank]) /\
      forall z, in_range z (d :: (if length todo =? 0 then [] else [rank])) -> get a (0 :: z) = @delta K (ravel (d :: (if length todo =? 0 then [] else [rank])) z) 0).
    { unfold train_array. destruct (Nat.eqb_spec k 0) as [->|Nk].
      - rewrite (proj2 (Nat.eqb_neq (length todo) 0)) by lia. apply shaped_eye; lia.
      - destruct (Nat.eqb_spec (length todo) 0) as [E0|N0].
        + rewrite (proj2 (Nat.ltb_ge k (total - 1))) by lia. eexists. split; [reflexivity|]. apply last_eye; auto.
        + rewrite (proj2 (Nat.ltb_lt k (total - 1))) by lia. apply shaped_eye; auto. }
    destruct Ha as (a & Ea & Wa & Sa & Ga). cbn [train_loop]. rewrite Ea. cbn [bind].
    set (s := length h). set (h1 := (h ++ [new_tensor (Some (str k)) (Some a) (Some 0) false]) ++ [new_leaf (Some (str k)) None]).
    assert (L1 : length h1 = S (S s)) by (unfold h1; rewrite !app_length; cbn; lia).
    assert (E1p : hget h1 prev = hget h prev). { unfold h1. rewrite !hget_app_l; auto. rewrite app_length. lia. }
    assert (E1s : hget h1 s = new_tensor (Some (str k)) (Some a) (Some 0) false). { unfold h1. rewrite hget_app_l by (rewrite app_length; cbn; lia). apply hget_app_last. }
    assert (E1l : hget h1 (S s) = new_leaf (Some (str k)) None). { unfold h1. replace (S s) with (length (h ++ [new_tensor (Some (str k)) (Some a) (Some 0) false])) by (rewrite app_length; cbn; lia). apply hget_app_last. }
    assert (E1o : forall n, n < length h -> hget h1 n = hget h n). { intros n Hn. unfold h1. rewrite !hget_app_l; auto. rewrite app_length. lia. }
    set (h2 := link h1 s 0 prev 2). set (h3 := link h2 s 1 (S s) 0).
    assert (L3 : length h3 = S (S s)) by (unfold h3, h2; rewrite !len_link; auto).
    assert (E3p : hget h3 prev = mkObj nm false ar au ax nz [(0, x); (1, y); (2, (s, 0))] ca).
    { unfold h3. rewrite hget_link_o by lia. unfold h2. rewrite hget_link_r by lia. rewrite E1p, Ep. reflexivity. }
    assert (E3s : hget h3 s = mkObj (Some (str k)) false (Some a) None (Some 0) false [(0, (prev, 2)); (1, (S s, 0))] []).
    { unfold h3. rewrite hget_link_l by (unfold h2; rewrite ?len_link; lia). unfold h2. rewrite hget_link_l by lia. rewrite E1s. reflexivity. }
    assert (E3l : hget h3 (S s) = mkObj (Some (str k)) true None None None false [(0, (s, 1))] []).
    { unfold h3. rewrite hget_link_r by (unfold h2; rewrite ?len_link; lia). unfold h2. rewrite hget_link_o by lia. rewrite E1l. reflexivity. }
    assert (E3o : forall n, n < length h -> n <> prev -> hget h3 n = hget h n).
    { intros n Hn Np. unfold h3. rewrite hget_link_o by lia. unfold h2. rewrite hget_link_o by lia. auto. }
    destruct (IH (S k) h3 s _ _ _ _ _ _ _ _ ltac:(lia) E3s ltac:(lia) Hd') as (h' & El & Ll & Lo & Lnil & Lcons).
    { intros i Hi. specialize (HD (S i) ltac:(cbn; lia)). cbn [nth] in HD. rewrite <- HD. f_equal. rewrite L3. fold s. lia. }
    exists h'. split; [exact El|]. split; [rewrite Ll, L3; cbn [length]; fold s; lia|].
    assert (Eo' : forall n, n < length h3 -> n <> s -> hget h' n = hget h3 n) by (intros n Hn Np; apply Lo; auto).
    split. { intros n Hn Np. rewrite Eo' by lia. apply E3o; auto. }
    split; [discriminate|]. intros _. assert (Ep' : hget h' prev = hget h3 prev) by (apply Eo'; lia). split; [rewrite Ep'; exact E3p|].
    assert (El' : hget h' (S s) = hget h3 (S s)) by (apply Eo'; lia).
    assert (D0 : D (S s) = d) by (specialize (HD 0 ltac:(cbn; lia)); cbn [nth] in HD; rewrite <- HD; f_equal; fold s; lia).
    destruct todo as [|d1 todo].
    + specialize (Lnil eq_refl). clearbody h3. subst h'. exists (Nd s [(1, Lf (S s), 0)]). split; [reflexivity|].
      cbn [length Nat.eqb] in Sa, Ga. assert (As : array_at h3 s = a) by (unfold array_at; rewrite E3s; reflexivity).
      split; [|split; [|split; [|split; [|split]]]].
      * apply (hangs_node K h3 s 0 (prev, 2) [] [(1, Lf (S s), 0)]); rewrite ?E3s; cbn [oleaf oacc map app k_i k_t k_j fst snd top]; auto.
        { repeat constructor; cbn; intuition discriminate. } { constructor; [|constructor]. cbn [k_t k_j k_i fst snd]. apply hangs_leaf; rewrite E3l; reflexivity. }
      * replace (if k =? 0 then 4 else rank) with (nth 0 (shape (array_at h3 s)) 0) by (rewrite As, Sa; reflexivity). constructor; rewrite ?As; unfold ndim; rewrite ?Sa; auto.
        { repeat constructor; auto. destruct (k =? 0); lia. } { cbn; lia. }
        { cbn [del Nat.add skipn firstn app]. constructor; [|constructor]. cbn [k_j k_t fst snd]. rewrite <- D0. constructor. lia. }
      * intros n Hn. cbn in Hn. fold s. lia.
      * intros n Hn. cbn in Hn. destruct Hn as [<-|[]]. rewrite E3s. cbn. eauto.
      * cbn [lids flat_map k_t fst snd app length seq map]. f_equal. fold s. lia.
      * cbn [lids flat_map k_t fst snd app length seq map]. rewrite E3l. reflexivity.
    + destruct Lcons as (Es & t & Tt & Ht' & Gt & It & At & Lt & Nt); [discriminate|].
      exists (Nd s [(1, Lf (S s), 0); (2, t, 0)]). split; [reflexivity|]. cbn [length Nat.eqb] in Sa, Ga.
      assert (As : array_at h' s = a) by (unfold array_at; rewrite Es; reflexivity).
      split; [|split; [|split; [|split; [|split]]]].
      * apply (hangs_node K h' s 0 (prev, 2) [] [(1, Lf (S s), 0); (2, t, 0)]); rewrite ?Es; cbn [oleaf oacc map app k_i k_t k_j fst snd top]; auto.
        { rewrite Tt. reflexivity. } { repeat constructor; cbn; intuition discriminate. }
        { constructor; [|constructor; [|constructor]]; cbn [k_t k_j k_i fst snd]; [|exact Ht']. apply hangs_leaf; rewrite El', E3l; reflexivity. }
      * replace (if k =? 0 then 4 else rank) with (nth 0 (shape (array_at h' s)) 0) by (rewrite As, Sa; reflexivity). constructor; rewrite ?As; unfold ndim; rewrite ?Sa; auto.
        { repeat constructor; auto. destruct (k =? 0); lia. } { cbn; lia. }
        { cbn [del Nat.add skipn firstn app]. constructor; [|constructor; [|constructor]]; cbn [k_j k_t fst snd]; [|exact Gt]. rewrite <- D0. constructor. lia. }
      * intros n Hn. cbn [ids flat_map k_t fst snd app] in Hn. rewrite app_nil_r in Hn. destruct Hn as [<-|[<-|Hn]]; fold s; [lia|lia|]. specialize (It n Hn). lia.
      * intros n Hn. cbn [nids flat_map k_t fst snd app] in Hn. rewrite app_nil_r in Hn. destruct Hn as [<-|Hn]; [rewrite Es; cbn; eauto|auto].
      * cbn [lids flat_map k_t fst snd app]. rewrite app_nil_r, Lt. change (length (d :: d1 :: todo)) with (S (length (d1 :: todo))). cbn [seq map]. f_equal; [fold s; lia|].
        change (0 :: seq 1 (length todo)) with (seq 0 (length (d1 :: todo))). change (1 :: seq 2 (length todo)) with (seq 1 (length (d1 :: todo))).
        rewrite <- seq_shift, map_map. apply map_ext. intros i. rewrite L3. fold s. lia.
      * cbn [lids flat_map k_t fst snd app]. rewrite app_nil_r. change (length (d :: d1 :: todo)) with (S (length (d1 :: todo))). cbn [seq map]. rewrite El', E3l. cbn [oname]. f_equal. exact Nt.
Qed.

Lemma train_template_ok (h : heap) rho pb rank : wf rho -> shape rho = [2; 2] -> 2 <= length pb -> Forall (fun x => 0 < x) pb -> 0 < rank ->
  exists h', tensor_train_template h rho pb rank = Ok (h', length h) /\ (forall n, n < length h -> hget h' n = hget h n) /\
    stands_for h' (length h) rho 2 (length pb) (seq 0 (length pb)) (fun k => nth k pb 0).
Proof.
  intros W E Hl Hp Hr. unfold tensor_train_template, get_n_state. rewrite E. cbn [Nat.eqb bind].
  assert (exists e : arr, first_unit 4 = Ok e) as (e & Ee) by (eexists; reflexivity).
  change (2 * 2) with 4. rewrite Ee. cbn [bind]. set (o := outer rho e). set (r := length h). set (m := length pb).
  set (h1 := h ++ [new_tensor (Some "root"%string) (Some o) None false]).
  assert (L1 : length h1 = S r) by (unfold h1; rewrite app_length; cbn; lia).
  destruct (add_leaf_ok h1 r 0 (str m) ltac:(lia)) as (L2 & O2 & R2 & N2). set (h2 := add_leaf h1 r 0 (str m)) in *.
  destruct (add_leaf_ok h2 r 1 (str (m + 1)) ltac:(lia)) as (L3 & O3 & R3 & N3). set (h3 := add_leaf h2 r 1 (str (m + 1))) in *.
  assert (Er : hget h3 r = mkObj (Some "root"%string) false (Some o) None None false [(0, (S r, 0)); (1, (S (S r), 0))] []).
  { assert (E1 : hget h1 r = new_tensor (Some "root"%string) (Some o) None false) by apply hget_app_last. rewrite R3, R2, E1, L2, L1. reflexivity. }
  set (D := fun n => nth ((n - (length h3 + 1)) / 2) pb 0).
  assert (HD : forall i, i < length pb -> D (length h3 + 1 + 2 * i) = nth i pb 0).
  { intros i Hi. unfold D. f_equal. replace (length h3 + 1 + 2 * i - (length h3 + 1)) with (i * 2) by lia. apply Nat.div_mul. lia. }
  destruct (train_ok 2 m rank D eq_refl Hl Hr pb 0 h3 r _ _ _ _ _ _ _ _ ltac:(lia) Er eq_refl Hp HD) as (h' & El & Ll & Lo & _ & Lc).
  destruct Lc as (Er' & t & Tt & Ht & Gt & It & At & Lt & Nt). { destruct pb; [cbn in Hl; lia|discriminate]. }
  exists h'. rewrite El. cbn [bind]. split; [reflexivity|]. split.
  { intros n Hn. rewrite Lo, O3, O2 by lia. unfold h1. apply hget_app_l; auto. }
  assert (Ela : hget h' (S r) = mkObj (Some (str m)) true None None None false [(0, (r, 0))] []).
  { rewrite Lo, O3 by lia. rewrite <- L1. exact N2. }
  assert (Elb : hget h' (S (S r)) = mkObj (Some (str (m + 1))) true None None None false [(0, (r, 1))] []).
  { rewrite Lo by lia. rewrite <- L1, <- L2. exact N3. }
  apply (stands_root K h' r (S r) (S (S r)) 0 0 0 t rho 2 4 m (seq 0 m) (fun k => nth k pb 0) D).
  - apply hangs_root; rewrite ?Er'; cbn [oleaf oacc map k_i k_t k_j fst snd top]; auto.
    + rewrite Tt. reflexivity.
    + repeat constructor; cbn; intuition discriminate.
    + repeat constructor; cbn [k_i k_t k_j fst snd]; [rewrite Ela|rewrite Ela|rewrite Elb|rewrite Elb|exact Ht]; reflexivity.
  - intros n [<-|Hn]; [rewrite Er'; cbn; eauto|auto].
  - lia.
  - unfold array_at. rewrite Er'. cbn [oarr]. apply outer_root; auto.
  - exact Gt.
  - assert (Hge : forall n, In n (lids t) -> length h3 <= n) by (intros n Hn; rewrite Lt in Hn; apply in_map_iff in Hn; destruct Hn as (i & <- & _); lia).
    constructor; [|constructor].
    + intros [H|H]; [lia|]. apply Hge in H. lia.
    + intros H. apply Hge in H. lia.
    + rewrite Lt. apply FinFun.Injective_map_NoDup; [intros p q Epq; lia|apply seq_NoDup].
  - rewrite Ela. reflexivity.
  - rewrite Elb. reflexivity.
  - exact Nt.
  - apply Permutation_refl.
  - rewrite Lt, map_map. apply map_ext_in. intros i Hi. apply in_seq in Hi. apply HD. lia.
Qed.
End T.
