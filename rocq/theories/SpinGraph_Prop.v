(** Property C83: the leaves and the trees of the spin-boson model. *)
From Coq Require Import String Ascii List Arith Bool Lia Reals Lra.
From Verif Require Import Py Alg Cplx ListX NdArray_Model Net_Model Net_Spec Tools_Model Template_Model Phonon_Model Spin_Model Gen_Spec Gen_Proof Gen_Prop HuffName_Proof SpinGraph_Model SpinGraph_Spec SpinGraph_Proof SpinAux_Proof.
Import ListNotations.
Notation length := Datatypes.length.
Local Open Scope nat_scope.
Local Open Scope list_scope.

Notation names m := (mode_names "I" m).
Lemma halves m : firstn (m / 2) (names m) ++ skipn (m / 2) (names m) = names m /\ length (firstn (m / 2) (names m)) = m / 2 /\ length (skipn (m / 2) (names m)) = m - m / 2.
Proof.
  split; [apply firstn_skipn|]. rewrite firstn_length, skipn_length, names_length. assert (m / 2 <= m) by (apply Nat.div_le_upper_bound; lia). split; lia.
Qed.
Lemma half_pos m : 2 <= m -> firstn (m / 2) (names m) <> [] /\ skipn (m / 2) (names m) <> [].
Proof.
  intros H. destruct (halves m) as (_ & A & B). assert (1 <= m / 2) by (apply Nat.div_le_lower_bound; lia). assert (m / 2 < m) by (apply Nat.div_lt; lia).
  split; intros E; rewrite E in *; cbn [length] in *; lia.
Qed.
Lemma elec_no_mode c m : ~ In elec_leaf (mode_names (String c EmptyString) m) \/ c = "E"%char.
Proof. destruct (ascii_dec c "E") as [->|N]; [now right|left]. intros H. apply in_map_iff in H. destruct H as (n & E & _). cbn [String.append] in E. injection E as E _. congruence. Qed.

(** The leaves are ELEC, I0, I1, ... and O0, O1, ..., all different; [inner_leaves] and
    [outer_leaves] are the two families. *)
Theorem C83_leaves p : good p ->
  leaves_of p = Ok (model_leaves (n_inner p) (n_outer p)) /\ NoDup (model_leaves (n_inner p) (n_outer p)) /\
  inner_leaves (model_leaves (n_inner p) (n_outer p)) = mode_names "I" (n_inner p) /\ outer_leaves (model_leaves (n_inner p) (n_outer p)) = mode_names "O" (n_outer p).
Proof. intros G. split; [now apply leaves_ok|]. split; [apply leaves_NoDup|]. split; [apply inner_names|apply outer_names]. Qed.
Print Assumptions C83_leaves.

(** Other parameters, lists of different lengths or a bath without modes, are refused. *)
Theorem C83_refused p fuel : ~ good p -> leaves_of p = Raise ValueError /\ graph_full p = Raise ValueError /\ graph_mctdh p = Raise ValueError /\ graph_auto p fuel = Raise ValueError.
Proof.
  intros G. assert (E : leaves_of p = Raise ValueError).
  { unfold leaves_of, dimensions, inner_couplings. destruct (length (sp_lambdas p) =? length (sp_omegas p))%nat eqn:L; [|reflexivity]. apply Nat.eqb_eq in L. cbn [bind].
    destruct (sp_outer p) as [[[|md modes] dim]|] eqn:O; [reflexivity|..]; exfalso; apply G; (split; [exact L|]); intros d; congruence. }
  unfold graph_full, graph_mctdh, graph_auto. rewrite E. repeat split; reflexivity.
Qed.
Print Assumptions C83_refused.

(** The terms of the Hamiltonian use these leaves, with square matrices of their dimensions. *)
Theorem C83_terms p hs : all_terms p = Ok hs -> Forall (fun n => 1 <= n) (sp_dims p) -> (forall modes dim, sp_outer p = Some (modes, dim) -> 1 <= dim) ->
  exists d, dimensions p = Ok d /\ Forall (term_fits d) hs.
Proof. apply terms_fit. Qed.
Print Assumptions C83_terms.

(** [autograph_full]: one tensor with all the leaves. *)
Theorem C83_full p : good p -> sp_outer p = None -> exists g, graph_full p = Ok (g, "ROOT"%string) /\
  (forall x, tree_leaf (look g) "ROOT" x <-> In x (model_leaves (n_inner p) 0)) /\
  forall (K : StarRing) (h : heap K) fuel, 1 <= fuel -> exists h' t, generate (look g) fuel h "ROOT" = Ok (h', length h) /\ realises h' None (SNd "ROOT" (map SLf (model_leaves (n_inner p) 0))) t.
Proof.
  intros G O. destruct (full_ok p O G) as (g & E & U). exists g. split; [exact E|]. split.
  - intros x. change "ROOT"%string with (sname (SNd "ROOT" (map SLf (model_leaves (n_inner p) 0)))). rewrite (tree_leaves (look g) _ x U). cbn [stips]. rewrite flat_map_map, flat_leaves. reflexivity.
  - intros K h fuel F. destruct (C13_realises_graph K (look g) fuel h "ROOT" _ U) as (h' & t & E' & _ & R & _); [|..|exists h', t; auto].
    + cbn [snames]. rewrite flat_map_map. rewrite (flat_map_ext _ (fun y => [y])) by reflexivity. constructor.
      * intros I. apply in_flat_map in I. destruct I as (x & I & [J|[]]). apply model_named, plain_leaf in I. unfold plain in I. tauto.
      * replace (flat_map (fun y : string => [y]) (model_leaves (n_inner p) 0)) with (model_leaves (n_inner p) 0); [apply leaves_NoDup|]. symmetry. apply flat_leaves.
    + cbn [skeys]. rewrite map_map. cbn [skeys]. clear -F. replace (list_sum (map (fun _ : string => 0) (model_leaves (n_inner p) 0))) with 0; [exact F|]. induction (model_leaves (n_inner p) 0) as [|x l IH]; auto.
Qed.
Print Assumptions C83_full.

(** [autograph_mctdh]: the leaves of the tree are ELEC and the characters of the names. *)
Theorem C83_mctdh p : good p -> sp_outer p = None -> exists g, graph_mctdh p = Ok (g, "ROOT"%string) /\
  forall x, tree_leaf (look g) "ROOT" x <-> x = "ELEC"%string \/ exists n c, n < n_inner p /\ x = String c EmptyString /\ In c (list_ascii_of_string ("I" ++ str n)).
Proof.
  intros G O. destruct (mctdh_ok p O G) as (g & E & U). exists g. split; [exact E|]. intros x. change "ROOT"%string with (sname (SNd "ROOT" (SLf elec_leaf :: map spf_tree (names (n_inner p))))).
  rewrite (tree_leaves (look g) _ x U), mctdh_tips. cbn [In]. rewrite in_flat_map. unfold elec_leaf. split.
  - intros [<-|(y & I & J)]; [now left|right]. apply in_map_iff in I. destruct I as (n & <- & I). apply in_seq in I. apply in_map_iff in J. destruct J as (c & <- & J). exists n, c. repeat split; auto. lia.
  - intros [->|(n & c & Hn & -> & Hc)]; [now left|right]. exists ("I" ++ str n)%string. split; apply in_map_iff; [exists n|exists c]; split; auto. apply in_seq. lia.
Qed.
Print Assumptions C83_mctdh.
(** So no mode is a leaf of that tree. *)
Theorem C83_mctdh_refuted p : good p -> sp_outer p = None -> exists g, graph_mctdh p = Ok (g, "ROOT"%string) /\ forall n, ~ tree_leaf (look g) "ROOT" ("I" ++ str n).
Proof.
  intros G O. destruct (mctdh_ok p O G) as (g & E & U). exists g. split; [exact E|]. intros n. change "ROOT"%string with (sname (SNd "ROOT" (SLf elec_leaf :: map spf_tree (names (n_inner p))))).
  rewrite (tree_leaves (look g) _ _ U), mctdh_tips. apply mctdh_lost.
Qed.
Print Assumptions C83_mctdh_refuted.
(** Both refuse a bath. *)
Theorem C83_not_with_bath p o : good p -> sp_outer p = Some o -> graph_full p = Raise NotImplementedError /\ graph_mctdh p = Raise NotImplementedError.
Proof. intros G O. unfold graph_full, graph_mctdh. rewrite (leaves_ok p G). unfold has_bath. rewrite O. split; reflexivity. Qed.
Print Assumptions C83_not_with_bath.

Lemma auto_facts (p : spin_params) : good p -> forall l1 l2, (if has_bath p then l1 = mode_names "I" (n_inner p) /\ l2 = mode_names "O" (n_outer p) else l1 = firstn (n_inner p / 2) (names (n_inner p)) /\ l2 = skipn (n_inner p / 2) (names (n_inner p))) ->
  model_leaves (n_inner p) (n_outer p) = "ELEC"%string :: l1 ++ l2 /\ Forall leaf_name (l1 ++ l2) /\ NoDup (l1 ++ l2) /\ ~ In "ELEC"%string (l1 ++ l2).
Proof.
  intros G l1 l2 H. assert (E : model_leaves (n_inner p) (n_outer p) = "ELEC"%string :: l1 ++ l2).
  { unfold has_bath, n_outer in *. destruct (sp_outer p) as [[modes dim]|]; destruct H as (-> & ->); [reflexivity|]. unfold model_leaves. rewrite firstn_skipn. cbn [mode_names seq map]. f_equal. apply app_nil_r. }
  pose proof (leaves_NoDup (n_inner p) (n_outer p)) as D. rewrite E in D. inversion D as [|? ? N D']; subst. repeat split; auto.
  apply Forall_forall. intros x I. apply (model_named (n_inner p) (n_outer p)). rewrite E. now right.
Qed.

(** [autograph] without a bath: IndexError for less than two modes; otherwise below INNER there
    is what [kept] leaves of the first half of the modes, below OUTER of the second half. *)
Theorem C83_autograph p fuel : good p -> sp_outer p = None -> n_inner p < fuel -> let m := n_inner p in
  (m < 2 -> graph_auto p fuel = Raise IndexError) /\
  (2 <= m -> exists g, graph_auto p fuel = Ok (g, "ROOT"%string) /\
    forall x, tree_leaf (look g) "ROOT" x <-> x = "ELEC"%string \/ In x (kept "INNER" "AI11" (firstn (m / 2) (names m)) ++ kept "OUTER" "AI21" (skipn (m / 2) (names m)))).
Proof.
  intros G O F m. unfold graph_auto. rewrite (leaves_ok p G). cbn [bind]. assert (Eb : has_bath p = false) by (unfold has_bath; now rewrite O). split.
  - intros H. rewrite Eb. unfold autograph. rewrite inner_names, names_length. fold m. replace (m / 2) with 0 by (symmetry; apply Nat.div_small; lia). destruct fuel; [lia|]. reflexivity.
  - intros H. destruct (halves m) as (E & L1 & L2). destruct (half_pos m H) as (N1 & N2).
    destruct (auto_facts p G (firstn (m / 2) (names m)) (skipn (m / 2) (names m))) as (_ & Fl & _); [rewrite Eb; auto|].
    assert (m / 2 <= m) by (apply Nat.div_le_upper_bound; lia).
    destruct (auto_gen (has_bath p) (model_leaves (n_inner p) (n_outer p)) fuel elec_leaf (firstn (m / 2) (names m)) "AI1" (skipn (m / 2) (names m)) "AI2" eq_refl ltac:(cbn; auto) Fl N1 N2 ltac:(lia) ltac:(lia)) as (g & Eg & _ & T).
    + rewrite Eb, inner_names, names_length. auto.
    + exists g. split; [exact Eg|exact T].
Qed.
Print Assumptions C83_autograph.
(** With a bath: the inner modes below INNER and the outer ones below OUTER. *)
Theorem C83_autograph_bath p o fuel : good p -> sp_outer p = Some o -> n_inner p < fuel -> n_outer p < fuel ->
  (n_inner p = 0 -> graph_auto p fuel = Raise IndexError) /\
  (1 <= n_inner p -> exists g, graph_auto p fuel = Ok (g, "ROOT"%string) /\
    forall x, tree_leaf (look g) "ROOT" x <-> x = "ELEC"%string \/ In x (kept "INNER" "AI1" (mode_names "I" (n_inner p)) ++ kept "OUTER" "AO1" (mode_names "O" (n_outer p)))).
Proof.
  intros G O F1 F2. unfold graph_auto. rewrite (leaves_ok p G). cbn [bind]. assert (Eb : has_bath p = true) by (unfold has_bath; now rewrite O). split.
  - intros H. rewrite Eb. unfold autograph. rewrite inner_names, H. destruct fuel; [lia|]. reflexivity.
  - intros H. assert (Ho : 1 <= n_outer p). { destruct G as (_ & G). unfold n_outer. rewrite O in *. destruct o as [[|md modes] dim]; [exfalso; now apply (G dim)|cbn [length]; lia]. }
    assert (NN : forall c m, 1 <= m -> mode_names c m <> []) by (intros c m Hm E; apply (f_equal (@length _)) in E; rewrite names_length in E; cbn in E; lia).
    destruct (auto_facts p G (mode_names "I" (n_inner p)) (mode_names "O" (n_outer p))) as (_ & Fl & _); [rewrite Eb; auto|].
    destruct (auto_gen (has_bath p) (model_leaves (n_inner p) (n_outer p)) fuel elec_leaf (mode_names "I" (n_inner p)) "AI" (mode_names "O" (n_outer p)) "AO" eq_refl ltac:(cbn; auto) Fl (NN _ _ H) (NN _ _ Ho)) as (g & Eg & _ & T).
    + rewrite names_length. lia.
    + rewrite names_length. lia.
    + rewrite Eb, inner_names, outer_names. auto.
    + exists g. split; [exact Eg|exact T].
Qed.
Print Assumptions C83_autograph_bath.
(** The tree has all the leaves of the model in two cases only: four inner modes and no bath, or
    two inner and two outer ones. *)
Theorem C83_autograph_complete p fuel g r : good p -> n_inner p < fuel -> n_outer p < fuel -> graph_auto p fuel = Ok (g, r) ->
  ((forall x, In x (model_leaves (n_inner p) (n_outer p)) -> tree_leaf (look g) r x) <-> match sp_outer p with None => n_inner p = 4 | Some _ => n_inner p = 2 /\ n_outer p = 2 end).
Proof.
  intros G F1 F2 E. destruct (sp_outer p) as [o|] eqn:O.
  - destruct (C83_autograph_bath p o fuel G O F1 F2) as (A & B). destruct (Nat.eq_dec (n_inner p) 0) as [Z|Z]; [rewrite (A Z) in E; discriminate E|]. assert (Hi : 1 <= n_inner p) by lia. destruct (B Hi) as (g' & E' & T). rewrite E' in E. injection E as <- <-.
    assert (Ho : 1 <= n_outer p). { destruct G as (_ & G). unfold n_outer. rewrite O in *. destruct o as [[|md modes] dim]; [exfalso; now apply (G dim)|cbn [length]; lia]. }
    assert (NN : forall c m, 1 <= m -> mode_names c m <> []) by (intros c m Hm Em; apply (f_equal (@length _)) in Em; rewrite names_length in Em; cbn in Em; lia).
    destruct (auto_facts p G (mode_names "I" (n_inner p)) (mode_names "O" (n_outer p))) as (El & Fl & D & Ne); [unfold has_bath; rewrite O; auto|].
    pose proof (auto_complete "AI" "AO" _ _ ltac:(cbn; auto) Fl D Ne (NN _ _ Hi) (NN _ _ Ho)) as Q. rewrite !names_length in Q. rewrite El, <- Q. split; intros H x I; specialize (H x I); [apply T in H|apply T]; exact H.
  - destruct (C83_autograph p fuel G O F1) as (A & B). destruct (le_lt_dec 2 (n_inner p)) as [Z|Z]; [|rewrite (A Z) in E; discriminate E]. destruct (B Z) as (g' & E' & T). rewrite E' in E. injection E as <- <-.
    destruct (halves (n_inner p)) as (Eh & L1 & L2). destruct (half_pos _ Z) as (N1 & N2).
    destruct (auto_facts p G (firstn (n_inner p / 2) (names (n_inner p))) (skipn (n_inner p / 2) (names (n_inner p)))) as (El & Fl & D & Ne); [unfold has_bath; rewrite O; auto|].
    pose proof (auto_complete "AI1" "AI2" _ _ ltac:(cbn; auto) Fl D Ne N1 N2) as Q. rewrite L1, L2 in Q. rewrite El.
    transitivity (n_inner p / 2 = 2 /\ n_inner p - n_inner p / 2 = 2); [|split; [lia|intros ->; split; reflexivity]].
    rewrite <- Q. split; intros H x I; specialize (H x I); [apply T in H|apply T]; exact H.
Qed.
Print Assumptions C83_autograph_complete.

(** [autograph_with_aux] (lists [l1], [l2] of modes as in [autograph]): [dimensions] gets a copy
    of each entry under the name with a prime, and a kept pair stands for a leaf and its copy. *)
Theorem C83_with_aux p fuel : good p -> n_inner p < fuel -> n_outer p < fuel ->
  let m := n_inner p in
  let l1 := match sp_outer p with None => firstn (m / 2) (names m) | Some _ => names m end in
  let l2 := match sp_outer p with None => skipn (m / 2) (names m) | Some _ => mode_names "O" (n_outer p) end in
  let s := fun x => (x ++ "s")%string in
  l1 <> [] -> l2 <> [] ->
  exists g d, dimensions p = Ok d /\ graph_with_aux p fuel = Ok (g, "ROOT"%string, d ++ map (fun kv => ((fst kv ++ "'")%string, snd kv)) d) /\
    (forall x, tree_leaf (look g) "ROOT" x <-> exists y, In y ("ELECs"%string :: kept "INNER" "AI1" (map s l1) ++ kept "OUTER" "AO1" (map s l2)) /\
       ((exists z, In z (model_leaves m (n_outer p)) /\ y = (z ++ "s")%string /\ (x = z \/ x = (z ++ "'")%string)) \/ (x = y /\ forall z, In z (model_leaves m (n_outer p)) -> y <> (z ++ "s")%string))) /\
    ((forall x, In x (model_leaves m (n_outer p)) -> tree_leaf (look g) "ROOT" x) <-> length l1 = 2 /\ length l2 = 2).
Proof.
  intros G F1 F2 m l1 l2 s N1 N2. destruct (dims_ok p G) as (d & Ed & En). unfold graph_with_aux. rewrite Ed. cbn [bind].
  destruct (auto_facts p G l1 l2) as (El & Fl & D & Ne); [unfold has_bath, l1, l2; destruct (sp_outer p); auto|].
  assert (Dl : NoDup (map fst d)) by (rewrite En; apply leaves_NoDup).
  assert (Ll : forall x, In x (map fst d) -> leaf_name x) by (intros x I; rewrite En in I; eapply model_named; eauto).
  assert (Le : In elec_leaf (map fst d)) by (rewrite En; now left).
  assert (I12 : forall x, In x (l1 ++ l2) -> In x (map fst d)) by (intros x I; rewrite En, El; now right).
  assert (Lf : length l1 <= fuel /\ length l2 <= fuel).
  { unfold l1, l2. destruct (halves m) as (_ & L1 & L2). assert (m / 2 <= m) by (apply Nat.div_le_upper_bound; lia). fold m in F1. destruct (sp_outer p); rewrite ?L1, ?L2, ?names_length; lia. }
  assert (B : if has_bath p then l1 = inner_leaves (map fst d) /\ l2 = outer_leaves (map fst d)
     else l1 = firstn (length (inner_leaves (map fst d)) / 2) (inner_leaves (map fst d)) /\ l2 = skipn (length (inner_leaves (map fst d)) / 2) (inner_leaves (map fst d))).
  { rewrite En, inner_names, outer_names, names_length. unfold has_bath, l1, l2. fold m. destruct (sp_outer p); auto. }
  destruct (aux_gen d l1 l2 fuel (has_bath p) Dl Ll Le I12 N1 N2 (proj1 Lf) (proj2 Lf) B) as (g & Eg & _ & T). exists g, d. split; [reflexivity|]. split; [exact Eg|]. split.
  - intros x. rewrite T. fold m in En. rewrite <- En. split; intros (y & Iy & H); exists y; (split; [exact Iy|]); apply pair_leaves; exact H.
  - assert (Lv : forall x, In x (map fst d) -> x = elec_leaf \/ In x (l1 ++ l2)) by (intros x I; rewrite En, El in I; destruct I as [I|I]; [left; now symmetry|now right]).
    rewrite <- (aux_complete d l1 l2 fuel (has_bath p) Ll I12 N1 N2 (proj1 Lf) (proj2 Lf) B D Lv Ne). fold m in En. rewrite <- En. split; intros H x I; specialize (H x I); apply T; exact H.
Qed.
Print Assumptions C83_with_aux.

(** ** Examples *)
Definition p83 (m : nat) (o : option (list (R * R) * nat)) : spin_params :=
  mkSpin 0 1 2 (repeat 1%R m) (repeat 3%R m) (repeat 5 m) o None (fun _ => None).
Lemma good83 m o : o <> Some ([], 7) -> (forall l d, o = Some (l, d) -> d = 7) -> good (p83 m o).
Proof. intros H Hd. split; [cbn; now rewrite !repeat_length|]. cbn. intros d E. rewrite (Hd _ _ E) in E. congruence. Qed.
(** A bath without modes *)
Example C83_example_refused : ~ good (p83 2 (Some ([], 7))) /\ leaves_of (p83 2 (Some ([], 7))) = Raise ValueError.
Proof. assert (G : ~ good (p83 2 (Some ([], 7)))) by (intros (_ & G); now apply (G 7)). split; [exact G|exact (proj1 (C83_refused _ 9 G))]. Qed.
(** Four modes: the whole model.  Five: three of the modes are lost. *)
Example C83_example_four : n_inner (p83 4 None) = 4 /\ exists g, graph_auto (p83 4 None) 9 = Ok (g, "ROOT"%string) /\ forall x, In x (model_leaves 4 0) -> tree_leaf (look g) "ROOT" x.
Proof.
  assert (G : good (p83 4 None)) by (apply good83; discriminate). split; [reflexivity|].
  destruct (C83_autograph (p83 4 None) 9 G eq_refl ltac:(cbn; lia)) as (_ & B). destruct (B ltac:(cbn; lia)) as (g & E & _). exists g. split; [exact E|].
  apply (C83_autograph_complete (p83 4 None) 9 g "ROOT" G ltac:(cbn; lia) ltac:(cbn; lia) E). reflexivity.
Qed.
Example C83_example_five : autograph false (model_leaves 5 0) 9
  = Ok ([("ROOT", ["ELEC"; "INNER"; "OUTER"]); ("INNER", ["I0"; "I1"]); ("OUTER", ["I4"; "AI21"])]%string, "ROOT"%string).
Proof. reflexivity. Qed.
Example C83_example_bath : autograph true (model_leaves 1 4) 9
  = Ok ([("ROOT", ["ELEC"; "INNER"; "OUTER"]); ("OUTER", ["AO1"; "AO1"])]%string, "ROOT"%string).
Proof. reflexivity. Qed.
Example C83_example_mctdh : autograph_mctdh false (model_leaves 2 0)
  = Ok ([("ROOT", ["ELEC"; "I0s"; "I1s"]); ("I0s", ["I"; "0"]); ("I1s", ["I"; "1"])]%string, "ROOT"%string).
Proof. reflexivity. Qed.
Example C83_example_aux : autograph_with_aux false [("ELEC", 2); ("I0", 3); ("I1", 3); ("I2", 5)]%string 9
  = Ok ([("ROOT", ["ELECs"; "INNER"; "OUTER"]); ("OUTER", ["I1s"; "I2s"]); ("ELECs", ["ELEC"; "ELEC'"]); ("I0s", ["I0"; "I0'"]); ("I1s", ["I1"; "I1'"]); ("I2s", ["I2"; "I2'"])]%string, "ROOT"%string,
        [("ELEC", 2); ("I0", 3); ("I1", 3); ("I2", 5); ("ELEC'", 2); ("I0'", 3); ("I1'", 3); ("I2'", 5)]%string).
Proof. reflexivity. Qed.
