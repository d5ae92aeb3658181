(** Proofs about the spin-boson model. *)
From Coq Require Import String Ascii List Arith Bool Lia Reals Lra.
From Verif Require Import Py Alg Cplx ListX NdArray_Model NdArray_Proof Template_Model Template_Spec Template_Proof Phonon_Model Phonon_Spec Phonon_Proof Spin_Model Spin_Spec.
Import ListNotations.
Notation length := Datatypes.length.
Local Open Scope nat_scope.
Local Open Scope list_scope.

(** ** Collecting *)
Section Collect.
Variable K : StarRing.
Add Ring Kr : (r_theory K).
Local Open Scope star_scope.
Notation entry := (string * arr K)%type.
Definition square (n : nat) (a : arr K) : Prop := wf a /\ shape a = [n; n].
Fixpoint gets (l : list (arr K)) (i j : nat) : K := match l with [] => 0 | a :: l => get a [i; j] + gets l i j end.
Lemma sum_some n : forall l b, square n b -> Forall (square n) l -> exists A, sum_from (Some b) l = Ok (Some A) /\ square n A /\ forall i j, (i < n)%nat -> (j < n)%nat -> get A [i; j] = get b [i; j] + gets l i j.
Proof.
  induction l as [|a l IH]; intros b Hb F; cbn [sum_from gets]; [exists b; split; [reflexivity|split; [exact Hb|intros; ring]]|]. inversion F as [|x y [Wa Sa] F']; subst. destruct Hb as [Wb Sb].
  rewrite arr_add_ok by (auto; congruence). cbn [bind]. destruct (IH (build (shape b) (fun idx => radd (get b idx) (get a idx)))) as (A & E & SA & G); [split; [apply wf_build|rewrite shape_build; exact Sb]|exact F'|].
  exists A. split; [exact E|]. split; [exact SA|]. intros i j Hi Hj. rewrite G by auto. rewrite get_build by (rewrite Sb; apply in_range2; auto). ring.
Qed.
Lemma sum_none n l : l <> [] -> Forall (square n) l -> exists A, sum_from None l = Ok (Some A) /\ square n A /\ forall i j, (i < n)%nat -> (j < n)%nat -> get A [i; j] = gets l i j.
Proof. intros H F. destruct l as [|a l]; [congruence|]. inversion F as [|x y Ha F']; subst. cbn [sum_from gets]. apply sum_some; auto. Qed.
Lemma condition_only e (t : list entry) : condition e t = true <-> only_on e t.
Proof.
  unfold condition, only_on. destruct t as [|[l a] [|x t]]; try (split; [discriminate|intros (b & E); discriminate E]). split.
  - intros H. apply String.eqb_eq in H. subst. eauto.
  - intros (b & E). injection E as -> _. apply String.eqb_refl.
Qed.
Lemma elem_only leaves e (a : arr K) x y : elem leaves [(e, a)] x y = agree leaves [e] x y * get a [x e; y e].
Proof. unfold elem. cbn [map fst locals]. ring. Qed.
Lemma total_split leaves e (hs : list (list entry)) x y :
  total leaves hs x y = agree leaves [e] x y * gets (elec_arrays e hs) (x e) (y e) + total leaves (left_list e hs) x y.
Proof.
  induction hs as [|t hs IH]; unfold elec_arrays, left_list in *; cbn [total filter map gets]; [ring|]. rewrite IH. destruct (condition e t) eqn:E; cbn [negb map gets total]; [|ring].
  apply condition_only in E as (a & ->). rewrite elem_only. ring.
Qed.
Lemma total_app leaves (h1 h2 : list (list entry)) x y : total leaves (h1 ++ h2) x y = total leaves h1 x y + total leaves h2 x y.
Proof. induction h1 as [|t h1 IH]; cbn [app total]; [ring|]. rewrite IH. ring. Qed.
Lemma elec_arrays_square n e (hs : list (list entry)) : (forall a, In [(e, a)] hs -> square n a) -> Forall (square n) (elec_arrays e hs).
Proof.
  intros H. unfold elec_arrays. apply Forall_forall. intros a Ha. apply in_map_iff in Ha as (t & Et & Ht). apply filter_In in Ht as (Ht & C). apply condition_only in C as (b & ->). subst a. apply H. exact Ht.
Qed.
Lemma elec_arrays_some e (hs : list (list entry)) : (exists t, In t hs /\ only_on e t) -> elec_arrays e hs <> [].
Proof.
  intros (t & Ht & O) E. apply map_eq_nil in E. assert (In t (filter (condition e) hs)) as X by (apply filter_In; split; [exact Ht|apply condition_only; exact O]). rewrite E in X. destruct X.
Qed.
Lemma elec_arrays_none e (hs : list (list entry)) : (forall t, In t hs -> ~ only_on e t) -> elec_arrays e hs = [] /\ left_list e hs = hs.
Proof.
  intros H. unfold elec_arrays, left_list. induction hs as [|t hs IH]; [split; reflexivity|]. cbn [filter]. destruct (condition e t) eqn:E; [apply condition_only in E; destruct (H t (or_introl eq_refl) E)|].
  cbn [negb]. destruct IH as (I & J); [intros; apply H; right; auto|]. split; [exact I|rewrite J; reflexivity].
Qed.
Lemma left_others e (hs : list (list entry)) : others e hs (left_list e hs).
Proof.
  unfold left_list. induction hs as [|t hs IH]; cbn [filter]; [apply others_nil|]. destruct (condition e t) eqn:E; cbn [negb].
  - apply others_drop; [apply condition_only; exact E|exact IH].
  - apply others_keep; [intros O; apply condition_only in O; congruence|exact IH].
Qed.
End Collect.

(** ** The terms *)
Add Ring Csp : (r_theory C_star).
Local Open Scope star_scope.
Lemma mat2_entries a b c d : entries 2 (mat2 a b c d) (two a b c d).
Proof.
  split; [reflexivity|]. split; [reflexivity|]. intros [|[|i]] [|[|j]] Hi Hj; try lia; reflexivity.
Qed.
Lemma coordinate_q n w : (1 <= n)%nat -> (0 < w)%R -> exists X, coordinate_dense n w 1 1 = Ok X /\ entries n X (q_elem w).
Proof.
  intros Hn Hw. destruct (coordinate_entries n w 1 1 Hn) as (X & E & (W & S1 & G)). exists X. split; [exact E|]. split; [exact W|]. split; [exact S1|]. intros i j Hi Hj. rewrite G by auto. unfold x_coeff, q_elem.
  replace (1 / 1 / w / 2)%R with (1 / (2 * w))%R by (field; lra). rewrite RtoC_mul. f_equal. unfold raise_entry, lower_entry. rewrite (Nat.eqb_sym (S i) j).
  destruct (Nat.eqb_spec i (S j)), (Nat.eqb_spec j (S i)); try lia; try ring. change (RtoC 0) with (0 : C_star). ring.
Qed.
Lemma level_entries n w : entries n (hamiltonian_dense n w 1) (level w).
Proof.
  unfold hamiltonian_dense. destruct (diag_entries n (fun k => 1 * w * (0.5 + INR k))%R) as (W & S1 & G). split; [exact W|]. split; [exact S1|]. intros i j Hi Hj. rewrite G by auto. unfold diagonal, level. destruct (i =? j)%nat; [|reflexivity].
  f_equal. lra.
Qed.
Definition mode_ok (prefix : string) (x y : config) (p : nat * (nat * (R * R))) : Prop :=
  let '(n, (dim, (w, c))) := p in let l := (prefix ++ dec n)%string in (0 < w)%R /\ (x l < dim)%nat /\ (y l < dim)%nat.
Lemma vib_total leaves prefix x y p : (x elec_leaf < 2)%nat -> (y elec_leaf < 2)%nat -> mode_ok prefix x y p ->
  exists ts, vib_terms prefix p = Ok ts /\ total leaves ts x y = mode_elem leaves elec_leaf ((prefix ++ dec (fst p))%string, snd (snd p)) x y.
Proof.
  intros Hx Hy. destruct p as [n [dim [w c]]]. intros (Hw & Lx & Ly). destruct (coordinate_q dim w) as (q & Eq & (_ & _ & Gq)); [lia|exact Hw|].
  unfold vib_terms. rewrite Eq. cbn [bind]. eexists. split; [reflexivity|]. rewrite str_dec. cbn [fst snd]. set (l := (prefix ++ dec n)%string) in *. unfold mode_elem.
  destruct (level_entries dim w) as (_ & _ & Gl). destruct (mat2_entries 0 0 0 1) as (_ & _ & Gp).
  cbn [total]. unfold elem. cbn [map fst locals]. rewrite !get_scale, Gq, Gl, Gp by auto.
  replace (RtoC (- 2 * c)) with (RtoC (- w) * RtoC (2 * (c / w))) by (rewrite <- RtoC_mul; f_equal; field; lra).
  replace (2 * c ^ 2 / w ^ 2)%R with (2 * (c / w) ^ 2)%R by (field; lra). ring.
Qed.
Lemma rel_total leaves prefix x y p : (x elec_leaf < 2)%nat -> (y elec_leaf < 2)%nat -> mode_ok prefix x y p ->
  exists ts, rel_terms prefix p = Ok ts /\ total leaves ts x y = relax_elem leaves elec_leaf ((prefix ++ dec (fst p))%string, snd (snd p)) x y.
Proof.
  intros Hx Hy. destruct p as [n [dim [w c]]]. intros (Hw & Lx & Ly). destruct (coordinate_q dim w) as (q & Eq & (_ & _ & Gq)); [lia|exact Hw|].
  unfold rel_terms. rewrite Eq. cbn [bind]. eexists. split; [reflexivity|]. rewrite str_dec. cbn [fst snd]. set (l := (prefix ++ dec n)%string) in *. unfold relax_elem.
  destruct (mat2_entries 0 1 1 0) as (_ & _ & Gp). cbn [total]. unfold elem. cbn [map fst locals]. rewrite !get_scale, Gq, Gp by auto.
  replace (RtoC c) with (RtoC w * RtoC (c / w)) by (rewrite <- RtoC_mul; f_equal; field; lra). ring.
Qed.
Lemma concat_total {A} leaves (f : A -> res (list (list centry))) (g : A -> C_star) x y l : (forall p, In p l -> exists ts, f p = Ok ts /\ total leaves ts x y = g p) ->
  exists ts, concatM f l = Ok ts /\ total leaves ts x y = sum_of g l.
Proof.
  induction l as [|p l IH]; intros H; cbn [concatM]; [exists []; split; reflexivity|]. destruct (H p (or_introl eq_refl)) as (ts & E & T). rewrite E. cbn [bind]. destruct IH as (us & E' & T'); [intros; apply H; right; auto|]. rewrite E'. cbn [bind].
  eexists. split; [reflexivity|]. rewrite total_app, T, T'. reflexivity.
Qed.
Lemma enum_named prefix : forall (dims : list nat) (l : list (R * R)) a, length dims = length l ->
  map (fun p => ((prefix ++ dec (fst p))%string, snd (snd p))) (enum a (combine dims l)) = combine (map (fun j => (prefix ++ dec j)%string) (seq a (length l))) l.
Proof. induction dims as [|d dims IH]; intros [|m l] a E; try discriminate E; [reflexivity|]. cbn [combine enum map length seq fst snd]. f_equal. apply IH. cbn [length] in E. lia. Qed.
Lemma sum_map {A B} (f : B -> C_star) (g : A -> B) l : sum_of f (map g l) = sum_of (fun a => f (g a)) l.
Proof. induction l as [|a l IH]; [reflexivity|]. cbn [map]. unfold sum_of in *. cbn [fold_right]. now rewrite IH. Qed.
Lemma sum_app {A} (f : A -> C_star) l r : sum_of f (l ++ r) = sum_of f l + sum_of f r.
Proof. unfold sum_of. induction l as [|a l IH]; cbn [app fold_right]; [ring|]. rewrite IH. ring. Qed.
Lemma in_enum {A} : forall (l : list A) a p d, In p (enum a l) -> (a <= fst p)%nat /\ (fst p - a < length l)%nat /\ snd p = nth (fst p - a) l d.
Proof.
  induction l as [|m l IH]; intros a p d H; [destruct H|]. cbn [enum] in H. destruct H as [<-|H]; [cbn [fst snd]; rewrite Nat.sub_diag; cbn; repeat split; lia|].
  destruct (IH (S a) p d H) as (I & J & E). split; [lia|]. replace (fst p - a)%nat with (S (fst p - S a)) by lia. cbn [length nth]. split; [lia|exact E].
Qed.
(** The states of the modes are below their dimensions and the frequencies are positive *)
Definition fits (prefix : string) (dims : list nat) (ws : list R) (x : config) : Prop := forall j, (j < length ws)%nat -> (0 < nth j ws 0%R)%R /\ (x (prefix ++ dec j)%string < nth j dims 0)%nat.
Lemma fits_modes prefix dims ws cs x y : length dims = length ws -> length cs = length ws -> fits prefix dims ws x -> fits prefix dims ws y ->
  forall p, In p (enum 0 (combine dims (combine ws cs))) -> mode_ok prefix x y p.
Proof.
  intros Ld Lc Hx Hy p Hp. apply (in_enum _ 0 p (O, (0, 0)%R)) in Hp as (_ & Hl & E). rewrite Nat.sub_0_r in *. rewrite !combine_length in Hl. destruct p as [n [dim [w c]]]. cbn [fst snd] in *.
  rewrite combine_nth in E by (rewrite combine_length; lia). rewrite combine_nth in E by lia. injection E as -> -> _. destruct (Hx n) as (A & B); [lia|]. destruct (Hy n) as (_ & C); [lia|]. unfold mode_ok. auto.
Qed.
Section Vib.
Variables (leaves : list string) (prefix : string) (dims : list nat) (ws cs : list R) (x y : config).
Hypotheses (Ld : length dims = length ws) (Lc : length cs = length ws) (Hx : fits prefix dims ws x) (Hy : fits prefix dims ws y).
Hypotheses (Ex : (x elec_leaf < 2)%nat) (Ey : (y elec_leaf < 2)%nat).
Lemma vibration_total : exists ts, vibration_hamiltonian ws cs dims prefix = Ok ts /\ total leaves ts x y = sum_of (fun m => mode_elem leaves elec_leaf m x y) (named prefix (combine ws cs)).
Proof.
  destruct (concat_total leaves (vib_terms prefix) (fun p => mode_elem leaves elec_leaf ((prefix ++ dec (fst p))%string, snd (snd p)) x y) x y (enum 0 (combine dims (combine ws cs)))) as (ts & E & T).
  - intros p Hp. apply vib_total; auto. apply (fits_modes prefix dims ws cs); auto.
  - exists ts. split; [exact E|]. rewrite T. unfold named. rewrite <- (enum_named prefix dims) by (rewrite combine_length; lia). rewrite sum_map. reflexivity.
Qed.
Lemma relaxation_total_gen : exists ts, concatM (rel_terms prefix) (enum 0 (combine dims (combine ws cs))) = Ok ts /\ total leaves ts x y = sum_of (fun m => relax_elem leaves elec_leaf m x y) (named prefix (combine ws cs)).
Proof.
  destruct (concat_total leaves (rel_terms prefix) (fun p => relax_elem leaves elec_leaf ((prefix ++ dec (fst p))%string, snd (snd p)) x y) x y (enum 0 (combine dims (combine ws cs)))) as (ts & E & T).
  - intros p Hp. apply rel_total; auto. apply (fits_modes prefix dims ws cs); auto.
  - exists ts. split; [exact E|]. rewrite T. unfold named. rewrite <- (enum_named prefix dims) by (rewrite combine_length; lia). rewrite sum_map. reflexivity.
Qed.
End Vib.
(** Terms on the electronic leaf only are two by two *)
Definition two_by_two (ts : list (list centry)) : Prop := forall a, In [(elec_leaf, a)] ts -> square C_star 2 a.
Lemma two_app h1 h2 : two_by_two h1 -> two_by_two h2 -> two_by_two (h1 ++ h2).
Proof. intros H1 H2 a H. apply in_app_or in H as [H|H]; auto. Qed.
Lemma two_concat {A} (f : A -> res (list (list centry))) l ts : (forall p ts, In p l -> f p = Ok ts -> two_by_two ts) -> concatM f l = Ok ts -> two_by_two ts.
Proof.
  revert ts. induction l as [|p l IH]; intros ts H E; cbn [concatM] in E; [injection E as <-; intros a []|]. destruct (f p) as [us|] eqn:Ef; cbn [bind] in E; [|discriminate]. destruct (concatM f l) as [vs|] eqn:El; cbn [bind] in E; [|discriminate]. injection E as <-.
  apply two_app; [eapply H; [left; reflexivity|exact Ef]|apply IH; [intros; eapply H; [right|]; eauto|reflexivity]].
Qed.
Lemma scale_square c a : square C_star 2 a -> square C_star 2 (arr_scale c a).
Proof. intros [W E]. split; [apply wf_scale; exact W|exact E]. Qed.
Lemma prefix_elec prefix n c : prefix = String c EmptyString -> c <> "E"%char -> (prefix ++ str n)%string <> elec_leaf.
Proof. intros -> H E. injection E as E _. auto. Qed.
Lemma vib_two c n_p ts : c <> "E"%char -> vib_terms (String c EmptyString) n_p = Ok ts -> two_by_two ts.
Proof.
  intros Hc. destruct n_p as [n [dim [w k]]]. unfold vib_terms. destruct (coordinate_dense _ _ _ _); cbn [bind]; [|discriminate]. intros E. injection E as <-. intros b Hb.
  destruct Hb as [Hb|[Hb|[Hb|[]]]]; [|discriminate Hb|].
  - injection Hb as Hl _. destruct (Hc Hl).
  - injection Hb as <-. apply scale_square. split; reflexivity.
Qed.
Lemma rel_two prefix p ts : rel_terms prefix p = Ok ts -> two_by_two ts.
Proof. destruct p as [n [dim [w k]]]. unfold rel_terms. destruct (coordinate_dense _ _ _ _); cbn [bind]; [|discriminate]. intros E. injection E as <-. intros b [Hb|[]]. discriminate Hb. Qed.
