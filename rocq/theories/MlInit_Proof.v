(** Proofs about the constructor of [MultiLayer]. *)
From Coq Require Import String List Arith Bool Lia.
From Verif Require Import Py Alg ListX NdArray_Model Net_Model Net_Spec Trav_Proof EnvThm_Proof MlInit_Model MlInit_Spec.
Import ListNotations.
Notation length := Datatypes.length.
Local Open Scope nat_scope.
Local Open Scope list_scope.

Section P.
Context {K : StarRing} {V : Type}.
Variable hexid : nat -> string.
Notation str_of := (@str_of K hexid).
Notation term := (list (key * V)).
Notation rotate := (@rotate K V hexid).
Notation convert := (@convert K V hexid).

(** ** Names *)
Lemma asks_str (h : heap K) k : asks hexid h k (str_of h k).
Proof.
  destruct k as [s|n]; cbn [MlInit_Model.str_of]; [constructor|]. destruct (oleaf (hget h n)) eqn:E1, (oname (hget h n)) as [s|] eqn:E2; first [apply asks_leaf; assumption|apply asks_tensor; assumption|apply asks_leaf_id; assumption|apply asks_tensor_id; assumption].
Qed.
Lemma asks_fun (h : heap K) k s : asks hexid h k s -> s = str_of h k.
Proof. intros A. destruct A as [s|n s H1 H2|n s H1 H2|n H1 H2|n H1 H2]; cbn [MlInit_Model.str_of]; try rewrite H1, H2; reflexivity. Qed.
Lemma lookup_some d s n : lookup d s = Some n -> In (Some s, n) d.
Proof.
  induction d as [|[[s'|] m] d IH]; cbn [lookup]; [discriminate| |]; [|intros H; right; auto]. destruct (String.eqb_spec s s') as [->|]; [intros E; injection E as ->; left; reflexivity|intros H; right; auto].
Qed.
Lemma lookup_in d s n : In (Some s, n) d -> exists m, lookup d s = Some m.
Proof.
  induction d as [|[[s'|] m] d IH]; cbn [lookup]; [intros []| |]; intros [E|H]; try discriminate E; auto.
  - injection E as -> ->. rewrite String.eqb_refl. eauto.
  - destruct (String.eqb_spec s s'); eauto.
Qed.
Lemma dict_in (h : heap K) l s n : In (Some s, n) (leaves_dict h l) <-> In n l /\ oname (hget h n) = Some s.
Proof.
  unfold leaves_dict. rewrite <- in_rev, in_map_iff. split.
  - intros (x & E & Hx). injection E as E ->. auto.
  - intros (Hn & E). exists n. rewrite E. auto.
Qed.
Section Dict.
Variables (h : heap K) (t : tree).
Hypothesis HD : distinct_names h t.
Notation d := (leaves_dict h (lids t)).
Lemma lookup_called s n : leaf_called h t s n -> lookup d s = Some n.
Proof.
  intros [Hn E]. destruct (lookup_in d s n) as (m & Em); [apply dict_in; auto|]. rewrite Em. f_equal. apply lookup_some, dict_in in Em as (Hm & Em). exact (HD m n s Hm Hn Em E).
Qed.
End Dict.
Lemma lookup_sound (h : heap K) t s n : lookup (leaves_dict h (lids t)) s = Some n -> leaf_called h t s n.
Proof. intros E. apply lookup_some, dict_in in E. exact E. Qed.
Lemma lookup_none (h : heap K) t s : (forall n, ~ leaf_called h t s n) -> lookup (leaves_dict h (lids t)) s = None.
Proof. intros H. destruct (lookup _ s) as [n|] eqn:E; [|reflexivity]. apply lookup_sound in E. destruct (H n E). Qed.

(** ** One term *)
Definition conv (h : heap K) d (e : key * V) : key * V := (KObj (match lookup d (str_of h (fst e)) with Some m => m | None => 0 end), snd e).
Lemma rotate_ok (h : heap K) d : forall t1 t2 : term, Forall (fun e => lookup d (str_of h (fst e)) <> None) t1 -> rotate h d (length t1) (t1 ++ t2) = (t2 ++ map (conv h d) t1, Ok tt).
Proof.
  induction t1 as [|[k v] t1 IH]; intros t2 F; [cbn [length MlInit_Model.rotate map app]; now rewrite app_nil_r|]. inversion F as [|x l H F']; subst. cbn [length MlInit_Model.rotate app map fst] in *.
  unfold conv at 1. cbn [fst snd]. destruct (lookup d (str_of h k)) as [m|]; [|congruence]. rewrite <- app_assoc, IH by auto. rewrite <- app_assoc. reflexivity.
Qed.
Lemma rotate_count (h : heap K) d : forall n (t : term), n <= length t -> match rotate h d n t with (t', Ok _) => length t' = length t | (t', Raise e) => e = KeyError /\ S (length t') = length t end.
Proof.
  induction n as [|n IH]; intros t Hn; cbn [MlInit_Model.rotate]; [reflexivity|]. destruct t as [|[k v] t]; [cbn in Hn; lia|]. destruct (lookup d (str_of h k)) as [m|]; [|split; reflexivity].
  specialize (IH (t ++ [(KObj m, v)])). assert (L : length (t ++ [(KObj m, v)]) = length ((k, v) :: t)) by (rewrite app_length; cbn [length]; lia). rewrite L in IH. apply IH. lia.
Qed.

(** ** All terms *)
Lemma convert_len (h : heap K) d : forall l terms, length (fst (convert h d terms l)) = length terms.
Proof.
  induction l as [|i l IH]; intros terms; cbn [MlInit_Model.convert]; [reflexivity|]. destruct (rotate _ _ _ _) as [t' [u|e]]; [rewrite IH|cbn [fst]]; apply length_upd.
Qed.
Lemma convert_other (h : heap K) d : forall l terms i, ~ In i l -> nth i (fst (convert h d terms l)) [] = nth i terms [].
Proof.
  induction l as [|j l IH]; intros terms i Hi; cbn [MlInit_Model.convert]; [reflexivity|]. assert (i <> j) by (intros ->; apply Hi; left; auto). assert (~ In i l) by (intros X; apply Hi; right; auto).
  destruct (rotate _ _ _ _) as [t' [u|e]]; [rewrite IH by auto|cbn [fst]]; apply nth_upd_neq; auto.
Qed.
Lemma convert_ok (h : heap K) d : forall l terms, NoDup l -> (forall i, In i l -> i < length terms) -> (forall i, In i l -> Forall (fun e => lookup d (str_of h (fst e)) <> None) (nth i terms [])) ->
  snd (convert h d terms l) = Ok tt /\ forall i, In i l -> nth i (fst (convert h d terms l)) [] = map (conv h d) (nth i terms []).
Proof.
  induction l as [|j l IH]; intros terms ND Hl HF; cbn [MlInit_Model.convert]; [split; [reflexivity|intros i []]|]. inversion ND as [|x y N1 N2]; subst.
  pose proof (rotate_ok h d (nth j terms []) [] (HF j (or_introl eq_refl))) as R. rewrite app_nil_r in R. rewrite R. cbn [app].
  assert (X : forall i, In i l -> nth i (upd j (map (conv h d) (nth j terms [])) terms) [] = nth i terms []) by (intros i Hi; apply nth_upd_neq; intros ->; auto).
  destruct (IH (upd j (map (conv h d) (nth j terms [])) terms)) as (A & B); [auto|intros i Hi; rewrite length_upd; apply Hl; right; auto|intros i Hi; rewrite X by auto; apply HF; right; auto|].
  split; [exact A|]. intros i [->|Hi]; [|rewrite B, X by auto; reflexivity]. rewrite convert_other by auto. apply nth_upd_eq. apply Hl. left; auto.
Qed.
Lemma upd_succ {A} i (x a : A) l : upd (S i) x (a :: l) = a :: upd i x l.
Proof. unfold upd. cbn [length firstn skipn]. change (S i <? S (length l)) with (i <? length l). destruct (i <? length l); reflexivity. Qed.
Lemma entries_upd : forall (terms : list term) i t', i < length terms -> entries (upd i t' terms) + length (nth i terms []) = entries terms + length t'.
Proof.
  induction terms as [|t terms IH]; intros i t' Hi; [cbn in Hi; lia|]. destruct i as [|i]; [change (upd 0 t' (t :: terms)) with (t' :: terms)|rewrite upd_succ]; unfold entries in *; cbn [map fold_right nth] in *; [lia|]. specialize (IH i t' ltac:(cbn [length] in Hi; lia)). lia.
Qed.
Lemma convert_count (h : heap K) d : forall l terms, (forall i, In i l -> i < length terms) ->
  match convert h d terms l with (terms', Ok _) => entries terms' = entries terms | (terms', Raise e) => e = KeyError /\ S (entries terms') = entries terms end.
Proof.
  induction l as [|j l IH]; intros terms Hl; cbn [MlInit_Model.convert]; [reflexivity|]. pose proof (rotate_count h d (length (nth j terms [])) (nth j terms []) (le_n _)) as R. assert (Hj : j < length terms) by (apply Hl; left; auto).
  destruct (rotate _ _ _ _) as [t' [u|e]].
  - specialize (IH (upd j t' terms)). assert (X : forall i, In i l -> i < length (upd j t' terms)) by (intros i Hi; rewrite length_upd; apply Hl; right; auto). specialize (IH X). pose proof (entries_upd terms j t' Hj).
    replace (entries (upd j t' terms)) with (entries terms) in IH by lia. exact IH.
  - destruct R as (-> & R). split; [reflexivity|]. pose proof (entries_upd terms j t' Hj). lia.
Qed.
(** The first key missing stops everything *)
Lemma convert_first (h : heap K) d l1 i l2 terms k v t : (forall j, In j l1 -> nth j terms [] = []) -> nth i terms [] = (k, v) :: t -> lookup d (str_of h k) = None ->
  convert h d terms (l1 ++ i :: l2) = (upd i t terms, Raise KeyError).
Proof.
  intros H Hi Hk. induction l1 as [|j l1 IH]; cbn [app MlInit_Model.convert].
  - rewrite Hi. cbn [length MlInit_Model.rotate]. rewrite Hk. reflexivity.
  - rewrite (H j (or_introl eq_refl)). cbn [length MlInit_Model.rotate]. assert (U : upd j [] terms = terms).
    { rewrite <- (H j (or_introl eq_refl)) at 1. apply upd_same. }
    rewrite U. apply IH. intros; apply H; right; auto.
Qed.

(** ** Type checks *)
Lemma forM_ok {A} (f : A -> res unit) l : forM f l = Ok tt <-> Forall (fun x => f x = Ok tt) l.
Proof.
  induction l as [|x l IH]; cbn [forM]; [split; auto|]. split.
  - destruct (f x) as [[]|] eqn:E; cbn [bind]; [|discriminate]. intros H. constructor; [exact E|apply IH; exact H].
  - intros F. inversion F as [|y z E F']; subst. rewrite E. cbn [bind]. apply IH. exact F'.
Qed.
Lemma forM_cases {A} (f : A -> res unit) e l : (forall x, f x = Ok tt \/ f x = Raise e) -> forM f l = Ok tt \/ forM f l = Raise e.
Proof. intros H. induction l as [|x l IH]; cbn [forM]; [auto|]. destruct (H x) as [->| ->]; cbn [bind]; auto. Qed.
Lemma check_pair_cases (h : heap K) b good (p : key * V) : check_pair h b good p = Ok tt \/ check_pair h b good p = Raise TypeError.
Proof. unfold check_pair. destruct (_ && _)%bool; [auto|]. destruct (negb _); auto. Qed.
Lemma check_terms_cases (h : heap K) b good (terms : list term) l : check_terms h b good terms l = Ok tt \/ check_terms h b good terms l = Raise TypeError.
Proof. apply forM_cases. intros i. apply forM_cases. apply check_pair_cases. Qed.
Lemma check_pair_ok (h : heap K) b good (p : key * V) : check_pair h b good p = Ok tt <-> (b = true \/ is_leaf h (fst p) = true) /\ good (snd p) = true.
Proof. unfold check_pair. destruct b, (is_leaf h (fst p)), (good (snd p)); cbn [negb andb]; intuition discriminate. Qed.
Lemma check_terms_ok (h : heap K) b good (terms : list term) l : check_terms h b good terms l = Ok tt <->
  forall i e, In i l -> In e (nth i terms []) -> (b = true \/ is_leaf h (fst e) = true) /\ good (snd e) = true.
Proof.
  unfold check_terms. rewrite forM_ok, Forall_forall. split.
  - intros H i e Hi He. specialize (H i Hi). rewrite forM_ok, Forall_forall in H. apply check_pair_ok, H. exact He.
  - intros H i Hi. apply forM_ok, Forall_forall. intros e He. apply check_pair_ok. eapply H; eauto.
Qed.

Lemma concatM_raise {A B} (f : A -> res (list B)) l e : concatM f l = Raise e -> exists x, f x = Raise e.
Proof.
  induction l as [|x l IH]; cbn [concatM]; [discriminate|]. destruct (f x) as [y|e'] eqn:E; cbn [bind]; [|intros X; injection X as ->; eauto].
  destruct (concatM f l); cbn [bind]; [discriminate|]. intros X. injection X as ->. apply IH. reflexivity.
Qed.
Lemma visitor_raise (h : heap K) leaf e : forall fuel n axis, visitor fuel h n axis leaf = Raise e -> e = RecursionError.
Proof.
  induction fuel as [|fuel IH]; intros n axis; cbn [visitor]; [intros X; injection X as <-; reflexivity|]. destruct (concatM _ _) as [r|e'] eqn:E; cbn [bind]; [discriminate|]. intros X. injection X as ->.
  apply concatM_raise in E as (x & Ex). eapply IH; exact Ex.
Qed.
Lemma leaves_raise fuel (h : heap K) n e : leaves fuel h n = Raise e -> e = RecursionError.
Proof. unfold leaves. destruct (visitor _ _ _ _ _) as [l|e'] eqn:E; cbn [bind]; [discriminate|]. intros X. injection X as ->. eapply visitor_raise; exact E. Qed.
End P.
