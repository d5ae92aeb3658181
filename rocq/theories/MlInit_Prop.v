(** C53: the constructor of [MultiLayer] with names for leaves. *)
From Coq Require Import String List Arith Bool Lia ZArith.
From Verif Require Import Py Alg ListX NdArray_Model Net_Model Net_Spec Trav_Proof EnvThm_Proof MlInit_Model MlInit_Spec MlInit_Proof.
Import ListNotations.
Notation length := Datatypes.length.
Local Open Scope nat_scope.
Local Open Scope list_scope.

Section Prop53.
Context {K : StarRing} {V : Type}.
Variables (ndim : V -> nat) (callable : V -> bool) (hexid : nat -> string).
Notation ml_init := (@ml_init K V ndim callable hexid).
(** The types asked for *)
Definition typed (h : heap K) (use_str : bool) (terms : list (list (key * V))) (hl : list nat) (fl : option (list nat)) : Prop :=
  (forall i e, In i hl -> In e (nth i terms []) -> (use_str = true \/ is_leaf h (fst e) = true) /\ ndim (snd e) = 2) /\
  (forall l i e, fl = Some l -> In i l -> In e (nth i terms []) -> (use_str = true \/ is_leaf h (fst e) = true) /\ callable (snd e) = true).
Lemma typed_checks h b terms hl fl : typed h b terms hl fl <-> check_terms h b (fun v => ndim v =? 2) terms hl = Ok tt /\ match fl with None => Ok tt | Some l => check_terms h b callable terms l end = Ok tt.
Proof.
  unfold typed. rewrite check_terms_ok. split; intros (A & B); split.
  - intros i e Hi He. destruct (A i e Hi He) as (A1 & A2). split; [exact A1|]. apply Nat.eqb_eq. exact A2.
  - destruct fl as [l|]; [|reflexivity]. apply (proj2 (check_terms_ok h b callable terms l)). intros i e. apply B. reflexivity.
  - intros i e Hi He. destruct (A i e Hi He) as (A1 & A2). split; [exact A1|]. apply Nat.eqb_eq. exact A2.
  - intros l i e ->. rewrite check_terms_ok in B. apply B.
Qed.
End Prop53.

(** Every entry gets the leaf with its name, in the same order and with the same value. *)
Theorem C53_names (K : StarRing) V ndim callable hexid (h : heap K) t fuel (terms : list (list (key * V))) hl fl :
  hangs h None t -> oaxis (hget h (top t)) = None -> height t <= fuel -> distinct_names h t -> typed ndim callable h true terms hl fl ->
  let l := match fl with None => hl | Some l => hl ++ l end in
  NoDup l -> (forall i, In i l -> i < length terms) -> (forall i e, In i l -> In e (nth i terms []) -> found hexid h t e) ->
  exists terms', ml_init ndim callable hexid fuel h (top t) terms hl fl true = (terms', Ok tt) /\ length terms' = length terms /\
  (forall i, In i l -> Forall2 (replaced hexid h t) (nth i terms []) (nth i terms' [])) /\ (forall i, ~ In i l -> nth i terms' [] = nth i terms []).
Proof.
  intros HT HA Hf HD HY l ND Hl HF. apply typed_checks in HY as (Y1 & Y2). unfold ml_init. rewrite Y1, Y2. rewrite (leaves_ok _ h t fuel HT HA Hf). fold l.
  assert (LK : forall i, In i l -> Forall (fun e => lookup (leaves_dict h (lids t)) (str_of hexid h (fst e)) <> None) (nth i terms [])).
  { intros i Hi. apply Forall_forall. intros e He. destruct (HF i e Hi He) as (s & n & A & C). rewrite <- (asks_fun hexid h (fst e) s A). rewrite (lookup_called h t HD s n C). discriminate. }
  destruct (convert_ok hexid h (leaves_dict h (lids t)) l terms ND Hl LK) as (S1 & S2). pose proof (convert_len hexid h (leaves_dict h (lids t)) l terms) as S3. pose proof (convert_other hexid h (leaves_dict h (lids t)) l terms) as S4.
  destruct (convert hexid h (leaves_dict h (lids t)) terms l) as [terms' r]. cbn [fst snd] in *. subst r. exists terms'. split; [reflexivity|]. split; [exact S3|]. split; [|exact S4].
  intros i Hi. rewrite S2 by auto. specialize (LK i Hi). induction LK as [|e es E F IH]; cbn [map]; constructor; auto. split; [reflexivity|]. exists (str_of hexid h (fst e)).
  unfold conv. cbn [fst]. destruct (lookup _ _) as [n|] eqn:En; [|congruence]. exists n. split; [apply asks_str|]. split; [apply lookup_sound; exact En|reflexivity].
Qed.
Print Assumptions C53_names.

(** A second construction with the same lists fails unless some leaf is called [Leaf_...], and
    drops the first entry of the first term that has one. *)
Theorem C53_second (K : StarRing) V ndim callable hexid (h : heap K) t fuel (terms terms' : list (list (key * V))) hl fl :
  hangs h None t -> oaxis (hget h (top t)) = None -> height t <= fuel -> distinct_names h t ->
  let l := match fl with None => hl | Some l => hl ++ l end in
  NoDup l -> (forall i, In i l -> i < length terms) -> (forall i e, In i l -> In e (nth i terms []) -> found hexid h t e) ->
  ml_init ndim callable hexid fuel h (top t) terms hl fl true = (terms', Ok tt) ->
  (forall s n, ~ leaf_called h t ("Leaf_" ++ s) n) ->
  forall l1 i l2, l = l1 ++ i :: l2 -> (forall j, In j l1 -> nth j terms [] = []) -> nth i terms [] <> [] ->
  ml_init ndim callable hexid fuel h (top t) terms' hl fl true = (upd i (tl (nth i terms' [])) terms', Raise KeyError).
Proof.
  intros HT HA Hf HD l ND Hl HF E NL l1 i l2 El H1 Hi.
  assert (HY : typed ndim callable h true terms hl fl).
  { apply typed_checks. unfold ml_init in E. destruct (check_terms_cases h true (fun v => ndim v =? 2) terms hl) as [X|X]; rewrite X in *; [|discriminate]. split; [reflexivity|].
    destruct fl as [f|]; [|reflexivity]. destruct (check_terms_cases h true callable terms f) as [Z|Z]; rewrite Z in *; [reflexivity|discriminate]. }
  destruct (C53_names K V ndim callable hexid h t fuel terms hl fl HT HA Hf HD HY ND Hl HF) as (terms2 & E2 & L2 & R2 & O2). rewrite E in E2. injection E2 as <-.
  assert (Vals : forall j e', In j l -> In e' (nth j terms' []) -> exists e, In e (nth j terms []) /\ snd e' = snd e).
  { intros j e' Hj He. specialize (R2 j Hj). fold l in R2. revert He. induction R2 as [|a b x y R F IH]; intros He; [destruct He|]. destruct He as [<-|He]; [exists a; split; [left; auto|apply R]|]. destruct (IH He) as (e & I & J). exists e. split; [right; exact I|exact J]. }
  assert (HY' : typed ndim callable h true terms' hl fl).
  { destruct HY as (Y1 & Y2). split.
    - intros j e' Hj He. destruct (Vals j e') as (e & I & ->); [unfold l; destruct fl; [apply in_or_app; auto|auto]|exact He|]. split; [auto|]. apply (Y1 j e Hj I).
    - intros f j e' Ef Hj He. destruct (Vals j e') as (e & I & ->); [unfold l; rewrite Ef; apply in_or_app; auto|exact He|]. split; [auto|]. apply (Y2 f j e Ef Hj I). }
  apply typed_checks in HY' as (Y1 & Y2). unfold ml_init. rewrite Y1, Y2, (leaves_ok _ h t fuel HT HA Hf). fold l. rewrite El.
  assert (Ii : In i l) by (rewrite El; apply in_or_app; right; left; auto). pose proof (R2 i Ii) as Ri. destruct (nth i terms []) as [|e es] eqn:Et; [congruence|]. inversion Ri as [|e0 e' es0 es' Re Rs X Y]; subst. destruct e' as [k v]. cbn [tl].
  apply (convert_first hexid h _ l1 i l2 terms' k v es').
  - intros j Hj. assert (Ij : In j l) by (rewrite El; apply in_or_app; left; auto). specialize (R2 j Ij). rewrite (H1 j Hj) in R2. inversion R2. reflexivity.
  - auto.
  - destruct Re as (_ & s & n & As & C & Ek). cbn [fst] in Ek. subst k. apply lookup_none. intros m. cbn [str_of]. pose proof (filter_leaves _ h None t HT) as FL. assert (Ln : oleaf (hget h n) = true).
    { destruct C as (C & _). rewrite <- FL in C. apply filter_In in C. apply C. }
    rewrite Ln. apply NL.
Qed.
Print Assumptions C53_second.

(** A missing name costs exactly one entry of the caller's terms. *)
Theorem C53_entry_lost (K : StarRing) V ndim callable hexid (h : heap K) root fuel (terms terms' : list (list (key * V))) hl fl use_str r :
  (forall i, In i (match fl with None => hl | Some l => hl ++ l end) -> i < length terms) ->
  ml_init ndim callable hexid fuel h root terms hl fl use_str = (terms', r) ->
  match r with Raise KeyError => S (entries terms') = entries terms | _ => entries terms' = entries terms end.
Proof.
  intros Hl. unfold ml_init. destruct (check_terms_cases h use_str (fun v => ndim v =? 2) terms hl) as [->| ->]; [|intros E; injection E as <- <-; reflexivity].
  assert (X : match fl with Some l => check_terms h use_str callable terms l | None => Ok tt end = Ok tt \/ match fl with Some l => check_terms h use_str callable terms l | None => Ok tt end = Raise TypeError) by (destruct fl as [f|]; [apply check_terms_cases|auto]).
  destruct X as [->| ->]; [|intros E; injection E as <- <-; reflexivity]. destruct use_str; [|intros E; injection E as <- <-; reflexivity].
  destruct (leaves fuel h root) as [ls|e] eqn:Els.
  - intros E. pose proof (convert_count hexid h (leaves_dict h ls) _ terms Hl) as C. rewrite E in C. destruct r as [u|e]; [exact C|]. destruct C as (-> & C). exact C.
  - intros E. injection E as <- <-. assert (e = RecursionError) by (eapply leaves_raise; exact Els). subst e. reflexivity.
Qed.
Print Assumptions C53_entry_lost.

(** The types are checked before anything is changed. *)
Theorem C53_types (K : StarRing) V ndim callable hexid (h : heap K) root fuel (terms : list (list (key * V))) hl fl use_str :
  (~ typed ndim callable h use_str terms hl fl -> ml_init ndim callable hexid fuel h root terms hl fl use_str = (terms, Raise TypeError)) /\
  (typed ndim callable h false terms hl fl -> ml_init ndim callable hexid fuel h root terms hl fl false = (terms, Ok tt)).
Proof.
  split.
  - intros H. unfold ml_init. destruct (check_terms_cases h use_str (fun v => ndim v =? 2) terms hl) as [E| ->]; [|reflexivity]. rewrite E.
    assert (X : match fl with Some l => check_terms h use_str callable terms l | None => Ok tt end = Ok tt \/ match fl with Some l => check_terms h use_str callable terms l | None => Ok tt end = Raise TypeError) by (destruct fl as [f|]; [apply check_terms_cases|auto]).
    destruct X as [X|X]; rewrite X; [|reflexivity]. destruct H. apply typed_checks. auto.
  - intros H. apply typed_checks in H as (A & B). unfold ml_init. rewrite A, B. reflexivity.
Qed.
Print Assumptions C53_types.

(** ** Examples *)
(** A root with two leaves; a value is its number of dimensions. *)
Definition h53 (a b : string) : heap Z_star := [@mkObj Z_star None false None None None false [(0, (1, 0)); (1, (2, 0))] []; @mkObj Z_star (Some a) true None None None false [(0, (0, 0))] []; @mkObj Z_star (Some b) true None None None false [(0, (0, 1))] []].
Definition t53 : tree := Nd 0 [(0, Lf 1, 0); (1, Lf 2, 0)].
Lemma h53_hangs a b : hangs (h53 a b) None t53.
Proof. apply hangs_root; [reflexivity|reflexivity| |]; [repeat constructor; cbn; intuition discriminate|]. repeat constructor. Qed.
Lemma h53_distinct a b : a <> b -> distinct_names (h53 a b) t53.
Proof. intros H m n s [<-|[<-|[]]] [<-|[<-|[]]] Em En; try reflexivity; cbn in Em, En; congruence. Qed.
Definition init53 a b := ml_init (K := Z_star) (fun v : nat => v) (fun _ => false) (fun _ => "0x0"%string) 5 (h53 a b) 0.
Local Open Scope string_scope.
Example C53_names_ex : hangs (h53 "x" "y") None t53 /\ distinct_names (h53 "x" "y") t53 /\
  init53 "x" "y" [[(KStr "y", 2); (KStr "x", 2)]; []; [(KStr "x", 2)]] [0; 1; 2] None true = ([[(KObj 2, 2); (KObj 1, 2)]; []; [(KObj 1, 2)]], Ok tt).
Proof. split; [apply h53_hangs|]. split; [apply h53_distinct; discriminate|reflexivity]. Qed.
Example C53_second_ex : init53 "x" "y" [[(KObj 2, 2); (KObj 1, 2)]; []; [(KObj 1, 2)]] [0; 1; 2] None true = ([[(KObj 1, 2)]; []; [(KObj 1, 2)]], Raise KeyError)
  /\ forall s n, ~ leaf_called (h53 "x" "y") t53 ("Leaf_" ++ s) n.
Proof. split; [reflexivity|]. intros s n [[<-|[<-|[]]] E]; discriminate E. Qed.
(** With a leaf called [Leaf_x] the second construction silently takes the other leaf. *)
Example C53_second_other_leaf : init53 "x" "Leaf_x" [[(KStr "x", 2)]] [0] None true = ([[(KObj 1, 2)]], Ok tt) /\ init53 "x" "Leaf_x" [[(KObj 1, 2)]] [0] None true = ([[(KObj 2, 2)]], Ok tt).
Proof. split; reflexivity. Qed.
Example C53_entry_lost_ex : init53 "x" "y" [[(KStr "y", 2); (KStr "z", 2); (KStr "x", 2)]] [0] None true = ([[(KStr "x", 2); (KObj 2, 2)]], Raise KeyError).
Proof. reflexivity. Qed.
Example C53_types_ex : init53 "x" "y" [[(KStr "y", 3)]] [0] None true = ([[(KStr "y", 3)]], Raise TypeError) /\ init53 "x" "y" [[(KStr "y", 2)]] [0] None false = ([[(KStr "y", 2)]], Raise TypeError)
  /\ init53 "x" "y" [[(KObj 1, 2)]] [0] None false = ([[(KObj 1, 2)]], Ok tt) /\ ~ typed (fun v => v) (fun _ => false) (h53 "x" "y") true [[(KStr "y", 3)]] [0] None.
Proof. repeat split. intros (H & _). destruct (H 0 (KStr "y", 3)) as (_ & X); [left; reflexivity|left; reflexivity|discriminate X]. Qed.
