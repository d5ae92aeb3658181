(** Huffman trees have least cost. *)
From Coq Require Import List Arith Bool Lia Permutation Sorted.
From Verif Require Import Py Alg Ord Tools_Model Tools_Spec Tools_Proof Huff_Spec.
Import ListNotations.
Local Open Scope nat_scope.
Local Open Scope list_scope.

Section Opt.
Variable K : OrdRing.
Add Ring Kring : (r_theory K).
Local Notation "x ++. y" := (radd x y) (at level 50, left associativity).

Lemma ole_add2 (a b c d : K) : ole a b -> ole c d -> ole (radd a c) (radd b d).
Proof.
  intros H1 H2. apply ole_trans with (y := radd b c); [apply ole_add; auto|].
  replace (radd b c) with (radd c b) by ring. replace (radd b d) with (radd d b) by ring. apply ole_add; auto.
Qed.
Lemma sum_list_app (a b : list K) : sum_list (a ++ b) = radd (sum_list a) (sum_list b).
Proof. induction a as [|x a IH]; cbn; [ring|rewrite IH; ring]. Qed.
Lemma sum_list_perm (a b : list K) : Permutation a b -> sum_list a = sum_list b.
Proof. induction 1; cbn; try ring; congruence. Qed.
Lemma fold_sum (l : list K) : forall a, fold_left radd l a = radd a (sum_list l).
Proof. induction l as [|x l IH]; intros a; cbn; [ring|rewrite IH; ring]. Qed.
Lemma times_add n : forall x y : K, times n (radd x y) = radd (times n x) (times n y).
Proof. induction n as [|n IH]; intros x y; cbn; [ring|rewrite IH; ring]. Qed.
Lemma times_plus n m (x : K) : times (n + m) x = radd (times n x) (times m x).
Proof. induction n as [|n IH]; cbn; [ring|rewrite IH; ring]. Qed.
Lemma times_mono n : forall x y : K, ole x y -> ole (times n x) (times n y).
Proof. induction n as [|n IH]; intros x y H; cbn; [apply ole_refl|]. apply ole_add2; auto. Qed.

Definition dot (prs : list (nat * K)) : K := sum_list (map (fun p => times (fst p) (snd p)) prs).
Lemma dot_perm a b : Permutation a b -> dot a = dot b.
Proof. intros H. apply sum_list_perm. apply Permutation_map. auto. Qed.

(** The deeper of two places gets the lighter weight. *)
Lemma swap (d m : nat) (a x : K) : d <= m -> ole x a -> ole (radd (times m x) (times d a)) (radd (times m a) (times d x)).
Proof.
  intros H1 H2. replace m with (d + (m - d)) by lia. rewrite !times_plus.
  pose proof (times_mono (m - d) x a H2) as H3.
  replace (radd (radd (times d x) (times (m - d) x)) (times d a)) with (radd (times (m - d) x) (radd (times d x) (times d a))) by ring.
  replace (radd (radd (times d a) (times (m - d) a)) (times d x)) with (radd (times (m - d) a) (radd (times d x) (times d a))) by ring.
  apply ole_add; auto.
Qed.
Lemma exchange1 m (D : list nat) x (rest : list K) prs :
  Permutation (map fst prs) (m :: D) -> Permutation (map snd prs) (x :: rest) -> Forall (fun d => d <= m) D -> Forall (ole x) rest ->
  exists prs', Permutation (map fst prs') D /\ Permutation (map snd prs') rest /\ ole (radd (times m x) (dot prs')) (dot prs).
Proof.
  intros P1 P2 HD HR.
  assert (I1 : In m (map fst prs)) by (eapply Permutation_in; [symmetry; exact P1|left; auto]).
  apply in_map_iff in I1. destruct I1 as ((m' & a) & E & I1). cbn in E. subst m'. apply in_split in I1. destruct I1 as (l1 & l2 & ->).
  assert (Pm : Permutation (l1 ++ (m, a) :: l2) ((m, a) :: l1 ++ l2)) by (symmetry; apply Permutation_middle).
  assert (P1' : Permutation (map fst (l1 ++ l2)) D).
  { apply Permutation_cons_inv with (a := m). rewrite <- P1. rewrite (Permutation_map fst Pm). reflexivity. }
  assert (P2' : Permutation (a :: map snd (l1 ++ l2)) (x :: rest)).
  { rewrite <- P2. rewrite (Permutation_map snd Pm). reflexivity. }
  rewrite (dot_perm _ _ Pm). set (prs := l1 ++ l2) in *. clearbody prs. clear l1 l2 Pm P1 P2.
  assert (Ix : In x (a :: map snd prs)) by (eapply Permutation_in; [symmetry; exact P2'|left; auto]).
  destruct Ix as [->|Ix].
  - exists prs. split; auto. split; [eapply Permutation_cons_inv; exact P2'|]. apply ole_refl.
  - apply in_map_iff in Ix. destruct Ix as ((d & x') & E & Ix). cbn in E. subst x'. apply in_split in Ix. destruct Ix as (l1 & l2 & ->).
    assert (Pm : Permutation (l1 ++ (d, x) :: l2) ((d, x) :: l1 ++ l2)) by (symmetry; apply Permutation_middle).
    assert (Q : Permutation (a :: map snd (l1 ++ l2)) rest).
    { apply Permutation_cons_inv with (a := x). rewrite <- P2'. rewrite (Permutation_map snd Pm). cbn [map snd]. apply perm_swap. }
    exists ((d, a) :: l1 ++ l2). split; [|split].
    + rewrite <- P1'. rewrite (Permutation_map fst Pm). reflexivity.
    + exact Q.
    + unfold dot. rewrite (sum_list_perm _ _ (Permutation_map (fun p => times (fst p) (snd p)) (perm_skip (m, a) Pm))). cbn [map sum_list fst snd].
      assert (Hd : d <= m).
      { rewrite Forall_forall in HD. apply HD. eapply Permutation_in; [exact P1'|]. rewrite (Permutation_map fst Pm). left; auto. }
      assert (Ha : ole x a).
      { rewrite Forall_forall in HR. apply HR. eapply Permutation_in; [exact Q|left; auto]. }
      pose proof (swap d m a x Hd Ha) as X. set (y := sum_list _).
      replace (radd (times m x) (radd (times d a) y)) with (radd (radd (times m x) (times d a)) y) by ring.
      replace (radd (times m a) (radd (times d x) y)) with (radd (radd (times m a) (times d x)) y) by ring. apply ole_add; auto.
Qed.
Lemma exchange m (D : list nat) rest : forall xs prs,
  StronglySorted ole (xs ++ rest) -> Permutation (map fst prs) (repeat m (length xs) ++ D) -> Permutation (map snd prs) (xs ++ rest) -> Forall (fun d => d <= m) D ->
  exists prs', Permutation (map fst prs') D /\ Permutation (map snd prs') rest /\ ole (radd (times m (sum_list xs)) (dot prs')) (dot prs).
Proof.
  induction xs as [|x xs IH]; intros prs So P1 P2 HD.
  - exists prs. split; auto. split; auto. cbn. replace (times m r0) with (r0 : K) by (clear; induction m; cbn; [reflexivity|rewrite <- IHm; ring]).
    replace (radd r0 (dot prs)) with (dot prs) by ring. apply ole_refl.
  - cbn [length repeat app] in P1, P2, So. apply StronglySorted_inv in So. destruct So as (So & Hx).
    destruct (exchange1 m (repeat m (length xs) ++ D) x (xs ++ rest) prs P1 P2) as (prs1 & Q1 & Q2 & L1); auto.
    { apply Forall_app. split; auto. apply Forall_forall. intros d Hd. apply repeat_spec in Hd. lia. }
    destruct (IH prs1 So Q1 Q2 HD) as (prs' & R1 & R2 & L2). exists prs'. split; auto. split; auto.
    apply ole_trans with (y := radd (times m x) (dot prs1)); auto. cbn [sum_list]. rewrite times_add.
    replace (radd (radd (times m x) (times m (sum_list xs))) (dot prs')) with (radd (radd (times m (sum_list xs)) (dot prs')) (times m x)) by ring.
    replace (radd (times m x) (dot prs1)) with (radd (dot prs1) (times m x)) by ring. apply ole_add; auto.
Qed.

(** What the loop adds up. *)
Fixpoint kinsert (x : K) (l : list K) : list K :=
  match l with [] => [x] | y :: l' => if negb (gtb x y) then x :: l else y :: kinsert x l' end.
Fixpoint ksort (l : list K) : list K := match l with [] => [] | x :: l => kinsert x (ksort l) end.
Lemma kinsert_perm x l : Permutation (kinsert x l) (x :: l).
Proof. induction l as [|y l IH]; cbn; auto. destruct (negb (gtb x y)); auto. rewrite IH. apply perm_swap. Qed.
Lemma ksort_perm l : Permutation (ksort l) l.
Proof. induction l as [|x l IH]; cbn; auto. rewrite kinsert_perm. auto. Qed.
Lemma kinsert_sorted x l : StronglySorted ole l -> StronglySorted ole (kinsert x l).
Proof.
  induction l as [|y l IH]; intros So; cbn; [repeat constructor|]. apply StronglySorted_inv in So. destruct So as (So & Hy).
  destruct (gtb x y) eqn:E; cbn [negb].
  - constructor; auto. apply Forall_forall. intros z Hz. eapply Permutation_in in Hz; [|apply kinsert_perm]. destruct Hz as [<-|Hz].
    + apply olt_ole. exact E.
    + rewrite Forall_forall in Hy. auto.
  - constructor; [constructor; auto|]. constructor; auto. eapply Forall_impl; [|exact Hy]. intros z Hz. apply ole_trans with (y := y); auto.
Qed.
Lemma ksort_sorted l : StronglySorted ole (ksort l).
Proof. induction l; cbn; [constructor|apply kinsert_sorted; auto]. Qed.

Variable nb : nat.
Hypothesis nb2 : 2 <= nb.
Fixpoint hcost (fuel : nat) (ws : list K) : K :=
  match fuel with
  | 0 => r0
  | S fuel => match ws with
              | [] => r0 | [_] => r0
              | _ => let p := sum_list (firstn nb (ksort ws)) in radd p (hcost fuel (p :: skipn nb (ksort ws)))
              end
  end.

(** The sum of [nb^-d], times [nb^m]. *)
Definition kraft (m : nat) (ds : list nat) : nat := list_sum (map (fun d => nb ^ (m - d)) ds).
Lemma list_sum_perm a b : Permutation a b -> list_sum a = list_sum b.
Proof. unfold list_sum. induction 1; cbn; lia. Qed.
Lemma kraft_perm m a b : Permutation a b -> kraft m a = kraft m b.
Proof. intros H. apply list_sum_perm. apply Permutation_map. auto. Qed.
Lemma pow_mod m : exists u, nb ^ m = 1 + u * (nb - 1).
Proof.
  induction m as [|m (u & IH)]; [exists 0; cbn; lia|]. exists (u * nb + 1). cbn [Nat.pow]. rewrite IH. nia.
Qed.
Lemma kraft_mod m ds : exists u, kraft m ds = length ds + u * (nb - 1).
Proof.
  induction ds as [|d ds (u & IH)]; [exists 0; cbn; lia|]. destruct (pow_mod (m - d)) as (v & Hv). exists (u + v).
  unfold kraft in *. cbn [map list_sum fold_right length] in *. unfold list_sum in IH. rewrite IH, Hv. nia.
Qed.
(** Split off the places of depth [m]. *)
Lemma deepest m ds : Forall (fun d => d <= m) ds -> exists c D, Permutation ds (repeat m c ++ D) /\ Forall (fun d => d < m) D.
Proof.
  induction 1 as [|d ds Hd _ (c & D & P & F)]; [exists 0, []; split; constructor|]. destruct (Nat.eq_dec d m) as [->|Ne].
  - exists (S c), D. split; auto. cbn. auto.
  - exists c, (d :: D). split; [|constructor; auto; lia]. rewrite P. apply Permutation_middle.
Qed.
Lemma kraft_step m D : Forall (fun d => d <= m) D -> kraft (S m) D = nb * kraft m D.
Proof.
  induction 1 as [|d D Hd _ IH]; [cbn; lia|]. unfold kraft, list_sum in *. cbn [map fold_right] in *. rewrite IH.
  replace (S m - d) with (S (m - d)) by lia. cbn [Nat.pow]. lia.
Qed.
Lemma kraft_app m a b : kraft m (a ++ b) = kraft m a + kraft m b.
Proof. unfold kraft. rewrite map_app. apply list_sum_app. Qed.
Lemma kraft_repeat m d c : kraft m (repeat d c) = c * nb ^ (m - d).
Proof. induction c as [|c IH]; [reflexivity|]. unfold kraft, list_sum in *. cbn [repeat map fold_right]. rewrite IH. lia. Qed.

Definition admitted (m : nat) (prs : list (nat * K)) : Prop :=
  kraft m (map fst prs) = nb ^ m \/
  (kraft m (map fst prs) <= nb ^ m /\ (exists k, length prs = 1 + k * (nb - 1)) /\ Forall (fun p => ole r0 (snd p)) prs).
Lemma hcost_short fuel (ws : list K) : length ws <= 1 -> hcost fuel ws = r0.
Proof. destruct fuel; [reflexivity|]. destruct ws as [|a [|b ws]]; cbn [length]; intros H; [reflexivity|reflexivity|lia]. Qed.
Lemma dot_zero prs : Forall (fun d => d <= 0) (map fst prs) -> dot prs = r0.
Proof.
  unfold dot. induction prs as [|(d & x) prs IH]; cbn [map fst snd sum_list]; intros H; [reflexivity|].
  inversion H as [|? ? H1 H2]; subst. rewrite IH by auto. replace d with 0 by lia. cbn. ring.
Qed.
Lemma pull {A B} (f : A -> B) l a b : Permutation (map f l) (a :: b) -> exists x l', f x = a /\ Permutation l (x :: l') /\ Permutation (map f l') b.
Proof.
  intros H. assert (I : In a (map f l)) by (eapply Permutation_in; [symmetry; exact H|left; auto]).
  apply in_map_iff in I. destruct I as (x & E & I). apply in_split in I. destruct I as (l1 & l2 & ->). exists x, (l1 ++ l2).
  assert (Q : Permutation (l1 ++ x :: l2) (x :: l1 ++ l2)) by (symmetry; apply Permutation_middle).
  split; auto. split; auto. apply Permutation_cons_inv with (a := a). rewrite <- H, (Permutation_map f Q). cbn. rewrite E. reflexivity.
Qed.

Lemma optimal_depths : forall fuel k ws prs m,
  list_sum (map fst prs) + m <= k -> length ws <= fuel -> Permutation (map snd prs) ws ->
  Forall (fun d => d <= m) (map fst prs) -> admitted m prs -> ole (hcost fuel ws) (dot prs).
Proof.
  induction fuel as [|fuel IHf]; intros k.
  { intros ws prs m _ Hl P _ _. cbn. destruct ws; [|cbn in Hl; lia]. apply Permutation_sym, Permutation_nil in P. destruct prs; [|discriminate]. apply ole_refl. }
  induction k as [|k IHk]; intros ws prs m Hk Hl P Fm Ad.
  all: assert (Ln : length ws = length prs) by (rewrite <- (Permutation_length P), map_length; reflexivity).
  all: assert (Z : m = 0 -> ole (hcost (S fuel) ws) (dot prs)).
  1,3: (intros ->; rewrite (dot_zero prs Fm);
      assert (length prs <= 1);
      [ destruct (kraft_mod 0 (map fst prs)) as (u & Hu); rewrite map_length in Hu; destruct Ad as [Ad|(Ad & _)]; rewrite Hu, Nat.pow_0_r in Ad; pose proof (Nat.le_0_l (u * (nb - 1))); lia
      | rewrite hcost_short by lia; apply ole_refl ]).
  { apply Z. lia. }
  destruct m as [|m]; [auto|]. clear Z.
  destruct (deepest (S m) _ Fm) as (c & D & Pd & FD).
  assert (FD' : Forall (fun d => d <= m) D) by (eapply Forall_impl; [|exact FD]; cbn; intros; lia).
  assert (Kr : kraft (S m) (map fst prs) = c + nb * kraft m D).
  { rewrite (kraft_perm _ _ _ Pd), kraft_app, kraft_repeat, (kraft_step m D FD'). rewrite Nat.sub_diag. cbn. lia. }
  destruct (le_lt_dec nb c) as [Hc|Hc].
  - (* merge the lightest in the deepest places *)
    assert (Hn : nb <= length ws).
    { rewrite Ln, <- (map_length fst), (Permutation_length Pd), app_length, repeat_length. lia. }
    assert (Eh : hcost (S fuel) ws = radd (sum_list (firstn nb (ksort ws))) (hcost fuel (sum_list (firstn nb (ksort ws)) :: skipn nb (ksort ws)))).
    { destruct ws as [|a [|b ws]]; cbn [length] in Hn; try lia. reflexivity. }
    set (xs := firstn nb (ksort ws)) in *. set (rest := skipn nb (ksort ws)) in *.
    assert (Exs : xs ++ rest = ksort ws) by apply firstn_skipn.
    assert (Lk : length (ksort ws) = length ws) by apply (Permutation_length (ksort_perm ws)).
    assert (Lx : length xs = nb) by (unfold xs; rewrite firstn_length; lia).
    destruct (exchange (S m) (repeat (S m) (c - nb) ++ D) rest xs prs) as (prs' & P1 & P2 & L).
    + rewrite Exs. apply ksort_sorted.
    + rewrite Lx, Pd, app_assoc, <- repeat_app. replace (nb + (c - nb)) with c by lia. reflexivity.
    + rewrite Exs, P. symmetry. apply ksort_perm.
    + apply Forall_app. split; [|eapply Forall_impl; [|exact FD']; cbn; intros; lia]. apply Forall_forall. intros d Hd. apply repeat_spec in Hd. lia.
    + rewrite Eh.
      assert (Lr : length prs = nb + length prs').
      { rewrite <- (map_length snd prs'), (Permutation_length P2), <- Ln, <- Lk, <- Exs, app_length. lia. }
      assert (Kr' : kraft (S m) (m :: map fst prs') = kraft (S m) (map fst prs)).
      { rewrite Kr. change (m :: map fst prs') with ([m] ++ map fst prs'). rewrite kraft_app, (kraft_perm _ _ _ P1), kraft_app, kraft_repeat, (kraft_step m D FD').
        rewrite Nat.sub_diag. unfold kraft at 1. cbn [map list_sum fold_right]. replace (S m - m) with 1 by lia. cbn [Nat.pow]. lia. }
      assert (I : ole (hcost fuel (sum_list xs :: rest)) (dot ((m, sum_list xs) :: prs'))).
      { apply (IHf (list_sum (map fst ((m, sum_list xs) :: prs')) + S m) _ _ (S m)); auto.
        - cbn [length]. rewrite <- (Permutation_length P2), map_length. lia.
        - cbn [map snd]. auto.
        - cbn [map fst]. constructor; [lia|]. apply Forall_forall. intros d Hd. eapply Permutation_in in Hd; [|exact P1].
          apply in_app_iff in Hd. destruct Hd as [Hd|Hd]; [apply repeat_spec in Hd; lia|]. rewrite Forall_forall in FD'. apply FD' in Hd. lia.
        - destruct Ad as [Ad|(Ad & (j & Hj) & Fn)]; [left|right]; cbn [map fst]; rewrite Kr'; auto. split; auto. split.
          + exists (j - 1). cbn [length]. destruct j as [|j]; [lia|]. replace (S j - 1) with j by lia. lia.
          + assert (Fw : Forall (ole r0) (ksort ws)).
            { apply Forall_forall. intros x Hx. eapply Permutation_in in Hx; [|apply ksort_perm]. eapply Permutation_in in Hx; [|symmetry; exact P].
              apply in_map_iff in Hx. destruct Hx as (p & <- & Hp). rewrite Forall_forall in Fn. auto. }
            rewrite <- Exs in Fw. apply Forall_app in Fw. destruct Fw as (F1 & F2). constructor.
            * apply sum_nonneg. rewrite Forall_forall in F1. auto.
            * apply Forall_forall. intros p Hp. rewrite Forall_forall in F2. apply F2. eapply Permutation_in; [exact P2|]. apply in_map. auto. }
      apply ole_trans with (y := radd (times (S m) (sum_list xs)) (dot prs')); auto.
      unfold dot in I |- *. cbn [map fst snd sum_list times] in I |- *. set (y := sum_list xs) in *.
      replace (radd y (hcost fuel (y :: rest))) with (radd (hcost fuel (y :: rest)) y) by ring.
      match goal with |- ole _ (radd (radd y ?a) ?b) => replace (radd (radd y a) b) with (radd (radd a b) y) by ring end. apply ole_add; auto.
  - destruct c as [|c].
    + (* no place of this depth *)
      apply (IHk ws prs m); auto; [lia| |].
      * apply Forall_forall. intros d Hd. eapply Permutation_in in Hd; [|exact Pd]. rewrite Forall_forall in FD'. auto.
      * cbn [repeat app] in Pd. rewrite <- (kraft_perm m _ _ Pd) in Kr. unfold admitted in *. rewrite Kr in Ad. cbn [Nat.pow Nat.add] in Ad.
        destruct Ad as [Ad|(Ad & R)]; [left; apply Nat.mul_cancel_l in Ad; lia|right; split; auto]. apply Nat.mul_le_mono_pos_l in Ad; lia.
    + (* raise one place *)
      assert (Ne : kraft (S m) (map fst prs) <> nb ^ S m).
      { rewrite Kr. cbn [Nat.pow]. intros E. assert (E' : (S c + nb * kraft m D) mod nb = (nb * nb ^ m) mod nb) by congruence.
        rewrite (Nat.mul_comm nb (kraft m D)), Nat.mod_add, (Nat.mul_comm nb), Nat.mod_mul, Nat.mod_small in E' by lia. lia. }
      destruct Ad as [Ad|(Ad & (j & Hj) & Fn)]; [contradiction|].
      destruct (pull fst prs (S m) (repeat (S m) c ++ D) Pd) as ((d & x) & prs' & E & Pp & Pr). cbn in E. subst d.
      rewrite (dot_perm _ _ Pp).
      assert (Hx : ole r0 x) by (rewrite Forall_forall in Fn; apply (Fn (S m, x)); eapply Permutation_in; [symmetry; exact Pp|left; auto]).
      assert (Ks : kraft (S m) (m :: map fst prs') + 1 = kraft (S m) (map fst prs) + nb).
      { rewrite (kraft_perm _ _ _ (Permutation_map fst Pp)). unfold kraft. cbn [map list_sum fold_right fst]. replace (S m - m) with 1 by lia. replace (S m - S m) with 0 by lia. cbn [Nat.pow]. lia. }
      apply ole_trans with (y := dot ((m, x) :: prs')).
      * apply (IHk ws ((m, x) :: prs') (S m)).
        -- cbn [map fst]. pose proof (list_sum_perm _ _ (Permutation_map fst Pp)) as X. cbn [map fst] in X. unfold list_sum in *. cbn [fold_right] in *. lia.
        -- lia.
        -- rewrite <- P, (Permutation_map snd Pp). reflexivity.
        -- cbn [map fst]. constructor; [lia|]. apply Forall_forall. intros d Hd. rewrite Forall_forall in Fm. apply Fm.
           eapply Permutation_in; [symmetry; apply (Permutation_map fst Pp)|]. right; auto.
        -- right. cbn [map fst]. split; [|split].
           ++ destruct (kraft_mod (S m) (map fst prs)) as (u & Hu). destruct (pow_mod (S m)) as (v & Hv). rewrite map_length, Hj in Hu.
              assert (j + u < v).
              { destruct (Nat.lt_total (j + u) v) as [?|[X|X]]; auto; exfalso; [apply Ne; rewrite Hu, Hv, <- X; lia|]. rewrite Hu, Hv in Ad. nia. }
              nia.
           ++ exists j. rewrite (Permutation_length Pp) in Hj. exact Hj.
           ++ apply Forall_forall. intros p Hp. rewrite Forall_forall in Fn. destruct Hp as [<-|Hp]; [exact Hx|].
              apply Fn. eapply Permutation_in; [symmetry; exact Pp|right; auto].
      * unfold dot. cbn [map fst snd sum_list times]. set (y := sum_list _).
        replace (radd (times m x) y) with (radd r0 (radd (times m x) y)) by ring.
        replace (radd (radd x (times m x)) y) with (radd x (radd (times m x) y)) by ring. apply ole_add; auto.
Qed.

(** Trees. *)
Section Trees.
Variable N : Type.
Implicit Types t : ntree N.
Fixpoint tall t : nat := match t with Tip _ => 0 | Fork _ ts => S (fold_right Nat.max 0 (map tall ts)) end.
Lemma tall_in t ts : In t ts -> tall t <= fold_right Nat.max 0 (map tall ts).
Proof. induction ts as [|u ts IH]; [intros []|]. intros [->|H]; cbn; [lia|]. apply IH in H. lia. Qed.
Lemma at_depth_le t : forall d p, In p (at_depth d t) -> fst p <= d + tall t.
Proof.
  induction t as [n|n ts IH] using ntree_ind'; intros d p H; cbn [at_depth tall] in *.
  - destruct H as [<-|[]]. cbn. lia.
  - apply in_flat_map in H. destruct H as (u & Hu & H). rewrite Forall_forall in IH. apply (IH u Hu) in H. pose proof (tall_in u ts Hu). lia.
Qed.
Lemma at_depth_tips t : forall d, map snd (at_depth d t) = tips t.
Proof.
  induction t as [n|n ts IH] using ntree_ind'; intros d; [reflexivity|]. cbn [at_depth tips].
  induction IH as [|u ts Hu _ IH]; [reflexivity|]. cbn [flat_map]. rewrite map_app, Hu, IH. reflexivity.
Qed.
Lemma kraft_tree lo t : degrees lo nb t -> forall d m, d + tall t <= m ->
  kraft m (map fst (at_depth d t)) <= nb ^ (m - d) /\ (lo = nb -> kraft m (map fst (at_depth d t)) = nb ^ (m - d)).
Proof.
  induction t as [n|n ts IH] using ntree_ind'; intros De d m Hm.
  - cbn. unfold kraft, list_sum. cbn. split; intros; lia.
  - inversion De as [|? ? L1 L2 F]; subst. cbn [at_depth tall] in *.
    assert (X : kraft m (map fst (flat_map (at_depth (S d)) ts)) <= length ts * nb ^ (m - S d) /\
                (lo = nb -> kraft m (map fst (flat_map (at_depth (S d)) ts)) = length ts * nb ^ (m - S d))).
    { assert (Ht : forall u, In u ts -> S d + tall u <= m) by (intros u Hu; pose proof (tall_in u ts Hu); lia). clear - IH F Ht.
      induction IH as [|u us Hu _ IHl]; [cbn; split; auto|]. inversion F; subst. cbn [flat_map length]. rewrite map_app, kraft_app.
      destruct (Hu H1 (S d) m (Ht u (or_introl eq_refl))) as (A1 & A2). destruct (IHl H2 (fun v Hv => Ht v (or_intror Hv))) as (B1 & B2). split; [lia|].
      intros E. rewrite A2, B2 by auto. lia. }
    destruct X as (X1 & X2). replace (m - d) with (S (m - S d)) by lia. cbn [Nat.pow]. split.
    + eapply Nat.le_trans; [exact X1|]. apply Nat.mul_le_mono_r. auto.
    + intros E. rewrite X2 by auto. f_equal. lia.
Qed.

Variable w : N -> K.
Definition weighed (d : nat) t : list (nat * K) := map (fun p => (fst p, w (snd p))) (at_depth d t).
Definition total t : K := sum_list (map w (tips t)).
Lemma weighed_snd d t : map snd (weighed d t) = map w (tips t).
Proof. unfold weighed. rewrite map_map. cbn [snd]. rewrite <- (at_depth_tips t d), map_map. reflexivity. Qed.
Lemma weighed_fst d t : map fst (weighed d t) = map fst (at_depth d t).
Proof. unfold weighed. rewrite map_map. reflexivity. Qed.
Lemma cost_dot t : cost w t = dot (weighed 0 t).
Proof. unfold cost, dot, weighed. rewrite map_map. reflexivity. Qed.
Lemma dot_app a b : dot (a ++ b) = radd (dot a) (dot b).
Proof. unfold dot. rewrite map_app. apply sum_list_app. Qed.
Lemma deeper t : forall d, dot (weighed (S d) t) = radd (dot (weighed d t)) (total t).
Proof.
  induction t as [n|n ts IH] using ntree_ind'; intros d.
  - unfold dot, weighed, total. cbn. ring.
  - unfold total, weighed in *. cbn [at_depth tips]. induction IH as [|u us Hu _ IHl]; [unfold dot; cbn; ring|].
    cbn [flat_map]. rewrite !map_app, !dot_app, sum_list_app, Hu, IHl. ring.
Qed.
Lemma cost_fork n ts : cost w (Fork n ts) = radd (sum_list (map (cost w) ts)) (sum_list (map total ts)).
Proof.
  rewrite cost_dot. unfold weighed. cbn [at_depth]. induction ts as [|t ts IH]; [unfold dot; cbn; ring|].
  cbn [flat_map map sum_list]. rewrite map_app, dot_app. fold (weighed 1 t). rewrite deeper, IH, <- cost_dot. ring.
Qed.
Lemma total_fork n ts : total (Fork n ts) = sum_list (map total ts).
Proof. unfold total. cbn [tips]. induction ts as [|t ts IH]; [reflexivity|]. cbn [flat_map map sum_list]. rewrite map_app, sum_list_app, IH. reflexivity. Qed.

(** The cost of the tree that the loop builds. *)
Variable neqb : N -> N -> bool.
Hypothesis neqb_spec : forall x y, neqb x y = true <-> x = y.
Local Notation ple := (fun x y : K => negb (gtb x y)).
Lemma ssort_keys (l : list (N * K)) : map snd (ssort ple l) = ksort (map snd l).
Proof.
  assert (I : forall x (l : list (N * K)), map snd (sinsert ple x l) = kinsert (snd x) (map snd l)).
  { intros x. induction l0 as [|y l0 IH]; [reflexivity|]. cbn [sinsert kinsert map]. destruct (negb (gtb (snd x) (snd y))); [reflexivity|]. cbn [map]. rewrite IH. reflexivity. }
  induction l as [|x l IH]; [reflexivity|]. cbn [ssort ksort map]. rewrite I, IH. reflexivity.
Qed.
Variable obj_new : nat -> N.
Variable sources : list N.
Hypothesis fresh_src : forall i, ~ In (obj_new i) sources.
Hypothesis fresh_inj : forall i j, obj_new i = obj_new j -> i = j.
Definition held (g : dict N) (e : N * K) t : Prop := above N neqb K g e t /\ snd e = total t.
Lemma held_above g l ts : Forall2 (held g) l ts -> Forall2 (above N neqb K g) l ts /\ map snd l = map total ts.
Proof. induction 1 as [|e t l ts (A & B) _ (C & D)]; [split; constructor|]. split; [constructor; auto|]. cbn. congruence. Qed.
Lemma loop_cost fuel : forall i seq g ts,
  length seq <= fuel -> seq <> [] -> Forall2 (held g) seq ts ->
  (forall j, i <= j -> dlookup neqb g (obj_new j) = None) ->
  Permutation (flat_map tips ts) sources -> Forall (degrees 2 nb) ts ->
  exists g' root t, huffman_loop neqb radd r0 ple obj_new nb fuel i seq g = Ok (g', root) /\
    unfolds (dlookup neqb g') root t /\ Permutation (tips t) sources /\ degrees 2 nb t /\
    cost w t = radd (sum_list (map (cost w) ts)) (hcost fuel (map snd seq)).
Proof.
  induction fuel as [|fuel IH]; intros i seq g ts Hl Hne HF Hg Hp Hd.
  { destruct seq; cbn in Hl; [congruence|lia]. }
  destruct seq as [|[n p] seq]; [congruence|]. destruct seq as [|e2 seq].
  - inversion HF as [|? t ? m1 Ht Hm]; subst. inversion Hm; subst. exists g, n, t.
    split; [reflexivity|]. split; [apply Ht|]. inversion Hd; subst. split; [|split; auto].
    + cbn in Hp. now rewrite app_nil_r in Hp.
    + cbn. ring.
  - set (sq := (n, p) :: e2 :: seq) in *.
    change (huffman_loop neqb radd r0 ple obj_new nb (S fuel) i sq g) with
      (huffman_loop neqb radd r0 ple obj_new nb fuel (S i)
         ((obj_new i, fold_left radd (map snd (firstn nb (ssort ple sq))) r0) :: skipn nb (ssort ple sq))
         (dset neqb g (obj_new i) (map fst (firstn nb (ssort ple sq))))).
    destruct (Forall2_perm_l _ _ (ssort ple sq) ts (Permutation_sym (ssort_perm N K ple sq)) HF) as (us & Hpu & HFu).
    assert (Hlen : length (ssort ple sq) = S (S (length seq))) by (rewrite (Permutation_length (ssort_perm N K ple sq)); reflexivity).
    assert (Hpu' : Permutation (flat_map tips us) sources) by (etransitivity; [|exact Hp]; apply tips_flat_perm; now symmetry).
    assert (Hdu : Forall (degrees 2 nb) us).
    { rewrite Forall_forall in *. intros u Hu. apply Hd. eapply Permutation_in; [symmetry|]; eauto. }
    assert (Hlu : length us = length (ssort ple sq)) by (symmetry; clear -HFu; induction HFu; cbn; congruence).
    destruct (Forall2_firstn_skipn _ nb _ _ HFu) as (HF1 & HF2).
    assert (Eh : hcost (S fuel) (map snd sq) = radd (sum_list (firstn nb (ksort (map snd sq)))) (hcost fuel (sum_list (firstn nb (ksort (map snd sq))) :: skipn nb (ksort (map snd sq))))) by reflexivity.
    rewrite Eh, <- ssort_keys, firstn_map, skipn_map. clear Eh.
    set (sorted := ssort ple sq) in *.
    assert (Htip : forall u, In u us -> forall x, In x (tips u) -> x <> obj_new i).
    { intros u Hu x Hx ->. apply (fresh_src i). eapply Permutation_in; [exact Hpu'|]. apply in_flat_map. exists u. auto. }
    assert (Hup : forall k l (u : list (ntree N)), Forall2 (held g) l u -> (forall t, In t u -> In t us) -> Forall2 (held (dset neqb g (obj_new i) k)) l u).
    { intros k l u H. induction H as [|? ? ? ? (A1 & A2) _ IHF]; intros Hin; constructor.
      - split; auto. apply unfolds_dset; auto. apply Htip. apply Hin. left; auto.
      - apply IHF. intros; apply Hin; right; auto. }
    assert (Hin1 : forall t, In t (firstn nb us) -> In t us) by (intros t Ht; rewrite <- (firstn_skipn nb us); apply in_app_iff; auto).
    assert (Hin2 : forall t, In t (skipn nb us) -> In t us) by (intros t Ht; rewrite <- (firstn_skipn nb us); apply in_app_iff; auto).
    destruct (held_above _ _ _ (Hup (map fst (firstn nb sorted)) _ _ HF1 Hin1)) as (Ab & Et).
    assert (Ep : fold_left radd (map snd (firstn nb sorted)) r0 = sum_list (map total (firstn nb us))) by (rewrite fold_sum, Et; ring).
    destruct (IH (S i) ((obj_new i, fold_left radd (map snd (firstn nb sorted)) r0) :: skipn nb sorted)
      (dset neqb g (obj_new i) (map fst (firstn nb sorted))) (Fork (obj_new i) (firstn nb us) :: skipn nb us)) as (g' & root & t & R1 & R2 & R3 & R4 & R5).
    + cbn [length]. rewrite skipn_length. unfold sorted in *. rewrite Hlen. unfold sq in Hl. cbn in Hl. lia.
    + discriminate.
    + constructor; [|apply Hup; auto]. split.
      * unfold above. cbn [fst]. apply unf_fork with (ns := map fst (firstn nb sorted)); [apply dlookup_dset_eq; auto|apply above_map; auto].
      * cbn [snd]. rewrite total_fork. exact Ep.
    + intros j Hj. rewrite dlookup_dset_neq; auto; [apply Hg; lia|]. intros Heq. apply fresh_inj in Heq. lia.
    + cbn. rewrite <- flat_map_app, firstn_skipn. exact Hpu'.
    + rewrite Forall_forall in Hdu. constructor; [|apply Forall_forall; auto]. constructor; [rewrite firstn_length; lia|rewrite firstn_length; lia|apply Forall_forall; auto].
    + exists g', root, t. split; auto. split; auto. split; auto. split; auto. rewrite R5. cbn [map sum_list snd]. rewrite cost_fork, Ep, Et.
      rewrite (sum_list_perm _ _ (Permutation_map (cost w) Hpu)). rewrite <- (firstn_skipn nb us) at 5. rewrite map_app, sum_list_app. ring.
Qed.

Lemma huffman_least fuel lo :
  sources <> [] -> length sources <= fuel ->
  lo = nb \/ (exists k, length sources = 1 + k * (nb - 1)) /\ (forall n, In n sources -> ole r0 (w n)) ->
  exists g root t, huffman_tree neqb radd r0 ple sources (map w sources) obj_new nb fuel = Ok (g, root) /\
    unfolds (dlookup neqb g) root t /\ Permutation (tips t) sources /\ degrees 2 nb t /\
    (forall t', Permutation (tips t') sources -> degrees lo nb t' -> ole (cost w t) (cost w t')).
Proof.
  intros Hne Hf Hc. unfold huffman_tree.
  assert (Es : map snd (combine sources (map w sources)) = map w sources) by (clear; induction sources as [|s l IH]; cbn; congruence).
  destruct (loop_cost fuel 0 (combine sources (map w sources)) [] (map Tip sources)) as (g & root & t & R1 & R2 & R3 & R4 & R5).
  - rewrite combine_length, map_length. lia.
  - destruct sources; [congruence|discriminate].
  - clear. induction sources as [|s l IH]; cbn; constructor; auto. split; [apply unf_tip; reflexivity|]. unfold total. cbn. ring.
  - reflexivity.
  - clear. induction sources; cbn; auto.
  - clear. induction sources; cbn; constructor; auto. constructor.
  - exists g, root, t. split; auto. split; auto. split; auto. split; auto. intros t' Pt Dt. rewrite R5, Es.
    replace (sum_list (map (cost w) (map Tip sources))) with (r0 : K).
    2:{ clear. induction sources as [|s l IH]; [reflexivity|]. cbn [map sum_list]. rewrite <- IH. unfold cost. cbn. ring. }
    replace (radd r0 (hcost fuel (map w sources))) with (hcost fuel (map w sources)) by ring. rewrite cost_dot.
    apply (optimal_depths fuel (list_sum (map fst (weighed 0 t')) + tall t') _ _ (tall t')); auto.
    + rewrite map_length. auto.
    + rewrite weighed_snd. apply Permutation_map. auto.
    + rewrite weighed_fst. apply Forall_forall. intros d Hd. apply in_map_iff in Hd. destruct Hd as (p & <- & Hp). apply at_depth_le in Hp. lia.
    + destruct (kraft_tree lo t' Dt 0 (tall t')) as (A1 & A2); [lia|]. rewrite Nat.sub_0_r in A1, A2. unfold admitted. rewrite weighed_fst.
      destruct Hc as [E|((k & Hk) & Hn)]; [left; auto|right]. split; auto. split.
      * exists k. rewrite <- Hk, <- (Permutation_length Pt), <- (map_length w (tips t')), <- (weighed_snd 0 t'), map_length. reflexivity.
      * apply Forall_forall. intros p Hp. apply (in_map snd) in Hp. rewrite weighed_snd in Hp. apply in_map_iff in Hp. destruct Hp as (n & <- & Hp).
        apply Hn. eapply Permutation_in; eauto.
Qed.
End Trees.
End Opt.
