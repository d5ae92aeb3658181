(** Properties C14, C15, C16, C17. *)
From Coq Require Import String List Arith ZArith Bool Lia Permutation Sorting.Sorted.
From Verif Require Import Py Alg Ord ListX NdArray_Model NdArray_Proof Contract_Spec Svd_Model Svd_Spec Svd_Proof
  Net_Model Net_Spec Sweep_Spec Sweep_Proof Trav_Proof EnvThm_Proof Env_Prop Link_Spec Move_Spec State_Spec
  Split_Proof Relink_Proof Move_Proof MoveRoot_Proof State_Proof Round_Proof Contraction_Proof.
Import ListNotations.
Local Open Scope nat_scope.
Local Open Scope list_scope.
Local Open Scope py_scope.

(** A factorisation that is always available: [m = m * 1 * 1]. *)
Definition plain_svd {K : StarRing} (m : arr K) : res (arr K * arr K * arr K) :=
  match shape m with [_; q] => Ok (m, eye q q, eye q q) | _ => Raise ValueError end.

Section Helpers.
Variable K : StarRing.
Add Ring Kr : (r_theory K).
Local Open Scope star_scope.
Lemma plain_exact : exact_svd (@plain_svd K).
Proof.
  intros m p q W E Hp Hq. exists m, (eye q q), (eye q q), q. unfold plain_svd. rewrite E. split; auto.
  assert (Me : is_matrix (@eye K q q) q q) by (split; [apply wf_build|reflexivity]).
  split; [exists p, q; split; auto; split; [split; auto|split; auto]|]. split; auto.
  intros i j Hi Hj. rewrite E in Hi, Hj. cbn [nth] in Hi, Hj.
  rewrite (sumn_single K q j); auto.
  - rewrite (sumn_single K q j); auto.
    + rewrite !get_eye by auto. unfold delta. rewrite Nat.eqb_refl. ring.
    + intros l Hl Hne. rewrite (get_eye K q q j l) by auto. unfold delta. replace (j =? l) with false
        by (symmetry; apply Nat.eqb_neq; congruence). ring.
  - intros k Hk Hne. rewrite (sumn_single K q k); auto.
    + rewrite !get_eye by auto. unfold delta. apply Nat.eqb_neq in Hne. rewrite Hne. ring.
    + intros l Hl Hn2. rewrite (get_eye K q q k l) by auto. unfold delta. replace (k =? l) with false
        by (symmetry; apply Nat.eqb_neq; congruence). ring.
Qed.

Lemma some_fitting csvd (a : arr K) l : some_svd csvd -> Forall (fun d => (0 < d)%nat) (shape a) ->
  Forall (fun k => (k < ndim a)%nat) l -> fitting K csvd a l.
Proof.
  intros Sv P F m (W & Sh & _). eapply Sv; eauto.
  - apply prod_pos, gather_pos; auto.
  - apply prod_pos, gather_pos; auto. apply Forall_forall. intros k Hk. apply in_rest in Hk. apply Hk.
Qed.
End Helpers.

Lemma sorted_unique l1 : forall l2, Sorted lt l1 -> Sorted lt l2 -> Permutation l1 l2 -> l1 = l2.
Proof.
  induction l1 as [|a l1 IH]; intros l2 S1 S2 P; [symmetry; apply Permutation_nil; auto|].
  destruct l2 as [|b l2]; [apply Permutation_sym, Permutation_nil in P; discriminate|].
  apply Sorted_StronglySorted in S1; [|red; apply Nat.lt_trans]. apply Sorted_StronglySorted in S2; [|red; apply Nat.lt_trans].
  inversion S1 as [|a' l1' S1' F1]; subst. inversion S2 as [|b' l2' S2' F2]; subst. rewrite Forall_forall in F1, F2.
  assert (a = b).
  { assert (Ha : In a (b :: l2)) by (apply (Permutation_in _ P); left; auto).
    assert (Hb : In b (a :: l1)) by (apply (Permutation_in _ (Permutation_sym P)); left; auto).
    destruct Ha as [|Ha]; auto. destruct Hb as [|Hb]; auto. specialize (F1 _ Hb). specialize (F2 _ Ha). lia. }
  subst b. f_equal. apply IH; [now apply StronglySorted_Sorted..|]. eapply Permutation_cons_inv; eauto.
Qed.

(** The example network of C04 over the Gaussian integers. *)
Definition mv_h : heap G_star := ex_heap false None.
Lemma mv_network : network mv_h ex_t ex_a.
Proof.
  split; [|split; [|split; [apply ex_no_self|split; [apply ex_t_hangs|split; [|split; [apply ex_t_fits|]]]]]].
  - intros n. destruct n as [|[|[|[|[|n]]]]]; [cbn; repeat constructor..|]. unfold mv_h, ex_heap, hget. destruct n; cbn; constructor.
  - intros n i e j H. unfold points in *. destruct n as [|[|[|[|[|n]]]]]; cbn in H; [..|destruct n; destruct H];
    repeat (destruct H as [H|H]; [injection H as <- <- <-; cbn; auto|]); destruct H.
  - repeat constructor.
  - intros n Hn. cbn in Hn. destruct Hn as [<-|[<-|[]]]; (split; [reflexivity|eexists; split; reflexivity]).
Qed.

(** ** C14: the links after a move *)
Theorem C14_split_unite_keeps_links :
  forall (K : StarRing) csvd (h : heap K) n i e j an ae nn ne op nz,
    some_svd csvd -> joint h n i e j an ae nn ne -> oaxis (hget h n) = None -> count_ascii plus nn <= 1 ->
    (forall h1 m, exists h2, op h1 m = Ok (m, h2) /\ edits h1 m h2) ->
    exists h', split_unite csvd h n i op nz = Ok (n, length h, e, h') /\
      (forall t, oacc (hget h' t) = oacc (hget h t)) /\ dicts_ok h' /\ symmetric h' /\
      oaxis (hget h' e) = None /\ oaxis (hget h' n) = Some i /\
      (forall t, t <> length h -> oname (hget h' t) = oname (hget h t) /\
         oleaf (hget h' t) = oleaf (hget h t) /\ onorm (hget h' t) = onorm (hget h t)) /\
      (forall t, t <> n -> t <> e -> t <> length h -> oaxis (hget h' t) = oaxis (hget h t) /\
         (oleaf (hget h t) = false -> oarr (hget h' t) = oarr (hget h t))).
Proof.
  intros K csvd h n i e j an ae nn ne op nz Sv J Ax Pl Op.
  assert (Fi : fitting K csvd an [i]).
  { destruct J as (D & Sy & Sn & Se & Ne & P & _). destruct Sn as (L & Lf & Nu & Ar & W & Po & Nd & Nm).
    apply some_fitting; auto. constructor; auto. rewrite Nd. apply (numbered_points K h n i e j Nu) in P.
    rewrite <- (map_length snd). apply nth_error_Some. unfold targets in P. congruence. }
  destruct (split_unite_ok K csvd h n i e j an ae nn ne op nz J Ax Pl Fi Op)
    as (hA & hB & h' & m & u & s & v & k & x & y & x' & z & E & R). exists h'. intuition.
Qed.
Print Assumptions C14_split_unite_keeps_links.

Theorem C14_unite_split_keeps_links :
  forall (K : StarRing) csvd fuel (h : heap K) n i e j an ae nn ne op nz ll,
    some_svd csvd -> joint h n i e j an ae nn ne -> oaxis (hget h n) = None \/ oaxis (hget h e) = None ->
    count_ascii plus nn = 0 -> count_ascii plus ne = 0 ->
    linkage_visitor fuel h n None true false = Ok ll ->
    (forall h1 m, exists h2, op h1 m = Ok (m, h2) /\ edits h1 m h2) ->
    exists h', unite_split csvd fuel h n i op nz = Ok (n, length h, e, h') /\
      (forall t, oacc (hget h' t) = oacc (hget h t)) /\ dicts_ok h' /\ symmetric h' /\
      oaxis (hget h' e) = None /\ oaxis (hget h' n) = Some i /\
      (forall t, t <> length h -> oname (hget h' t) = oname (hget h t) /\
         oleaf (hget h' t) = oleaf (hget h t) /\ onorm (hget h' t) = onorm (hget h t)) /\
      (forall t, t <> n -> t <> e -> t <> length h -> oaxis (hget h' t) = oaxis (hget h t) /\
         (oleaf (hget h t) = false -> oarr (hget h' t) = oarr (hget h t))).
Proof.
  intros K csvd fuel h n i e j an ae nn ne op nz ll Sv J Ax Pn Pe Lk Op.
  assert (Fi : forall c, shape c = firstn i (shape an) ++ del j (shape ae) ++ skipn (S i) (shape an) ->
    fitting K csvd c (seq i (ndim ae - 1))).
  { intros c Hc. destruct J as (D & Sy & Sn & Se & Ne & P & _ & _ & _ & Hd).
    destruct Sn as (L & Lf & Nu & Ar & W & Po & Nd & Nm). destruct Se as (L' & Lf' & Nu' & Ar' & W' & Po' & Nd' & Nm').
    assert (Hi : i < ndim an).
    { apply (numbered_points K h n i e j Nu) in P. rewrite Nd, <- (map_length snd). apply nth_error_Some. unfold targets in P. congruence. }
    assert (Hj : j < ndim ae).
    { apply (Sy n i e j) in P. apply (numbered_points K h e j n i Nu') in P. rewrite Nd', <- (map_length snd).
      apply nth_error_Some. unfold targets in P. congruence. }
    unfold ndim in *.
    apply some_fitting; auto.
    - rewrite Hc. rewrite Forall_forall in Po, Po'. apply Forall_forall. intros d Hin. rewrite !in_app_iff in Hin.
      destruct Hin as [Hin|[Hin|Hin]].
      + apply Po. rewrite <- (firstn_skipn i (shape an)). apply in_or_app; auto.
      + apply Po'. unfold del in Hin. apply in_app_or in Hin. rewrite <- (firstn_skipn j (shape ae)). apply in_or_app.
        destruct Hin as [Hin|Hin]; auto. right. replace (S j) with (j + 1) in Hin by lia.
        rewrite <- skipn_add in Hin. destruct (skipn j (shape ae)) as [|q sq]; [destruct Hin|right; exact Hin].
      + apply Po. rewrite <- (firstn_skipn (S i) (shape an)). apply in_or_app; auto.
    - unfold ndim. apply Forall_forall. intros k Hk. apply in_seq in Hk. rewrite Hc, !app_length, firstn_length, skipn_length.
      rewrite length_del by auto. lia. }
  destruct (unite_split_ok K csvd fuel h n i e j an ae nn ne op nz ll J Ax Pn Pe Lk Fi Op)
    as (hA & hB & h' & m & u & s & v & k & c & c' & x & y & E & R). exists h'. intuition.
Qed.
Print Assumptions C14_unite_split_keeps_links.

(** Moves must start at the root: elsewhere both functions stop before any change. *)
Theorem C14_split_unite_needs_root :
  forall (K : StarRing) csvd (h : heap K) n i e j op nz k,
    dget (oacc (hget h n)) i = Some (e, j) -> oaxis (hget h n) = Some k ->
    split_unite csvd h n i op nz = Raise RuntimeError.
Proof.
  intros K csvd h n i e j op nz k D A. unfold split_unite, dindex. rewrite D. cbn [bind]. unfold split. rewrite A. reflexivity.
Qed.
Print Assumptions C14_split_unite_needs_root.
Theorem C14_unite_needs_root :
  forall (K : StarRing) (h : heap K) n i e j rt nz k l,
    dget (oacc (hget h n)) i = Some (e, j) -> oaxis (hget h n) = Some k -> oaxis (hget h e) = Some l ->
    unite h n i rt nz = Raise RuntimeError.
Proof.
  intros K h n i e j rt nz k l D A B. unfold unite, dindex. rewrite D. cbn [bind]. rewrite A, B. reflexivity.
Qed.
Print Assumptions C14_unite_needs_root.

(** A quiet operation, and a move that changes both arrays. *)
Definition pairs_of {K : StarRing} (h : heap K) (l : list nat) : list (option (list nat * list K) * option nat * list (nat * (nat * nat))) :=
  map (fun n => (option_map (fun a => (shape a, data a)) (oarr (hget h n)), oaxis (hget h n), oacc (hget h n))) l.
Example C14_example :
  some_svd (@plain_svd G_star) /\ network mv_h ex_t ex_a /\ quiet (@keep G_star) /\
  joint mv_h 0 0 1 0 (ex_a 0) (ex_a 1) "0" "1" /\
  match split_unite plain_svd mv_h 0 0 keep None with
  | Ok (n, m, e, h') => (n, m, e) = (0, 5, 1) /\ pairs_of h' [0; 1] =
      [(Some ([3; 3], map (fun k => if k mod 4 =? 0 then g 1 0 else g 0 0) (seq 0 9)), Some 0, [(0, (1, 0)); (1, (4, 0))]);
       (Some ([3; 2; 1], [g 1 0; g 0 0; g 0 1; g (-1) 1; g 2 0; g 1 0]), None, [(0, (0, 0)); (1, (2, 0)); (2, (3, 0))])]
  | Raise _ => False
  end /\
  match unite_split plain_svd 3 mv_h 0 0 keep None with
  | Ok (n, m, e, h') => (n, m, e) = (0, 5, 1) /\ map (fun x => snd x) (pairs_of h' [0; 1; 2; 3; 4]) = map (fun x => snd x) (pairs_of mv_h [0; 1; 2; 3; 4])
  | Raise _ => False
  end /\
  split_unite plain_svd mv_h 1 0 keep None = Raise RuntimeError.
Proof.
  split; [intros m p q W E Hp Hq; destruct (plain_exact G_star m p q W E Hp Hq) as (u & s & v & r & X); exists u, s, v, r; tauto|].
  split; [apply mv_network|]. split; [apply keep_quiet|]. split.
  - destruct (network_joint G_star mv_h ex_a 0 [] [(1, Lf 4, 0)] 0 1 [(1, Lf 2, 0); (2, Lf 3, 0)] 0 mv_network) as (nn & ne & d1 & d2 & _ & J & _).
    pose proof J as (_ & _ & (_ & _ & _ & _ & _ & _ & _ & N1) & (_ & _ & _ & _ & _ & _ & _ & N2) & _).
    injection N1 as <-. injection N2 as <-. exact J.
  - split; [vm_compute; repeat split; reflexivity|]. split; [vm_compute; repeat split; reflexivity|]. reflexivity.
Qed.

(** ** C15: the state after moves *)
Theorem C15_split_unite_keeps_state :
  forall (K : StarRing) csvd (h : heap K) A n k1 k2 i e cks j op nz,
    exact_svd csvd -> network h (Nd n (k1 ++ (i, Nd e cks, j) :: k2)) A -> quiet op ->
    exists h' c1 c2 A', let t' := Nd e (c1 ++ (j, Nd n (k1 ++ k2), i) :: c2) in
      split_unite csvd h n i op nz = Ok (n, length h, e, h') /\ cks = c1 ++ c2 /\ network h' t' A' /\
      (forall x, x <> n -> x <> e -> A' x = A x) /\
      forall s, amp A' s None t' 0 = amp A s None (Nd n (k1 ++ (i, Nd e cks, j) :: k2)) 0.
Proof.
  intros K csvd h A n k1 k2 i e cks j op nz Ex N Q.
  destruct (split_moved K csvd Ex h A n k1 k2 i e cks j op nz N Q) as (h' & c1 & c2 & A' & E & Ec & N' & _ & _ & Off & _ & Am).
  exists h', c1, c2, A'. cbn zeta. auto.
Qed.
Print Assumptions C15_split_unite_keeps_state.

Theorem C15_unite_split_keeps_state :
  forall (K : StarRing) csvd fuel (h : heap K) A n k1 k2 i e cks j op nz,
    exact_svd csvd -> network h (Nd n (k1 ++ (i, Nd e cks, j) :: k2)) A -> quiet op ->
    height (Nd n (k1 ++ (i, Nd e cks, j) :: k2)) <= fuel ->
    exists h' c1 c2 A', let t' := Nd e (c1 ++ (j, Nd n (k1 ++ k2), i) :: c2) in
      unite_split csvd fuel h n i op nz = Ok (n, length h, e, h') /\ cks = c1 ++ c2 /\ network h' t' A' /\
      (forall x, x <> n -> x <> e -> A' x = A x) /\
      forall s, amp A' s None t' 0 = amp A s None (Nd n (k1 ++ (i, Nd e cks, j) :: k2)) 0.
Proof.
  intros K csvd fuel h A n k1 k2 i e cks j op nz Ex N Q Hf.
  destruct (unite_moved K csvd Ex fuel h A n k1 k2 i e cks j op nz N Q Hf) as (h' & c1 & c2 & A' & E & Ec & N' & _ & _ & Off & _ & Am).
  exists h', c1, c2, A'. cbn zeta. auto.
Qed.
Print Assumptions C15_unite_split_keeps_state.

(** Any number of moves, in any order. *)
Theorem C15_moves_keep_state :
  forall (K : StarRing) csvd (h h' : heap K) n r t A,
    exact_svd csvd -> moves csvd h n h' r -> network h t A -> top t = n ->
    exists t' A', network h' t' A' /\ top t' = r /\ Permutation (ids t) (ids t') /\
      (forall x, In x (ids t) -> oacc (hget h' x) = oacc (hget h x) /\ oname (hget h' x) = oname (hget h x) /\
         oleaf (hget h' x) = oleaf (hget h x) /\ onorm (hget h' x) = onorm (hget h x)) /\
      forall s, amp A' s None t' 0 = amp A s None t 0.
Proof. intros K csvd h h' n r t A Ex M N T. exact (moves_state K csvd Ex h n h' r M t A N T). Qed.
Print Assumptions C15_moves_keep_state.

(** [compressed_svd] without truncation is such a routine when LAPACK factorises. *)
Theorem C15_untruncated_svd_is_exact :
  forall (R : OrdRing) (C : StarRing) (inj : R -> C) (lapack : arr C -> arr C * list R * arr C),
    (forall m p q, wf m -> shape m = [p; q] -> 0 < p -> 0 < q ->
       let '(u, s, vh) := lapack m in factorises inj m p q u s vh /\ s <> []) ->
    exact_svd (fun m => compressed_svd inj (lapack m) None None).
Proof.
  intros R C inj lapack Hl m p q W Sh Hp Hq. specialize (Hl m p q W Sh Hp Hq).
  destruct (lapack m) as [[u s] vh]. destruct Hl as ((Wu & Su & Wv & Sv & G) & Hs).
  pose proof (compressed_svd_kept R C inj p q u vh s None None Su Sv Wu Wv) as H.
  unfold kept, requested_rank in H. destruct H as (w & d & v & H1 & H2 & (Ww & Sw & Wd & Sd & Wv' & Sv' & L)).
  exists w, d, v, (length s). split; auto. split; [exists p, q; repeat split; auto|]. split.
  - intros i j Hi Hj. rewrite Sh in Hi, Hj. cbn [nth] in Hi, Hj. rewrite (G i j), L by auto. reflexivity.
  - destruct s; [congruence|cbn; lia].
Qed.
Print Assumptions C15_untruncated_svd_is_exact.

(** Down to tensor 1, back to 0 and down again; the amplitudes are those of the start. *)
Definition walk {K : StarRing} (h : heap K) : res (heap K) :=
  let! x := split_unite plain_svd h 0 0 keep None in
  let! x := unite_split plain_svd 3 (snd x) 1 0 keep None in
  let! x := split_unite plain_svd (snd x) 0 0 keep (Some true) in
  Ok (snd x).
Definition arrays {K : StarRing} (h : heap K) (n : nat) : arr K := match oarr (hget h n) with Some a => a | None => mkArr [] [] end.
Example C15_example :
  exact_svd (@plain_svd G_star) /\ network mv_h ex_t ex_a /\ quiet (@keep G_star) /\ height ex_t <= 3 /\
  match walk mv_h with
  | Ok h' => moves plain_svd mv_h 0 h' 1 /\
      map (fun v => amp (arrays h') (asg [2; 3; 4] v) None (Nd 1 [(0, Nd 0 [(1, Lf 4, 0)], 0); (1, Lf 2, 0); (2, Lf 3, 0)]) 0) (indices [2; 1; 3])
      = map (fun v => amp ex_a (asg [2; 3; 4] v) None ex_t 0) (indices [2; 1; 3]) /\
      map (fun v => amp ex_a (asg [2; 3; 4] v) None ex_t 0) (indices [2; 1; 3]) = [g 1 0; g 0 1; g 2 0; g 0 0; g (-1) 1; g 1 0]
  | Raise _ => False
  end.
Proof.
  split; [apply plain_exact|]. split; [apply mv_network|]. split; [apply keep_quiet|]. split; [cbn; lia|].
  assert (Q := keep_quiet G_star).
  assert (X : match split_unite plain_svd mv_h 0 0 keep None with
    | Ok (n1, _, e1, h1) => (n1, e1, oacc (hget h1 1), oleaf (hget h1 0)) = (0, 1, [(0, (0, 0)); (1, (2, 0)); (2, (3, 0))], false) /\
      match unite_split plain_svd 3 h1 1 0 keep None with
      | Ok (n2, _, e2, h2) => (n2, e2, oacc (hget h2 0), oleaf (hget h2 1)) = (1, 0, [(0, (1, 0)); (1, (4, 0))], false) /\
        match split_unite plain_svd h2 0 0 keep (Some true) with
        | Ok (n3, _, e3, h3) => (n3, e3) = (0, 1) /\
      map (fun v => amp (arrays h3) (asg [2; 3; 4] v) None (Nd 1 [(0, Nd 0 [(1, Lf 4, 0)], 0); (1, Lf 2, 0); (2, Lf 3, 0)]) 0) (indices [2; 1; 3])
      = [g 1 0; g 0 1; g 2 0; g 0 0; g (-1) 1; g 1 0]
        | Raise _ => False end
      | Raise _ => False end
    | Raise _ => False end) by (vm_compute; repeat split; reflexivity).
  unfold walk.
  destruct (split_unite plain_svd mv_h 0 0 keep None) as [[[[n1 m1] e1] h1]|] eqn:E1; [|destruct X].
  destruct X as (X1 & X). cbn [bind snd].
  destruct (unite_split plain_svd 3 h1 1 0 keep None) as [[[[n2 m2] e2] h2]|] eqn:E2; [|destruct X].
  destruct X as (X2 & X). cbn [bind snd].
  destruct (split_unite plain_svd h2 0 0 keep (Some true)) as [[[[n3 m3] e3] h3]|] eqn:E3; [|destruct X].
  destruct X as (X3 & X). cbn [bind snd].
  injection X1 as -> -> A1 L1. injection X2 as -> -> A2 L2. injection X3 as -> ->.
  split.
  - apply (moves_split _ _ _ _ 0 1 0 keep None m1 h1 h3 1); [left; reflexivity|reflexivity|auto|exact E1|].
    apply (moves_unite _ _ 3 _ _ 0 0 0 keep None m2 h2 h3 1); [unfold points; rewrite A1; left; reflexivity|exact L1|auto|exact E2|].
    apply (moves_split _ _ _ _ 0 1 0 keep (Some true) m3 h3 h3 1); [unfold points; rewrite A2; left; reflexivity|exact L2|auto|exact E3|]. constructor.
  - assert (Y : map (fun v => amp ex_a (asg [2; 3; 4] v) None ex_t 0) (indices [2; 1; 3]) = [g 1 0; g 0 1; g 2 0; g 0 0; g (-1) 1; g 1 0])
      by (vm_compute; reflexivity).
    split; [rewrite Y; exact X|exact Y].
Qed.

(** ** C16: split, then unite *)
Theorem C16_split_then_unite :
  forall (K : StarRing) csvd (h : heap K) n L l i1 i2 root child r c nz a nm,
    dicts_ok h -> symmetric h -> sound h n a nm -> oaxis (hget h n) = None ->
    (forall i t k, points h n i t k -> t <> n) -> count_ascii plus nm <= 1 ->
    Permutation L l -> Sorted lt l -> Forall (fun k => k < ndim a) l ->
    let l' := rest (ndim a) l in
    i1 <= length l -> i2 <= length l' ->
    exact_svd csvd -> picks n (length h) root child r c ->
    exists h' m u s v k x y, split csvd h n (AxList L) (Some (i1, i2)) root child nz = Ok (r, c, h') /\
      matricized a l m /\ csvd m = Ok (u, s, v) /\
      left_part a l i1 k u s x /\ right_part a l i2 k v y /\ parts a l i1 i2 k x y /\
      oarr (hget h' r) = Some x /\ oarr (hget h' c) = Some y /\
      oaxis (hget h' r) = None /\ oaxis (hget h' c) = Some i2 /\
      targets h' r = ins i1 (c, i2) (map (fun i => nth i (targets h n) (0, 0)) l) /\
      targets h' c = ins i2 (r, i1) (map (fun i => nth i (targets h n) (0, 0)) l') /\
      forall nz' rt w, kept_as (length h') r c rt w ->
        (exists h'' z, unite h' r i1 rt nz' = Ok (w, h'') /\ oarr (hget h'' w) = Some z /\ oaxis (hget h'' w) = None /\
           let o := firstn i1 l ++ l' ++ skipn i1 l in
           permuted a o z /\ targets h'' w = map (fun i => nth i (targets h n) (0, 0)) o) /\
        (exists h'' z, unite h' c i2 rt nz' = Ok (w, h'') /\ oarr (hget h'' w) = Some z /\ oaxis (hget h'' w) = None /\
           let o := firstn i2 l' ++ l ++ skipn i2 l' in
           permuted a o z /\ targets h'' w = map (fun i => nth i (targets h n) (0, 0)) o).
Proof.
  intros K csvd h n L l i1 i2 root child r c nz a nm D Sy Sn Ax Ns Pl Pm So Fo l' H1 H2 Ex Pk.
  assert (ND : NoDup L).
  { apply (Permutation_NoDup (Permutation_sym Pm)). apply Sorted_StronglySorted in So; [|red; apply Nat.lt_trans].
    clear - So. induction So as [|x l So IH F]; constructor; auto. intros Hi. rewrite Forall_forall in F. specialize (F _ Hi). lia. }
  assert (El : nsort L = l).
  { apply sorted_unique; auto using nsort_strict. eapply Permutation_trans; [apply nsort_perm|auto]. }
  pose proof Sn as (Ln & Lf & Nu & Ar & W & Po & Nd & Nm).
  assert (Er : root_of K h root = r /\ child_of K h root child = c /\ r <> c /\ (root = None \/ root = Some n) /\ (child = None \/ child = Some n)).
  { unfold picks in Pk. destruct root, child; cbn [root_of child_of]; intuition (subst; auto; lia). }
  destruct Er as (Er & Ec & Hne & Rr & Rc).
  destruct (exact_fitting K csvd Ex a l) as (Ft & Exa); auto.
  pose proof (split_round K csvd h n (AxList L) (Some (i1, i2)) root child nz a nm) as R. cbn zeta in R.
  unfold indice_of, axes_of in R. cbn [fst snd] in R. rewrite El, Er, Ec in R.
  destruct R as (h' & m & u & s & v & k & x & y & E & M & Cs & T & Lp & Rp & Pp & _ & _ & Ar1 & Ar2 & Ax1 & Ax2 & _ & T1 & _ & T2 & U); auto.
  { intros m Hm. destruct (Ft m Hm) as (u & s & v & k & E1 & E2 & _). exists u, s, v, k. eauto. }
  exists h', m, u, s, v, k, x, y. repeat (split; [assumption|]).
  intros nz' rt w Kw.
  assert (Ew : root_of K h' rt = w /\ (rt = None \/ rt = Some r \/ rt = Some c)).
  { unfold kept_as in Kw. destruct rt; cbn [root_of]; intuition (subst; auto). }
  destruct Ew as (Ew & Rt). destruct (U nz' rt Rt) as ((h1 & z1 & U1) & (h2 & z2 & U2)). rewrite Ew in U1, U2.
  split; [exists h1, z1|exists h2, z2]; cbn zeta in *; intuition.
Qed.
Print Assumptions C16_split_then_unite.

(** With one axis and the default positions, uniting from the child gives back the
    array and the links, entry by entry. *)
Theorem C16_single_axis_restored :
  forall (K : StarRing) csvd (h : heap K) n i root child r c nz a nm,
    dicts_ok h -> symmetric h -> sound h n a nm -> oaxis (hget h n) = None ->
    (forall k t l, points h n k t l -> t <> n) -> count_ascii plus nm <= 1 ->
    i < ndim a -> exact_svd csvd -> picks n (length h) root child r c ->
    exists h' h'', split csvd h n (AxInt i) None root child nz = Ok (r, c, h') /\
      unite h' c i (Some c) nz = Ok (c, h'') /\
      oarr (hget h'' c) = Some a /\ oaxis (hget h'' c) = None /\ targets h'' c = targets h n.
Proof.
  intros K csvd h n i root child r c nz a nm D Sy Sn Ax Ns Pl Hi Ex Pk.
  pose proof Sn as (Ln & Lf & Nu & Ar & W & Po & Nd & Nm).
  assert (Er : root_of K h root = r /\ child_of K h root child = c /\ r <> c /\ (root = None \/ root = Some n) /\ (child = None \/ child = Some n)).
  { unfold picks in Pk. destruct root, child; cbn [root_of child_of]; intuition (subst; auto; lia). }
  destruct Er as (Er & Ec & Hne & Rr & Rc).
  destruct (exact_fitting K csvd Ex a [i]) as (Ft & Exa); auto.
  assert (Er' : rest (ndim a) [i] = seq 0 i ++ seq (S i) (ndim a - S i)).
  { unfold rest. replace (ndim a) with (i + S (ndim a - S i)) at 1 by lia. rewrite seq_app, filter_app. f_equal.
    - apply filter_all. intros k Hk. apply in_seq in Hk. cbn. destruct (Nat.eqb_spec k i); [lia|reflexivity].
    - cbn [seq filter existsb]. rewrite Nat.eqb_refl. cbn [orb negb]. apply filter_all. intros k Hk. apply in_seq in Hk.
      cbn. destruct (Nat.eqb_spec k i); [lia|reflexivity]. }
  pose proof (split_round K csvd h n (AxInt i) None root child nz a nm) as R. cbn zeta in R.
  unfold indice_of, axes_of, default_of in R. cbn [fst snd] in R. rewrite Er, Ec in R.
  destruct R as (h' & m & u & s & v & k & x & y & E & M & Cs & T & Lp & Rp & Pp & _ & _ & Ar1 & Ar2 & Ax1 & Ax2 & _ & T1 & _ & T2 & U); auto.
  { cbn; lia. }
  { rewrite Er', app_length, seq_length. lia. }
  { intros m Hm. destruct (Ft m Hm) as (u & s & v & k & E1 & E2 & _). exists u, s, v, k. eauto. }
  destruct (U nz (Some c)) as (_ & (h2 & z & U2)); auto. cbn [root_of] in U2.
  assert (Eo : firstn i (rest (ndim a) [i]) ++ [i] ++ skipn i (rest (ndim a) [i]) = seq 0 (ndim a)).
  { rewrite Er', firstn_app, skipn_app, seq_length, Nat.sub_diag, firstn_all2, skipn_all2 by (rewrite seq_length; lia).
    cbn [firstn skipn]. rewrite app_nil_r. cbn [app]. change (i :: seq (S i) (ndim a - S i)) with (seq i (S (ndim a - S i))).
    change i with (0 + i) at 2. rewrite <- seq_app. f_equal. lia. }
  destruct U2 as (E2 & Az & Axz & _ & Pz & Tz). rewrite Eo in Pz, Tz.
  exists h', h2. split; auto. split; auto. split; [|split; auto].
  - rewrite Az. f_equal. destruct Pz as (Wz & Sz & Gz). rewrite gather_all in Sz. apply arr_ext; auto.
    intros idx Hidx. rewrite Sz in Hidx. rewrite <- (Gz idx Hidx). f_equal.
    unfold ndim. rewrite <- (in_range_len _ _ Hidx). symmetry. apply gather_all.
  - rewrite Tz. rewrite Nd. replace (length (oacc (hget h n))) with (length (targets h n)) by (unfold targets; apply map_length).
    apply map_nth_seq.
Qed.
Print Assumptions C16_single_axis_restored.

(** A tensor of shape (2, 2, 3), split by axes given out of order and by its middle axis. *)
Definition solo : heap G_star :=
  [mkObj (Some "a+b"%string) false (Some (mkArr [2; 2; 3] (map (fun k => g (Z.of_nat k) 1) (seq 0 12)))) None None false
     [(0, (1, 0)); (1, (2, 0)); (2, (3, 0))] [];
   mkObj (Some "x"%string) true None None None false [(0, (0, 0))] [];
   mkObj (Some "y"%string) true None None None false [(0, (0, 1))] [];
   mkObj (Some "z"%string) true None None None false [(0, (0, 2))] []].
Definition united {K : StarRing} (x : res (nat * nat * heap K)) (child : bool) (i : nat) : option (list nat * list K) :=
  match x with
  | Ok (r, c, h) => match unite h (if child then c else r) i None false with
                    | Ok (w, h) => option_map (fun a => (shape a, data a)) (oarr (hget h w)) | Raise _ => None end
  | Raise _ => None
  end.
Example C16_example :
  dicts_ok solo /\ symmetric solo /\ (exists a, sound solo 0 a "a+b") /\ oaxis (hget solo 0) = None /\
  (forall i t k, points solo 0 i t k -> t <> 0) /\ count_ascii plus "a+b" <= 1 /\
  Permutation [2; 0] [0; 2] /\ Sorted lt [0; 2] /\ exact_svd (@plain_svd G_star) /\
  picks 0 4 None None 4 5 /\ picks 0 4 None (Some 0) 4 0 /\
  united (split plain_svd solo 0 (AxList [2; 0]) (Some (1, 0)) None None false) false 1
  = Some ([2; 2; 3], map (fun k => g (Z.of_nat k) 1) (seq 0 12)) /\
  united (split plain_svd solo 0 (AxList [2; 0]) (Some (1, 0)) None None false) true 0
  = Some ([2; 3; 2], map (fun k => g k 1) [0; 3; 1; 4; 2; 5; 6; 9; 7; 10; 8; 11]%Z) /\
  united (split plain_svd solo 0 (AxInt 1) None None (Some 0) false) true 1
  = Some ([2; 2; 3], map (fun k => g (Z.of_nat k) 1) (seq 0 12)) /\
  united (split plain_svd solo 0 (AxInt 1) None None (Some 0) false) false 0
  = Some ([2; 3; 2], map (fun k => g k 1) [0; 3; 1; 4; 2; 5; 6; 9; 7; 10; 8; 11]%Z).
Proof.
  split; [intros n; destruct n as [|[|[|[|n]]]]; [cbn; repeat constructor..|unfold solo, hget; destruct n; cbn; constructor]|].
  split.
  { intros n i e j H. unfold points in *. destruct n as [|[|[|[|n]]]]; cbn in H; [..|destruct n; destruct H];
    repeat (destruct H as [H|H]; [injection H as <- <- <-; cbn; auto|]); destruct H. }
  split; [eexists; split; [cbn; lia|]; repeat (split; [reflexivity|]); split; [repeat constructor|split; reflexivity]|].
  split; [reflexivity|]. split.
  { intros i t k H. unfold points in H. cbn in H. repeat (destruct H as [H|H]; [injection H as <- <- <-; discriminate|]); destruct H. }
  split; [cbn; lia|]. split; [apply perm_swap|]. split; [repeat constructor|]. split; [apply plain_exact|].
  split; [cbn; auto|]. split; [cbn; auto|]. repeat split; vm_compute; reflexivity.
Qed.

(** ** C17: contraction *)
Theorem C17_contraction_is_dense_state :
  forall (K : StarRing) fuel (h : heap K) n ks A,
    let t := Nd n ks in
    shaped h t A -> oaxis (hget h n) = None -> length (nids t) <= fuel -> height t <= fuel ->
    exists c h', leaves fuel h n = Ok (lids t) /\ contraction fuel h n = Ok (Some c, h') /\ wf c /\
      shape c = ldims A None 0 t /\
      (forall v, in_range v (shape c) -> get c v = amp A (asg (lids t) v) None t 0) /\
      oarr (hget h' n) = Some c /\ map fst (targets h' n) = lids t /\
      (forall x, In x (nids t) -> x <> n -> oacc (hget h' x) = []).
Proof.
  intros K fuel h n ks A t Sh Ax Hf Hh.
  destruct (contraction_ok K fuel h n ks A Sh Ax Hf) as (c & h' & E & W & S' & G & Ar & _ & _ & T & Em & _).
  exists c, h'. split; [|repeat (split; [assumption|]); assumption].
  destruct Sh as (_ & _ & _ & Ha & _). apply (leaves_ok K h t fuel Ha Ax Hh).
Qed.
Print Assumptions C17_contraction_is_dense_state.

Example C17_example :
  shaped mv_h ex_t ex_a /\ oaxis (hget mv_h 0) = None /\ length (nids ex_t) <= 3 /\ height ex_t <= 3 /\
  leaves 3 mv_h 0 = Ok [2; 3; 4] /\
  value (contraction 3 mv_h 0) = Some (Some ([2; 1; 3], [g 1 0; g 0 1; g 2 0; g 0 0; g (-1) 1; g 1 0])).
Proof.
  split; [apply network_shaped, mv_network|]. split; [reflexivity|]. split; [cbn; lia|]. split; [cbn; lia|].
  split; vm_compute; reflexivity.
Qed.
