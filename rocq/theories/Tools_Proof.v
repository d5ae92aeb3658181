From Coq Require Import String List Arith Bool Lia Permutation.
From Verif Require Import Py Tools_Model Tools_Spec.
Import ListNotations.
Open Scope py_scope.
Open Scope list_scope.

(** * iter_visitor *)
Section Visitor.
Variable V : Type.
Variable mem : V -> list V -> bool.
Hypothesis mem_spec : forall x l, mem x l = true <-> In x l.
Variable E : V -> V -> Prop.
Variable ext : V -> list V -> list V.
Hypothesis ext_spec : forall v vis x, In x (ext v vis) <-> E v x /\ ~ In x vis.

Lemma mem_false x l : mem x l = false <-> ~ In x l.
Proof.
  rewrite <- mem_spec. destruct (mem x l); split; intros; congruence.
Qed.

(** Taking an element from the stack, in either method. *)
Definition pop (m : method) (x : V) (xs : list V) : V * list V :=
  match m with DFS => (last (x :: xs) x, removelast (x :: xs)) | _ => (x, xs) end.

Lemma pop_perm m x xs : Permutation (fst (pop m x xs) :: snd (pop m x xs)) (x :: xs).
Proof.
  destruct m; cbn [pop fst snd]; auto.
  pose proof (app_removelast_last x (l := x :: xs) ltac:(discriminate)) as H.
  rewrite H at 3. apply Permutation_cons_append.
Qed.

Lemma loop_step m fuel x xs vis : m <> OtherMethod ->
  visit_loop mem ext m (S fuel) (x :: xs) vis =
  (let v := fst (pop m x xs) in let st := snd (pop m x xs) in
   if mem v vis then visit_loop mem ext m fuel st vis
   else let! rest := visit_loop mem ext m fuel (st ++ ext v (v :: vis)) (v :: vis) in
        Ok (v :: rest)).
Proof. destruct m; try congruence; intros _; reflexivity. Qed.

Lemma loop_sound m start : m <> OtherMethod -> forall fuel stack vis ys,
  (forall x, In x stack -> reach E start x) ->
  (forall x y, In x vis -> E x y -> In y vis \/ In y stack) ->
  visit_loop mem ext m fuel stack vis = Ok ys ->
  NoDup ys /\ (forall x, In x ys -> reach E start x /\ ~ In x vis) /\
  (forall x, In x stack -> In x vis \/ In x ys) /\
  (forall x y, In x vis \/ In x ys -> E x y -> In y vis \/ In y ys).
Proof.
  intros Hm. induction fuel as [|fuel IH]; intros stack vis ys Hs Hc H; [discriminate|].
  destruct stack as [|x xs].
  - cbn in H. injection H as <-. repeat split.
    + constructor.
    + destruct H.
    + destruct H.
    + intros x [].
    + intros x y [Hx|[]] Hy. destruct (Hc x y Hx Hy) as [?|[]]; auto.
  - rewrite loop_step in H by auto. pose proof (pop_perm m x xs) as Hp.
    destruct (pop m x xs) as [v st]. cbn [fst snd] in *. cbn zeta in H.
    assert (Hst : forall z, In z (x :: xs) <-> z = v \/ In z st).
    { intros z. split; intros Hz.
      - apply (Permutation_in _ (Permutation_sym Hp)) in Hz. destruct Hz; auto.
      - apply (Permutation_in _ Hp). destruct Hz as [->|?]; [left|right]; auto. }
    destruct (mem v vis) eqn:Em.
    + apply mem_spec in Em.
      destruct (IH st vis ys) as (A & B & C & D); auto.
      * intros z Hz. apply Hs. apply Hst. auto.
      * intros a b Ha Hb. destruct (Hc a b Ha Hb) as [?|Hz]; auto.
        apply Hst in Hz. destruct Hz as [->|?]; auto.
      * repeat split; auto; try (apply B; auto).
        intros z Hz. apply Hst in Hz. destruct Hz as [->|?]; auto.
    + apply mem_false in Em. unfold bind in H.
      destruct (visit_loop mem ext m fuel (st ++ ext v (v :: vis)) (v :: vis)) as [rest|] eqn:Er;
        [|discriminate].
      injection H as <-.
      assert (H1 : forall z, In z (st ++ ext v (v :: vis)) -> reach E start z).
      { intros z Hz. apply in_app_iff in Hz. destruct Hz as [Hz|Hz].
          - apply Hs. apply Hst. auto.
          - apply ext_spec in Hz. apply reach_step with v; [|tauto]. apply Hs. apply Hst; auto. }
      assert (H2 : forall a b, In a (v :: vis) -> E a b ->
        In b (v :: vis) \/ In b (st ++ ext v (v :: vis))).
      { intros a b [<-|Ha] Hb.
          - destruct (mem b (v :: vis)) eqn:Eb.
            + apply mem_spec in Eb. auto.
            + right. apply in_app_iff. right. apply ext_spec. split; auto. apply mem_false; auto.
          - destruct (Hc a b Ha Hb) as [?|Hz]; [left; right; auto|].
            apply Hst in Hz. destruct Hz as [->|Hz]; [left; left; auto|].
            right. apply in_app_iff. auto. }
      destruct (IH _ _ _ H1 H2 Er) as (A & B & C & D).
      split; [|split; [|split]].
      * constructor; auto. intros Hin. apply B in Hin. apply Hin. left; auto.
      * intros z [<-|Hz].
        -- split; auto. apply Hs. apply Hst. auto.
        -- apply B in Hz. destruct Hz as (Hz1 & Hz2). split; auto. intros Hz. apply Hz2. right; auto.
      * intros z Hz. apply Hst in Hz. destruct Hz as [->|Hz]; [right; left; auto|].
        destruct (C z ltac:(apply in_app_iff; auto)) as [[<-|?]|?]; cbn; auto.
      * intros a b Ha Hb.
        destruct (D a b) as [[<-|?]|?]; cbn; auto.
        cbn in Ha. cbn. tauto.
Qed.

Lemma visitor_reachable m fuel start ys : m <> OtherMethod ->
  iter_visitor mem ext m fuel start = Ok ys ->
  NoDup ys /\ forall x, In x ys <-> reach E start x.
Proof.
  intros Hm H. unfold iter_visitor in H.
  destruct (loop_sound m start Hm fuel [start] [] ys) as (A & B & C & D); auto.
  - intros x [<-|[]]. constructor.
  - split; auto. intros x. split; [apply B|].
    intros R. induction R.
    + destruct (C v) as [[]|?]; cbn; auto.
    + destruct (D v w) as [[]|?]; auto.
Qed.

(** Termination on finite graphs. *)
Variable U : list V.
Hypothesis U_closed : forall x y, In x U -> E x y -> In y U.

Definition unvisited (vis : list V) : nat := List.length (filter (fun x => negb (mem x vis)) U).

Lemma unvisited_lt v vis : In v U -> ~ In v vis -> unvisited (v :: vis) < unvisited vis.
Proof.
  unfold unvisited. intros Hv Hn.
  assert (G : forall l, In v l ->
    List.length (filter (fun x => negb (mem x (v :: vis))) l)
    < List.length (filter (fun x => negb (mem x vis)) l)).
  { assert (L : forall l,
      List.length (filter (fun x => negb (mem x (v :: vis))) l)
      <= List.length (filter (fun x => negb (mem x vis)) l)).
    { induction l as [|a l IH]; cbn; auto.
      destruct (mem a (v :: vis)) eqn:E1, (mem a vis) eqn:E2; cbn; try lia.
      apply mem_spec in E2. apply mem_false in E1. exfalso. apply E1. right; auto. }
    induction l as [|a l IH]; intros []; cbn.
    - subst a. rewrite (proj2 (mem_spec v (v :: vis)) (or_introl eq_refl)).
      rewrite (proj2 (mem_false v vis) Hn). cbn. pose proof (L l). lia.
    - specialize (IH H). destruct (mem a (v :: vis)) eqn:E1, (mem a vis) eqn:E2; cbn; try lia.
      apply mem_spec in E2. apply mem_false in E1. exfalso. apply E1. right; auto. }
  auto.
Qed.

Lemma loop_fuel_mono m fuel fuel' stack vis ys : m <> OtherMethod ->
  visit_loop mem ext m fuel stack vis = Ok ys -> fuel <= fuel' ->
  visit_loop mem ext m fuel' stack vis = Ok ys.
Proof.
  intros Hm. revert fuel' stack vis ys. induction fuel as [|fuel IH]; intros fuel' stack vis ys H Hf;
    [discriminate|].
  destruct fuel' as [|fuel']; [lia|]. destruct stack as [|x xs]; [exact H|].
  rewrite loop_step in * by auto. cbn zeta in *.
  destruct (mem (fst (pop m x xs)) vis).
  - apply IH; auto. lia.
  - unfold bind in *.
    destruct (visit_loop mem ext m fuel _ _) eqn:Er in H; [|discriminate].
    rewrite (IH fuel' _ _ _ Er) by lia. exact H.
Qed.

Lemma loop_terminates m : m <> OtherMethod -> forall n k stack vis,
  unvisited vis <= n -> List.length stack <= k -> (forall x, In x stack -> In x U) ->
  exists fuel ys, visit_loop mem ext m fuel stack vis = Ok ys.
Proof.
  intros Hm. induction n as [n IHn] using lt_wf_ind. induction k as [|k IHk].
  - intros [|] vis Hu Hk Hs; cbn in Hk; [|lia]. exists 1, []. reflexivity.
  - intros stack vis Hu Hk Hs. destruct stack as [|x xs]; [exists 1, []; reflexivity|].
    pose proof (pop_perm m x xs) as Hp.
    remember (pop m x xs) as q eqn:Eq. destruct q as [v st]. cbn [fst snd] in Hp.
    assert (Hst : forall z, z = v \/ In z st -> In z U).
    { intros z Hz. apply Hs. apply (Permutation_in _ Hp). cbn. destruct Hz; auto. }
    assert (Hl : List.length st <= k) by (apply Permutation_length in Hp; cbn in Hp, Hk; lia).
    destruct (mem v vis) eqn:Em.
    + destruct (IHk st vis) as (fuel & ys & Hf); auto.
      exists (S fuel), ys. rewrite loop_step by auto. rewrite <- Eq. cbn [fst snd]. cbn zeta.
      rewrite Em. exact Hf.
    + pose proof Em as Em'. apply mem_false in Em'.
      pose proof (unvisited_lt v vis (Hst v (or_introl eq_refl)) Em') as Hlt.
      destruct (IHn (unvisited (v :: vis)) ltac:(lia)
                  (List.length (st ++ ext v (v :: vis))) (st ++ ext v (v :: vis)) (v :: vis))
        as (fuel & ys & Hf); auto.
      { intros z Hz. apply in_app_iff in Hz. destruct Hz as [?|Hz]; auto.
        apply ext_spec in Hz. apply (U_closed v); [|tauto]. auto. }
      exists (S fuel), (v :: ys). rewrite loop_step by auto. rewrite <- Eq. cbn [fst snd]. cbn zeta.
      rewrite Em, Hf. reflexivity.
Qed.

Lemma visitor_terminates m start : m <> OtherMethod -> In start U ->
  exists fuel0 ys, forall fuel, fuel0 <= fuel -> iter_visitor mem ext m fuel start = Ok ys.
Proof.
  intros Hm Hs.
  destruct (loop_terminates m Hm (unvisited []) 1 [start] []) as (fuel & ys & H); auto.
  - intros x [<-|[]]; auto.
  - exists fuel, ys. intros. eapply loop_fuel_mono; eauto.
Qed.
End Visitor.

Lemma visitor_other {V} mem (ext : V -> list V -> list V) fuel start :
  iter_visitor mem ext OtherMethod (S fuel) start = Raise NotImplementedError.
Proof. reflexivity. Qed.

(** ** Breadth first order *)
Section Bfs.
Variable V : Type.
Variable mem : V -> list V -> bool.
Hypothesis mem_spec : forall x l, mem x l = true <-> In x l.
Variable E : V -> V -> Prop.
Variable ext : V -> list V -> list V.
Hypothesis ext_spec : forall v vis x, In x (ext v vis) <-> E v x /\ ~ In x vis.
Variable start : V.

(** Queue entries with a level. *)
Fixpoint level_sorted (lo hi : nat) (q : list (V * nat)) : Prop :=
  match q with
  | [] => True
  | (_, l) :: q => lo <= l <= hi /\ level_sorted l hi q
  end.

Lemma level_sorted_app lo hi q r : level_sorted lo hi q ->
  (forall e, In e r -> snd e = hi) -> lo <= hi -> level_sorted lo hi (q ++ r).
Proof.
  revert lo; induction q as [|[x l] q IH]; cbn; intros lo H Hr Hlo.
  - clear H. assert (G : forall lo, lo <= hi -> level_sorted lo hi r).
    { induction r as [|[y l] r IHr]; cbn; auto. intros lo' H'.
      assert (l = hi) by (apply (Hr (y, l)); left; auto). subst l. split; [lia|].
      apply IHr; auto. intros; apply Hr; right; auto. }
    auto.
  - destruct H. split; auto. apply IH; auto. lia.
Qed.

Lemma level_sorted_hi lo hi hi' q : hi <= hi' -> level_sorted lo hi q -> level_sorted lo hi' q.
Proof. revert lo; induction q as [|[x l] q IH]; cbn; auto. intros lo H []. split; [lia|auto]. Qed.

Lemma level_sorted_ge lo hi q e : level_sorted lo hi q -> In e q -> lo <= snd e.
Proof.
  revert lo; induction q as [|[x l] q IH]; cbn; [tauto|]. intros lo [H1 H2] [<-|H]; cbn; [lia|].
  specialize (IH l H2 H). lia.
Qed.

(** Yielded vertices come with their distance, in non-decreasing order. *)
Fixpoint dist_sorted (lo : nat) (ys : list V) : Prop :=
  match ys with
  | [] => True
  | y :: ys => exists n, distance E start y n /\ lo <= n /\ dist_sorted n ys
  end.

Lemma dist_sorted_le lo lo' ys : lo' <= lo -> dist_sorted lo ys -> dist_sorted lo' ys.
Proof. destruct ys; cbn; auto. intros H (n & A & B & C). exists n. repeat split; try apply A; auto. lia. Qed.

Lemma bfs_order fuel : forall k q (vis : list (V * nat)) ys,
  visit_loop mem ext BFS fuel (map fst q) (map fst vis) = Ok ys ->
  level_sorted k (S k) q ->
  (forall x l, In (x, l) q -> path_len E l start x) ->
  (forall x l, In (x, l) vis -> distance E start x l /\ l <= k) ->
  (In start (map fst vis) \/ In (start, 0) q) ->
  (forall x l y, In (x, l) vis -> E x y ->
     In y (map fst vis) \/ exists l', In (y, l') q /\ l' <= S l) ->
  dist_sorted k ys.
Proof.
  induction fuel as [|fuel IH]; intros k q vis ys H Hsort Hq Hvis Hst Hcl; [discriminate|].
  destruct q as [|[x l] q].
  { cbn in H. injection H as <-. exact I. }
  cbn [map fst] in H. rewrite loop_step in H by discriminate. cbn [pop fst snd] in H. cbn zeta in H.
  destruct Hsort as (Hl & Hsort).
  destruct (mem x (map fst vis)) eqn:Em.
  - apply mem_spec in Em.
    apply dist_sorted_le with l; [lia|].
    apply (IH l q vis ys); auto.
    + apply level_sorted_hi with (S k); auto. lia.
    + intros; apply Hq; right; auto.
    + intros y n Hy. apply Hvis in Hy. split; [tauto|lia].
    + destruct Hst as [?|[Hs|?]]; auto. injection Hs as -> _. auto.
    + intros y n z Hy Hz. destruct (Hcl y n z Hy Hz) as [?|(l' & [Hz'|Hz'] & Hl')]; auto.
      * injection Hz' as -> _. auto.
      * right. exists l'. auto.
  - assert (Hnx : ~ In x (map fst vis)) by (intros A; apply mem_spec in A; congruence).
    unfold bind in H.
    destruct (visit_loop mem ext BFS fuel (map fst q ++ ext x (x :: map fst vis)) (x :: map fst vis))
      as [rest|] eqn:Er; [|discriminate].
    injection H as <-.
    (* distance of x *)
    assert (Hd : distance E start x l).
    { split; [apply Hq; left; auto|]. intros m Hm.
      destruct (le_lt_dec l m) as [?|Hlt]; auto. exfalso.
      (* the first unvisited vertex on the path is queued at a level <= m *)
      assert (G : forall m s y, path_len E m s y -> s = start -> In y (map fst vis) \/
                  exists z l', In (z, l') ((x, l) :: q) /\ l' <= m).
      { clear m Hm Hlt. intros m s y Hp.
        induction Hp as [u|m u v w Hp IHp He]; intros ->.
        - destruct Hst as [?|?]; auto. right. exists start, 0. auto.
        - specialize (IHp eq_refl). destruct IHp as [Hv|(z & l' & Hz & Hl')]; [|right; exists z, l'; auto].
          apply in_map_iff in Hv. destruct Hv as ([v' lv] & Ev & Hv). cbn in Ev. subst v'.
          destruct (Hcl v lv w Hv He) as [?|(l' & Hz & Hl')]; auto.
          right. exists w, l'. split; auto.
          destruct (Hvis v lv Hv) as [[_ Hmin] _]. specialize (Hmin m Hp). lia. }
      destruct (G m start x Hm eq_refl) as [?|(z & l' & [Hz|Hz] & Hl')]; auto.
      - injection Hz as _ <-. lia.
      - pose proof (level_sorted_ge l (S k) q (z, l') Hsort Hz). cbn in *. lia. }
    cbn. exists l. split; auto. split; [lia|].
    set (new := map (fun z => (z, S l)) (ext x (x :: map fst vis))).
    apply (IH l (q ++ new) ((x, l) :: vis)).
    + rewrite map_app. unfold new. rewrite map_map. cbn [fst]. rewrite map_id. exact Er.
    + apply level_sorted_app; [|unfold new; intros e He; apply in_map_iff in He;
        destruct He as (z & <- & _); reflexivity|lia].
      apply level_sorted_hi with (S k); auto. lia.
    + intros y n Hy. apply in_app_iff in Hy. destruct Hy as [Hy|Hy].
      * apply Hq. right; auto.
      * unfold new in Hy. apply in_map_iff in Hy. destruct Hy as (z & Ez & Hz).
        injection Ez as <- <-. apply ext_spec in Hz. apply pl_snoc with x; [|tauto].
        apply Hq. left; auto.
    + intros y n [Hy|Hy].
      * injection Hy as <- <-. split; auto.
      * apply Hvis in Hy. split; [tauto|lia].
    + destruct Hst as [?|[Hs|?]].
      * left; right; auto.
      * left; left. injection Hs; auto.
      * right. apply in_app_iff; auto.
    + intros y n z [Hy|Hy] Hz.
      * injection Hy as <- <-. cbn [map fst].
        destruct (mem z (x :: map fst vis)) eqn:Ez.
        -- apply mem_spec in Ez. auto.
        -- right. exists (S l). split; auto. apply in_app_iff. right. unfold new.
           apply in_map_iff. exists z. split; auto. apply ext_spec. split; auto.
           intros A. apply mem_spec in A. congruence.
      * destruct (Hcl y n z Hy Hz) as [?|(l' & [Hz'|Hz'] & Hl')]; cbn.
        -- auto.
        -- injection Hz' as -> _. auto.
        -- right. exists l'. rewrite in_app_iff. auto.
Qed.

Lemma bfs_by_distance fuel ys :
  iter_visitor mem ext BFS fuel start = Ok ys -> dist_sorted 0 ys.
Proof.
  intros H. apply (bfs_order fuel 0 [(start, 0)] [] ys); auto.
  - cbn. lia.
  - intros x l [Hx|[]]. injection Hx as <- <-. constructor.
  - intros x l [].
  - right. left. auto.
Qed.

Lemma dist_sorted_nth lo ys i j y z :
  dist_sorted lo ys -> i <= j -> nth_error ys i = Some y -> nth_error ys j = Some z ->
  exists n m, distance E start y n /\ distance E start z m /\ n <= m.
Proof.
  assert (G : forall ys lo j z, dist_sorted lo ys -> nth_error ys j = Some z ->
     exists m, distance E start z m /\ lo <= m).
  { clear. induction ys as [|a ys IH]; intros lo j z H Hz; [destruct j; discriminate|].
    destruct H as (n & A & B & C). destruct j as [|j]; cbn in Hz.
    - injection Hz as <-. exists n. auto.
    - destruct (IH n j z C Hz) as (m & D & F). exists m. split; auto. lia. }
  revert lo i j. induction ys as [|a ys IH]; intros lo i j H Hij Hy Hz; [destruct i; discriminate|].
  destruct H as (n & A & B & C). destruct i as [|i]; cbn in Hy.
  - injection Hy as <-. destruct j as [|j]; cbn in Hz.
    + injection Hz as <-. exists n, n. auto.
    + destruct (G ys n j z C Hz) as (m & D & F). exists n, m. auto.
  - destruct j as [|j]; [lia|]. cbn in Hz. apply (IH n i j); auto. lia.
Qed.

Lemma bfs_ordered fuel ys i j y z :
  iter_visitor mem ext BFS fuel start = Ok ys ->
  i <= j -> nth_error ys i = Some y -> nth_error ys j = Some z ->
  exists n m, distance E start y n /\ distance E start z m /\ n <= m.
Proof. intros H. eapply dist_sorted_nth. eapply bfs_by_distance; eauto. Qed.
End Bfs.

(** * lazyproperty *)
Section Lazy.
Variable Val Other : Type.
Notation inst := (inst Val Other).

(** Operations that leave attribute [k] alone. *)
Definition keeps (k : string) (op : lazy_op Val Other) : Prop :=
  match op with LWrite k' _ => k' <> k | LDel k' => k' <> k | _ => True end.

Definition is_read (op : lazy_op Val Other) : bool :=
  match op with LRead => true | _ => false end.

Lemma lazy_cached a f (o : inst) v ops :
  idict o a = Some v -> Forall (keeps a) ops ->
  lazy_run a a f o ops = (repeat v (List.length (filter is_read ops)), 0).
Proof.
  intros Ho H. revert o Ho. induction H as [|op ops Hop H IH]; intros o Ho; [reflexivity|].
  destruct op as [|g|k w|k]; cbn [lazy_run is_read filter List.length repeat].
  - unfold lazy_get. rewrite Ho. cbn. rewrite IH by auto. reflexivity.
  - apply IH. exact Ho.
  - apply IH. cbn. destruct (String.eqb_spec a k); [subst; cbn in Hop; congruence|auto].
  - apply IH. cbn. destruct (String.eqb_spec a k); [subst; cbn in Hop; congruence|auto].
Qed.

Lemma lazy_once a f (o : inst) ops :
  idict o a = None -> Forall (keeps a) ops ->
  exists v, lazy_run a a f o ops
    = (repeat v (List.length (filter is_read ops)), min 1 (List.length (filter is_read ops))).
Proof.
  intros Ho H. revert o Ho. induction H as [|op ops Hop H IH]; intros o Ho.
  - exists (f o). reflexivity.
  - destruct op as [|g|k w|k]; cbn [lazy_run is_read filter List.length repeat].
    + exists (f o). unfold lazy_get. rewrite Ho. cbn zeta.
      rewrite (lazy_cached a f (iset o a (f o)) (f o) ops); auto.
      cbn. now rewrite String.eqb_refl.
    + apply (IH {| idict := idict o; iother := g (iother o) |}). exact Ho.
    + apply (IH (iset o k w)). cbn. destruct (String.eqb_spec a k); [subst; cbn in Hop; congruence|auto].
    + apply (IH (idel o k)). cbn. destruct (String.eqb_spec a k); auto.
Qed.

(** The first read evaluates [func] on the instance of that moment. *)
Lemma lazy_first a f (o : inst) ops :
  idict o a = None -> Forall (keeps a) ops ->
  lazy_run a a f o (LRead :: ops)
  = (repeat (f o) (S (List.length (filter is_read ops))), 1).
Proof.
  intros Ho H. cbn [lazy_run]. unfold lazy_get. rewrite Ho. cbn zeta.
  rewrite (lazy_cached a f (iset o a (f o)) (f o) ops); auto.
  cbn. now rewrite String.eqb_refl.
Qed.

(** Stored under another class attribute name, nothing is cached. *)
Lemma lazy_other_name a n f (o : inst) k :
  a <> n -> idict o a = None ->
  snd (lazy_run a n f o (repeat LRead k)) = k.
Proof.
  intros Hn. revert o. induction k as [|k IH]; intros o Ho; [reflexivity|].
  cbn [repeat lazy_run]. unfold lazy_get. rewrite Ho. cbn zeta.
  specialize (IH (iset o n (f o))).
  destruct (lazy_run a n f (iset o n (f o)) (repeat LRead k)) as [vs m].
  cbn in *. f_equal. apply IH. destruct (String.eqb_spec a n); auto; congruence.
Qed.
End Lazy.

(** * unzip *)
Lemma mapM_column {A} (rows : list (list A)) n i d : i < n ->
  Forall (fun r => n <= List.length r) rows ->
  mapM (fun row => tuple_get row i) rows = Ok (map (fun r => nth i r d) rows).
Proof.
  intros Hi. induction 1 as [|r rows Hr H IH]; [reflexivity|].
  cbn [mapM]. unfold tuple_get at 1. rewrite (nth_error_nth' r d) by lia.
  cbn [bind]. rewrite IH. reflexivity.
Qed.

Lemma unzip_columns {A} (rows : list (list A)) n d :
  rows <> [] -> Forall (fun r => List.length r = n) rows ->
  unzip rows = Ok (map (fun i => Ok (map (fun r => nth i r d) rows)) (seq 0 n)).
Proof.
  intros Hne H. unfold unzip. destruct rows as [|r rows]; [congruence|].
  inversion H; subst. f_equal. apply map_ext_in. intros i Hi. apply in_seq in Hi.
  apply mapM_column with (n := List.length r); [lia|].
  eapply Forall_impl; [|exact H]. cbn. intros; lia.
Qed.

(** * Huffman trees *)
Section Huff.
Variable N : Type.
Variable neqb : N -> N -> bool.
Hypothesis neqb_spec : forall x y, neqb x y = true <-> x = y.
Variable P : Type.
Variable padd : P -> P -> P.
Variable p0 : P.
Variable ple : P -> P -> bool.

Lemma neqb_refl x : neqb x x = true.
Proof. apply neqb_spec. auto. Qed.
Lemma neqb_neq x y : x <> y -> neqb x y = false.
Proof. intros H. destruct (neqb x y) eqn:E; auto. apply neqb_spec in E. congruence. Qed.

Lemma dlookup_dset_eq g k v : dlookup neqb (dset neqb g k v) k = Some v.
Proof.
  induction g as [|[k' v'] g IH]; cbn; [now rewrite neqb_refl|].
  destruct (neqb k k') eqn:E; cbn; rewrite E; auto.
Qed.

Lemma dlookup_dset_neq g k k' v : k' <> k -> dlookup neqb (dset neqb g k v) k' = dlookup neqb g k'.
Proof.
  intros H. induction g as [|[a w] g IH]; cbn; [now rewrite neqb_neq|].
  destruct (neqb k a) eqn:E; cbn.
  - apply neqb_spec in E. subst a. now rewrite neqb_neq.
  - destruct (neqb k' a); auto.
Qed.

Lemma sinsert_perm (x : N * P) l : Permutation (sinsert ple x l) (x :: l).
Proof.
  induction l as [|y l IH]; cbn; auto. destruct (ple (snd x) (snd y)); auto.
  rewrite IH. apply perm_swap.
Qed.
Lemma ssort_perm (l : list (N * P)) : Permutation (ssort ple l) l.
Proof. induction l as [|x l IH]; cbn; auto. rewrite sinsert_perm. auto. Qed.

Lemma ntree_ind' (Q : ntree N -> Prop) :
  (forall n, Q (Tip n)) -> (forall n ts, Forall Q ts -> Q (Fork n ts)) -> forall t, Q t.
Proof.
  intros HT HF. fix IH 1. intros [n|n ts]; [apply HT|]. apply HF.
  induction ts as [|t ts IHts]; constructor; auto.
Qed.

Lemma unfolds_dset g k v n t :
  (forall x, In x (tips t) -> x <> k) -> dlookup neqb g k = None ->
  unfolds (dlookup neqb g) n t -> unfolds (dlookup neqb (dset neqb g k v)) n t.
Proof.
  revert n. induction t as [m|m ts IH] using ntree_ind'; intros n Hk Hg Hu;
    inversion Hu as [? Hn|? ns ? Hlk Hf]; subst.
  - constructor. rewrite dlookup_dset_neq; auto. apply Hk. left; auto.
  - apply unf_fork with (ns := ns).
    + rewrite dlookup_dset_neq; auto. intros ->. congruence.
    + cbn in Hk. clear Hu Hlk. revert ns Hf. induction IH as [|t ts Ht IH IHts]; intros ns Hf;
        inversion Hf as [|? ? ? ? Hf1 Hf2]; subst; constructor.
      * apply Ht; auto. intros z Hz. apply Hk. cbn. apply in_app_iff; auto.
      * apply IHts; auto. intros z Hz. apply Hk. cbn. apply in_app_iff; auto.
Qed.

Lemma Forall2_perm_l {A B} (R : A -> B -> Prop) l l' m :
  Permutation l l' -> Forall2 R l m -> exists m', Permutation m m' /\ Forall2 R l' m'.
Proof.
  intros Hp. revert m. induction Hp; intros m H.
  - inversion H; subst. exists []. auto.
  - inversion H as [|? b ? m1 Hb Hm]; subst. destruct (IHHp _ Hm) as (m' & A1 & A2).
    exists (b :: m'). auto.
  - inversion H as [|? b ? m1 Hb Hm]; subst. inversion Hm as [|? b' ? m2 Hb' Hm']; subst.
    exists (b' :: b :: m2). split; [constructor|]. auto.
  - destruct (IHHp1 _ H) as (m1 & A1 & A2). destruct (IHHp2 _ A2) as (m2 & B1 & B2).
    exists m2. split; auto. etransitivity; eauto.
Qed.

Lemma Forall2_firstn_skipn {A B} (R : A -> B -> Prop) k l m : Forall2 R l m ->
  Forall2 R (firstn k l) (firstn k m) /\ Forall2 R (skipn k l) (skipn k m).
Proof.
  intros H. revert k. induction H; intros [|k]; cbn; auto.
  destruct (IHForall2 k). auto.
Qed.

Definition above (g : dict N) (e : N * P) (t : ntree N) := unfolds (dlookup neqb g) (fst e) t.

Lemma above_map g l ts : Forall2 (above g) l ts -> Forall2 (unfolds (dlookup neqb g)) (map fst l) ts.
Proof. induction 1; cbn; constructor; auto. Qed.

Lemma tips_flat_perm (ts ts' : list (ntree N)) : Permutation ts ts' ->
  Permutation (flat_map tips ts) (flat_map tips ts').
Proof. intros. now apply Permutation_flat_map. Qed.

Section Run.
Variable obj_new : nat -> N.
Variable nb : nat.
Hypothesis nb2 : 2 <= nb.
Variable sources : list N.
Hypothesis fresh_src : forall i, ~ In (obj_new i) sources.
Hypothesis fresh_inj : forall i j, obj_new i = obj_new j -> i = j.

Lemma huffman_loop_ok fuel : forall i seq g ts,
  List.length seq <= fuel -> seq <> [] ->
  Forall2 (above g) seq ts ->
  (forall j, i <= j -> dlookup neqb g (obj_new j) = None) ->
  Permutation (flat_map tips ts) sources ->
  Forall (degrees 2 nb) ts ->
  exists g' root t, huffman_loop neqb padd p0 ple obj_new nb fuel i seq g = Ok (g', root) /\
    unfolds (dlookup neqb g') root t /\ Permutation (tips t) sources /\ degrees 2 nb t.
Proof.
  induction fuel as [|fuel IH]; intros i seq g ts Hl Hne HF Hg Hp Hd.
  { destruct seq; cbn in Hl; [congruence|lia]. }
  destruct seq as [|[n p] seq]; [congruence|]. destruct seq as [|e2 seq].
  - inversion HF as [|? t ? m1 Ht Hm]; subst. inversion Hm; subst. exists g, n, t.
    split; [reflexivity|]. split; [exact Ht|]. inversion Hd; subst. split; auto.
    cbn in Hp. now rewrite app_nil_r in Hp.
  - set (sq := (n, p) :: e2 :: seq) in *.
    change (huffman_loop neqb padd p0 ple obj_new nb (S fuel) i sq g) with
      (huffman_loop neqb padd p0 ple obj_new nb fuel (S i)
         ((obj_new i, fold_left padd (map snd (firstn nb (ssort ple sq))) p0)
            :: skipn nb (ssort ple sq))
         (dset neqb g (obj_new i) (map fst (firstn nb (ssort ple sq))))).
    destruct (Forall2_perm_l _ _ (ssort ple sq) ts (Permutation_sym (ssort_perm sq)) HF)
      as (us & Hpu & HFu).
    assert (Hlen : List.length (ssort ple sq) = S (S (List.length seq))).
    { rewrite (Permutation_length (ssort_perm sq)). reflexivity. }
    assert (Hlu : List.length us = List.length (ssort ple sq)).
    { symmetry. clear -HFu. induction HFu; cbn; congruence. }
    assert (Hpu' : Permutation (flat_map tips us) sources).
    { etransitivity; [|exact Hp]. apply tips_flat_perm. now symmetry. }
    assert (Hdu : Forall (degrees 2 nb) us).
    { rewrite Forall_forall in *. intros u Hu. apply Hd. eapply Permutation_in; [symmetry|]; eauto. }
    destruct (Forall2_firstn_skipn _ nb _ _ HFu) as (HF1 & HF2).
    set (sorted := ssort ple sq) in *.
    assert (Htip : forall u, In u us -> forall x, In x (tips u) -> x <> obj_new i).
    { intros u Hu x Hx ->. apply (fresh_src i). eapply Permutation_in; [exact Hpu'|].
      apply in_flat_map. exists u. auto. }
    assert (Hup : forall k l (u : list (ntree N)), Forall2 (above g) l u -> (forall t, In t u -> In t us) ->
       Forall2 (above (dset neqb g (obj_new i) k)) l u).
    { intros k l u H. induction H; intros Hin; constructor.
      - apply unfolds_dset; auto. apply Htip. apply Hin. left; auto.
      - apply IHForall2. intros; apply Hin; right; auto. }
    apply (IH (S i) _ _ (Fork (obj_new i) (firstn nb us) :: skipn nb us)).
    + cbn [List.length]. rewrite skipn_length. unfold sorted in *. rewrite Hlen.
      unfold sq in Hl. cbn in Hl. lia.
    + discriminate.
    + constructor.
      * unfold above. cbn [fst]. apply unf_fork with (ns := map fst (firstn nb sorted)).
        -- apply dlookup_dset_eq.
        -- apply above_map. apply Hup; auto.
           intros t Ht. rewrite <- (firstn_skipn nb us). apply in_app_iff; auto.
      * apply Hup; auto. intros t Ht. rewrite <- (firstn_skipn nb us). apply in_app_iff; auto.
    + intros j Hj. rewrite dlookup_dset_neq; [apply Hg; lia|].
      intros Heq. apply fresh_inj in Heq. lia.
    + cbn. rewrite <- flat_map_app, firstn_skipn. exact Hpu'.
    + constructor.
      * constructor.
        -- rewrite firstn_length. lia.
        -- rewrite firstn_length. lia.
        -- rewrite Forall_forall in *. intros t Ht. apply Hdu. rewrite <- (firstn_skipn nb us).
           apply in_app_iff; auto.
      * rewrite Forall_forall in *. intros t Ht. apply Hdu. rewrite <- (firstn_skipn nb us).
        apply in_app_iff; auto.
Qed.
End Run.

Lemma huffman_ok obj_new nb sources (importances : list P) fuel :
  2 <= nb -> sources <> [] -> List.length importances = List.length sources ->
  (forall i, ~ In (obj_new i) sources) -> (forall i j, obj_new i = obj_new j -> i = j) ->
  List.length sources <= fuel ->
  exists g root t, huffman_tree neqb padd p0 ple sources importances obj_new nb fuel = Ok (g, root) /\
    unfolds (dlookup neqb g) root t /\ Permutation (tips t) sources /\ degrees 2 nb t.
Proof.
  intros Hnb Hne Hl Hf Hi Hfuel. unfold huffman_tree.
  assert (HL : List.length (combine sources importances) = List.length sources)
    by (rewrite combine_length; lia).
  apply (huffman_loop_ok obj_new nb Hnb sources Hf Hi fuel 0 _ [] (map Tip sources)).
  - lia.
  - intros H. rewrite H in HL. cbn in HL. destruct sources; [congruence|discriminate].
  - clear -Hl. revert importances Hl. induction sources as [|s l IH]; intros [|p ps] H; cbn in *;
      try lia; constructor.
    + apply unf_tip. reflexivity.
    + apply IH. lia.
  - reflexivity.
  - clear. induction sources; cbn; auto.
  - clear. induction sources; cbn; constructor; auto. constructor.
Qed.

(** Fewer than two branches: the loop never ends. *)
Lemma huffman_loop_stuck obj_new nb fuel : nb <= 1 -> forall i seq g,
  2 <= List.length seq ->
  huffman_loop neqb padd p0 ple obj_new nb fuel i seq g = Raise RecursionError.
Proof.
  intros Hnb. induction fuel as [|fuel IH]; intros i seq g Hs; [reflexivity|].
  destruct seq as [|[n p] [|e2 seq]]; cbn in Hs; try lia.
  cbn [huffman_loop]. apply IH. cbn [List.length]. rewrite skipn_length.
  rewrite (Permutation_length (ssort_perm _)). cbn [List.length]. lia.
Qed.

(** A constant [obj_new]: the dict has one key. *)
Lemma huffman_loop_const c nb fuel : 2 <= nb -> forall i seq g,
  (g = [] \/ exists v, g = [(c, v)]) -> (exists p, In (c, p) seq) ->
  2 <= List.length seq -> List.length seq <= fuel ->
  exists v, huffman_loop neqb padd p0 ple (fun _ => c) nb fuel i seq g = Ok ([(c, v)], c) /\
    In c v /\ List.length v <= nb.
Proof.
  intros Hnb. induction fuel as [|fuel IH]; intros i seq g Hg Hc Hs Hf; [lia|].
  destruct seq as [|[n p] [|e2 seq]]; cbn in Hs; try lia.
  set (sq := (n, p) :: e2 :: seq) in *.
  change (huffman_loop neqb padd p0 ple (fun _ => c) nb (S fuel) i sq g) with
    (huffman_loop neqb padd p0 ple (fun _ => c) nb fuel (S i)
       ((c, fold_left padd (map snd (firstn nb (ssort ple sq))) p0) :: skipn nb (ssort ple sq))
       (dset neqb g c (map fst (firstn nb (ssort ple sq))))).
  assert (Hlen : List.length (ssort ple sq) = S (S (List.length seq))).
  { rewrite (Permutation_length (ssort_perm sq)). reflexivity. }
  assert (Hg' : dset neqb g c (map fst (firstn nb (ssort ple sq)))
                = [(c, map fst (firstn nb (ssort ple sq)))]).
  { destruct Hg as [->|(v & ->)]; cbn; [reflexivity|]. now rewrite neqb_refl. }
  rewrite Hg'.
  destruct (skipn nb (ssort ple sq)) as [|e rest] eqn:Er.
  - destruct fuel as [|fuel]; [unfold sq in Hf; cbn in Hf; lia|].
    cbn [huffman_loop]. eexists. split; [reflexivity|].
    rewrite <- (firstn_skipn nb (ssort ple sq)) in Hlen. rewrite Er, app_nil_r in Hlen.
    split.
    + destruct Hc as (q & Hq). apply in_map_iff. exists (c, q). split; auto.
      apply (Permutation_in _ (Permutation_sym (ssort_perm sq))) in Hq.
      rewrite <- (firstn_skipn nb (ssort ple sq)), Er, app_nil_r in Hq. exact Hq.
    + rewrite map_length, firstn_length. lia.
  - apply IH.
    + right. eauto.
    + eexists. left; reflexivity.
    + cbn. lia.
    + rewrite <- Er. cbn [List.length]. rewrite skipn_length, Hlen.
      unfold sq in Hf; cbn in Hf. lia.
Qed.

Lemma huffman_const c nb sources (importances : list P) fuel :
  2 <= nb -> nb < List.length sources -> List.length importances = List.length sources ->
  List.length sources <= fuel ->
  exists v, huffman_tree neqb padd p0 ple sources importances (fun _ => c) nb fuel
            = Ok ([(c, v)], c) /\ In c v /\ List.length v <= nb.
Proof.
  intros Hnb Hs Hl Hf. unfold huffman_tree.
  assert (HL : List.length (combine sources importances) = List.length sources)
    by (rewrite combine_length; lia).
  destruct fuel as [|fuel]; [lia|].
  destruct (combine sources importances) as [|[n p] [|e2 seq]] eqn:Ec; cbn in HL; try lia.
  set (sq := (n, p) :: e2 :: seq) in *.
  change (huffman_loop neqb padd p0 ple (fun _ => c) nb (S fuel) 0 sq []) with
    (huffman_loop neqb padd p0 ple (fun _ => c) nb fuel 1
       ((c, fold_left padd (map snd (firstn nb (ssort ple sq))) p0) :: skipn nb (ssort ple sq))
       (dset neqb [] c (map fst (firstn nb (ssort ple sq))))).
  assert (Hlen : List.length (ssort ple sq) = S (S (List.length seq))).
  { rewrite (Permutation_length (ssort_perm sq)). reflexivity. }
  apply huffman_loop_const; auto.
  - right. cbn. eauto.
  - eexists; left; reflexivity.
  - cbn [List.length]. rewrite skipn_length, Hlen. lia.
  - cbn [List.length]. rewrite skipn_length, Hlen. lia.
Qed.

Fixpoint tsize (t : ntree N) : nat :=
  match t with Tip _ => 1 | Fork _ ts => S (list_sum (map tsize ts)) end.

Lemma self_loop_no_tree (g : N -> option (list N)) c v : g c = Some v -> In c v -> forall t : ntree N, ~ unfolds g c t.
Proof.
  intros Hg Hc t. remember (tsize t) as k eqn:Ek. revert t Ek.
  induction k as [k IH] using lt_wf_ind. intros t -> Hu. inversion Hu; subst; [congruence|].
  assert (ns = v) by congruence. subst ns.
  clear Hu H. assert (G : exists t', In t' ts /\ unfolds g c t').
  { clear IH Hg. revert Hc. induction H0; cbn; [tauto|]. intros [->|Hx].
    - exists y. auto.
    - destruct (IHForall2 Hx) as (t' & A & B). exists t'. auto. }
  destruct G as (t' & Ht & Hu'). apply (IH (tsize t')) with (t := t'); auto.
  cbn. apply in_split in Ht. destruct Ht as (l1 & l2 & ->).
  rewrite map_app, list_sum_app. cbn. lia.
Qed.

Lemma huffman_const_loses c nb sources (importances : list P) fuel :
  2 <= nb -> nb < List.length sources -> List.length importances = List.length sources ->
  List.length sources <= fuel -> NoDup sources ->
  exists g, huffman_tree neqb padd p0 ple sources importances (fun _ => c) nb fuel = Ok (g, c) /\
    (forall t, ~ unfolds (dlookup neqb g) c t) /\
    (exists s, In s sources /\ forall k v, dlookup neqb g k = Some v -> ~ In s v).
Proof.
  intros Hnb Hs Hl Hf Hnd.
  destruct (huffman_const c nb sources importances fuel Hnb Hs Hl Hf) as (v & E & Hc & Hv).
  exists [(c, v)]. split; [exact E|]. split.
  - apply self_loop_no_tree with v; auto. cbn. now rewrite neqb_refl.
  - assert (D : forall x y : N, {x = y} + {x <> y}).
    { intros x y. destruct (neqb x y) eqn:Exy; [left; now apply neqb_spec|right].
      intros ->. rewrite neqb_refl in Exy. discriminate. }
    assert (G : ~ incl sources v).
    { intros Hin. pose proof (NoDup_incl_length Hnd Hin). lia. }
    assert (G' : exists s, In s sources /\ ~ In s v).
    { clear -G D. induction sources as [|s l IH]; [destruct G; intros x []|].
      destruct (in_dec D s v) as [Hi|Hi].
      - destruct IH as (s' & A & B).
        + intros H. apply G. intros x [<-|Hx]; auto.
        + exists s'. split; auto. right; auto.
      - exists s. split; auto. left; auto. }
    destruct G' as (s & A & B). exists s. split; auto.
    intros k w Hk. cbn in Hk. destruct (neqb k c); [|discriminate]. injection Hk as <-. auto.
Qed.

(** Effect on the spin-boson tree. *)
Lemma sb_update_dangling leaves root c (p1 : P) fuel graph :
  3 <= List.length leaves -> List.length leaves <= fuel -> c <> root ->
  dlookup neqb graph c = None ->
  exists g v, sb_update neqb padd p0 ple graph leaves root c p1 fuel = Ok g /\
    dlookup neqb g root = Some v /\ In c v /\ List.length v <= 2 /\ dlookup neqb g c = None.
Proof.
  intros Hl Hf Hcr Hg.
  destruct (huffman_const c 2 leaves (map (fun _ => p1) leaves) fuel) as (v & E & Hc & Hv);
    try lia; [now rewrite map_length|].
  unfold sb_update. rewrite E. cbn [bind dlookup ddel dset]. rewrite neqb_refl.
  exists (dset neqb graph root v), v. cbn [dset dupdate]. repeat split; auto.
  - apply dlookup_dset_eq.
  - rewrite dlookup_dset_neq; auto.
Qed.

Lemma sb_update_single leaf root c (p1 : P) fuel graph :
  sb_update neqb padd p0 ple graph [leaf] root c p1 (S fuel) = Ok graph.
Proof. reflexivity. Qed.

Lemma sb_update_empty root c (p1 : P) fuel graph :
  sb_update neqb padd p0 ple graph [] root c p1 (S fuel) = Raise IndexError.
Proof. reflexivity. Qed.
End Huff.
