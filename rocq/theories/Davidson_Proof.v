(** Proofs about the eigenvalue solver. *)
From Coq Require Import List Arith Bool Lia Ring.
From Verif Require Import Py Alg Davidson_Model Davidson_Spec.
Import ListNotations.
Local Open Scope nat_scope.

Section P.
Context {K : StarRing}.
Variable N : nat.
Add Ring Kr : (r_theory K).
Local Open Scope star_scope.
Notation vec := (list K).
Notation inner := (@inner K N).
Notation orthonormal := (@orthonormal K N).

(** ** Scalar products *)
Lemma vb_nth (f : nat -> K) k : (k < N)%nat -> nth k (vbuild N f) r0 = f k.
Proof. intros H. unfold vbuild. rewrite (nth_indep _ _ (f O)) by (rewrite map_length, seq_length; auto). rewrite map_nth, seq_nth by auto. reflexivity. Qed.
Lemma vb_len f : length (@vbuild K N f) = N.
Proof. unfold vbuild. now rewrite map_length, seq_length. Qed.
Lemma dotc_inner u v : dotc N u v = inner u v.
Proof. reflexivity. Qed.
Lemma inner_sub w u v : inner w (vsub N u v) = inner w u - inner w v.
Proof.
  unfold Davidson_Spec.inner. transitivity (sumn N (fun k => rconj (nth k w 0) * nth k u 0 + (- (1)) * (rconj (nth k w 0) * nth k v 0))).
  - apply sumn_ext. intros k Hk. unfold vsub. rewrite vb_nth by auto. ring.
  - rewrite sumn_add, sumn_scal_l. ring.
Qed.
Lemma inner_add w u v : inner w (vadd N u v) = inner w u + inner w v.
Proof.
  unfold Davidson_Spec.inner. rewrite <- sumn_add. apply sumn_ext. intros k Hk. unfold vadd. rewrite vb_nth by auto. ring.
Qed.
Lemma inner_scale w c v : inner w (vscale N c v) = c * inner w v.
Proof. unfold Davidson_Spec.inner. rewrite <- sumn_scal_l. apply sumn_ext. intros k Hk. unfold vscale. rewrite vb_nth by auto. ring. Qed.
Lemma inner_zero w : inner w (vzero N) = 0.
Proof. unfold Davidson_Spec.inner. apply sumn_zero. intros k Hk. unfold vzero. rewrite vb_nth by auto. ring. Qed.
Lemma inner_conj u v : rconj (inner u v) = inner v u.
Proof. unfold Davidson_Spec.inner. rewrite rconj_sumn. apply sumn_ext. intros k Hk. rewrite rconj_mul, rconj_invol. ring. Qed.
Lemma inner_sym0 u v : inner u v = 0 -> inner v u = 0.
Proof. intros H. rewrite <- inner_conj, H. apply rconj_0. Qed.
Lemma inner_scale_l w c v : inner (vscale N c v) w = rconj c * inner v w.
Proof. rewrite <- inner_conj, inner_scale, rconj_mul, inner_conj. reflexivity. Qed.
Lemma inner_spanned w l v : spanned N l v -> (forall u, In u l -> inner w u = 0) -> inner w v = 0.
Proof.
  intros (c & H) O. unfold Davidson_Spec.inner. transitivity (sumn N (fun k => sumn (length l) (fun i => c i * (rconj (nth k w 0) * nth k (at_ l i) 0)))).
  - apply sumn_ext. intros k Hk. rewrite H by auto. rewrite <- sumn_scal_l. apply sumn_ext. intros. ring.
  - rewrite sumn_swap. apply sumn_zero. intros i Hi. rewrite sumn_scal_l. specialize (O (at_ l i)). unfold Davidson_Spec.inner in O. rewrite O by (apply nth_In; auto). ring.
Qed.

(** ** Lists of orthonormal vectors *)
Lemma on_in l i : orthonormal l -> (i < length l)%nat -> inner (at_ l i) (at_ l i) = 1.
Proof. intros H Hi. rewrite H by auto. unfold delta. now rewrite Nat.eqb_refl. Qed.
Lemma delta_eq i : @delta K i i = 1.
Proof. unfold delta. now rewrite Nat.eqb_refl. Qed.
Lemma delta_ne i j : i <> j -> @delta K i j = 0.
Proof. intros H. unfold delta. now rewrite (proj2 (Nat.eqb_neq _ _) H). Qed.
Lemma at_app1 (l r : list vec) i : (i < length l)%nat -> at_ (l ++ r) i = at_ l i.
Proof. intros. unfold at_. apply app_nth1. auto. Qed.
Lemma at_app2 (l r : list vec) i : (length l <= i)%nat -> at_ (l ++ r) i = at_ r (i - length l).
Proof. intros. unfold at_. apply app_nth2. auto. Qed.
Lemma at_in (l : list vec) i : (i < length l)%nat -> In (at_ l i) l.
Proof. intros. apply nth_In. auto. Qed.
Lemma on_app l r : orthonormal l -> orthonormal r -> (forall w u, In w l -> In u r -> inner w u = 0) -> orthonormal (l ++ r).
Proof.
  intros Hl Hr O i j Hi Hj. rewrite app_length in *.
  destruct (Nat.lt_ge_cases i (length l)) as [Li|Li], (Nat.lt_ge_cases j (length l)) as [Lj|Lj].
  - rewrite !at_app1 by auto. apply Hl; auto.
  - rewrite at_app1, at_app2 by auto. rewrite O by (apply at_in; lia). rewrite delta_ne by lia. reflexivity.
  - rewrite at_app2, at_app1 by auto. rewrite inner_sym0 by (apply O; apply at_in; lia). rewrite delta_ne by lia. reflexivity.
  - rewrite !at_app2 by auto. rewrite Hr by lia. unfold delta. destruct (Nat.eqb_spec (i - length l) (j - length l)), (Nat.eqb_spec i j); auto; lia.
Qed.
Lemma on_prefix l r : orthonormal (l ++ r) -> orthonormal l.
Proof. intros H i j Hi Hj. specialize (H i j). rewrite app_length, !at_app1 in H by auto. apply H; lia. Qed.
Lemma on_tail x l : orthonormal (x :: l) -> orthonormal l /\ inner x x = 1 /\ forall u, In u l -> inner x u = 0.
Proof.
  intros H. split; [|split].
  - intros i j Hi Hj. specialize (H (S i) (S j)). cbn [length] in H. unfold at_ in *. cbn [nth] in H. rewrite H by lia. unfold delta. reflexivity.
  - specialize (H O O). cbn [length] in H. unfold at_ in H. cbn [nth] in H. rewrite H by lia. apply delta_eq.
  - intros u Hu. apply (In_nth _ _ []) in Hu as (i & Hi & <-). specialize (H O (S i)). cbn [length] in H. unfold at_ in H. cbn [nth] in H. rewrite H by lia. apply delta_ne. lia.
Qed.
(** Removing components *)
Lemma proj_keep w l : forall v, (forall u, In u l -> inner w u = 0) -> inner w (project_out N l v) = inner w v.
Proof.
  unfold project_out. induction l as [|b l IH]; intros v O; [reflexivity|]. cbn [fold_left]. etransitivity; [apply IH; intros; apply O; right; auto|].
  rewrite inner_sub, inner_scale, (O b) by (left; auto). ring.
Qed.
Lemma proj_zero l : forall v, orthonormal l -> forall w, In w l -> inner w (project_out N l v) = 0.
Proof.
  induction l as [|b l IH]; intros v H w Hw; [destruct Hw|]. destruct (on_tail b l H) as (Hl & Hb & Ho). change (project_out N (b :: l) v) with (project_out N l (vsub N v (vscale N (dotc N b v) b))).
  destruct Hw as [<-|Hw]; [|apply IH; auto]. rewrite proj_keep by auto. rewrite inner_sub, inner_scale. change (dotc N b v) with (inner b v). rewrite Hb. ring.
Qed.

Section Lib.
Variable L : @library K.
Variables max_cycle msc n_vals : nat.
Notation A := (matvec L).
Notation state := (@state K).
Notation size := (size msc n_vals).

(** ** Gram-Schmidt *)
Lemma gs_keep w : forall trial vecs, (forall u, In u trial -> inner w u = 0) -> (forall u, In u vecs -> inner w u = 0) -> forall u, In u (gs_loop N L vecs trial) -> inner w u = 0.
Proof.
  induction trial as [|v trial IH]; intros vecs Ht Hv u Hu; [apply Hv; exact Hu|]. cbn [gs_loop] in Hu. eapply IH; [| |exact Hu]; [intros; apply Ht; cbn; auto|].
  change (fold_left _ vecs v) with (project_out N vecs v). destruct (gs_big L (project_out N vecs v)); [|exact Hv].
  intros x Hx. apply in_app_or in Hx as [Hx|[<-|[]]]; [auto|]. rewrite inner_scale, proj_keep, Ht by (cbn; auto). ring.
Qed.
Lemma gs_len : forall trial vecs, (length (gs_loop N L vecs trial) <= length vecs + length trial)%nat.
Proof.
  induction trial as [|v trial IH]; intros vecs; cbn [gs_loop length]; [lia|]. etransitivity; [apply IH|]. destruct (gs_big L _); [rewrite app_length; cbn [length]|]; lia.
Qed.
Lemma gs_on : norm_ok N (gs_big L) (inv_norm L) -> forall trial vecs, orthonormal vecs -> Forall (fun v => length v = N) vecs ->
  orthonormal (gs_loop N L vecs trial) /\ Forall (fun v => length v = N) (gs_loop N L vecs trial).
Proof.
  intros HN. induction trial as [|v trial IH]; intros vecs Hv HF; [split; auto|]. cbn [gs_loop]. change (fold_left _ vecs v) with (project_out N vecs v).
  set (p := project_out N vecs v). destruct (gs_big L p) eqn:E; [|apply IH; auto]. destruct (HN p E) as (R1 & R2). apply IH.
  - apply on_app; auto.
    + intros i j Hi Hj. cbn [length] in *. replace i with O by lia. replace j with O by lia. unfold at_. cbn [nth]. rewrite inner_scale, inner_scale_l, R1, delta_eq, <- R2. ring.
    + intros w u Hw [<-|[]]. rewrite inner_scale. unfold p. rewrite proj_zero by auto. ring.
  - apply Forall_app. split; auto. constructor; [apply vb_len|constructor].
Qed.
Lemma gs_prefix : forall trial vecs, exists r, gs_loop N L vecs trial = vecs ++ r.
Proof.
  induction trial as [|v trial IH]; intros vecs; [exists []; now rewrite app_nil_r|]. cbn [gs_loop]. destruct (gs_big L _); [|apply IH]. destruct (IH (vecs ++ [vscale N (inv_norm L (fold_left (fun v w => vsub N v (vscale N (dotc N w v) w)) vecs v)) (fold_left (fun v w => vsub N v (vscale N (dotc N w v) w)) vecs v)])) as (r & ->). eexists. rewrite <- app_assoc. reflexivity.
Qed.

Lemma sub_zero (x y : K) : x - y = 0 -> x = y.
Proof. intros H. transitivity ((x - y) + y); [ring|]. rewrite H. ring. Qed.

(** What one step of orthonormalisation gives, in either mode *)
Definition step_on (svd : bool) (t : list vec) : list vec := match t with [] => [] | _ => if svd then orth L t else gs_loop N L [] t end.
Definition step_ok (svd : bool) : Prop := forall t, (length (step_on svd t) <= length t)%nat /\ orthonormal (step_on svd t) /\
  Forall (fun v => length v = N) (step_on svd t) /\ forall w, (forall u, In u t -> inner w u = 0) -> forall u, In u (step_on svd t) -> inner w u = 0.
Lemma on_nil : orthonormal [].
Proof. intros i j Hi. cbn in Hi. lia. Qed.
Lemma step_orth : orth_ok N (orth L) -> step_ok true.
Proof.
  intros H [|x t]; cbn [step_on]; [split; [auto|split; [apply on_nil|split; [constructor|intros w _ u []]]]|]. destruct (H (x :: t)) as (Hl & Ho & Hf & Hs); [discriminate|]. split; [auto|]. split; [auto|]. split; [auto|].
  intros w Hw u Hu. apply (inner_spanned w (x :: t)); auto. rewrite Forall_forall in Hs. auto.
Qed.
Lemma step_gs : norm_ok N (gs_big L) (inv_norm L) -> step_ok false.
Proof.
  intros H [|x t]; cbn [step_on]; [split; [auto|split; [apply on_nil|split; [constructor|intros w _ u []]]]|]. destruct (gs_on H (x :: t) [] on_nil (Forall_nil _)) as (Ho & Hf).
  split; [apply (gs_len (x :: t) [])|]. split; [auto|]. split; [auto|]. intros w Hw u Hu. eapply gs_keep; [exact Hw| |exact Hu]. intros x' [].
Qed.
Lemma orthonormalize_eq svd (st : state) : orthonormalize N L svd st = set_trial (step_on svd (s_trial st)) st.
Proof. unfold orthonormalize, step_on, set_trial. destruct st as [[|x t] a b c d e f g h i j]; [reflexivity|]. destruct svd; reflexivity. Qed.

(** ** Filling the matrix *)
Lemma each_inv {X St} (keeps : St -> St -> Prop) (Q : X -> St -> Prop) (f : X -> St -> res St) l s s' : for_each f l s = Ok s' ->
  (forall s, keeps s s) -> (forall s1 s2 s3, keeps s1 s2 -> keeps s2 s3 -> keeps s1 s3) -> (forall x s s', keeps s s' -> Q x s -> Q x s') ->
  (forall x s s', In x l -> f x s = Ok s' -> keeps s s' /\ Q x s') -> keeps s s' /\ forall x, In x l -> Q x s'.
Proof.
  intros E R T M. revert s s' E. induction l as [|x l IH]; intros s s' E H; cbn [for_each] in E; [injection E as <-; split; [auto|intros ? []]|].
  destruct (f x s) as [s1|] eqn:E1; cbn [bind] in E; [|discriminate]. destruct (H x s s1 (or_introl eq_refl) E1) as (K1 & Q1). destruct (IH s1 s' E (fun x s s' Hx => H x s s' (or_intror Hx))) as (K2 & Q2).
  split; [eauto|]. intros y [<-|Hy]; eauto.
Qed.
Lemma each_total {X St} (f : X -> St -> res St) l : (forall x s, In x l -> exists s', f x s = Ok s') -> forall s, exists s', for_each f l s = Ok s'.
Proof.
  induction l as [|x l IH]; intros H s; [exists s; reflexivity|]. cbn [for_each]. destruct (H x s (or_introl eq_refl)) as (s1 & ->). cbn [bind]. apply IH. intros; apply H; cbn; auto.
Qed.
Section Fill.
Variables (v : list vec).
Notation av := (map A v).
Notation tail := (length v).
Definition goal i j : K := cast L (inner (at_ v i) (A (at_ v j))).
Definition keeps (s s' : nat -> nat -> K) : Prop := forall a b, s a b = goal a b -> s' a b = goal a b.
Hypothesis HA : hermitian N A.
Hypothesis HC : forall x, cast L (rconj (cast L x)) = cast L (rconj x).
Hypothesis HL : Forall (fun x => length x = N) v.
Lemma at_av j : (j < tail)%nat -> nth j av [] = A (at_ v j).
Proof. intros H. rewrite (nth_indep _ _ (A [])) by (rewrite map_length; auto). apply map_nth. Qed.
Lemma at_len i : (i < tail)%nat -> length (at_ v i) = N.
Proof. intros H. rewrite Forall_forall in HL. apply HL. apply at_in. auto. Qed.
Lemma pair_ok i j s s' : (i < tail)%nat -> (j < tail)%nat -> store_pair N L msc n_vals v av i j s = Ok s' -> keeps s s' /\ (s' i j = goal i j /\ s' j i = goal j i).
Proof.
  intros Hi Hj. unfold store_pair, store. rewrite at_av by auto. destruct (_ && _)%bool; cbn [bind]; [|discriminate]. destruct (_ && _)%bool; [|discriminate]. intros X. injection X as <-.
  rewrite !Nat.eqb_refl. cbn [andb]. rewrite HC, dotc_inner. change (nth i v []) with (at_ v i). assert (G1 : cast L (inner (at_ v i) (A (at_ v j))) = goal i j) by reflexivity.
  assert (G2 : cast L (rconj (inner (at_ v i) (A (at_ v j)))) = goal j i) by (unfold goal; f_equal; rewrite (HA (at_ v j)); auto using at_len).
  rewrite G1, G2. split; [|split].
  - intros a b Hab. destruct (Nat.eqb_spec a j), (Nat.eqb_spec b i); cbn [andb]; [subst; reflexivity|..]; destruct (Nat.eqb_spec a i), (Nat.eqb_spec b j); cbn [andb]; subst; auto.
  - destruct (Nat.eqb_spec i j); [subst; rewrite Nat.eqb_refl; reflexivity|]. reflexivity.
  - reflexivity.
Qed.
Lemma keeps_refl s : keeps s s. Proof. intros a b H; exact H. Qed.
Lemma keeps_trans s1 s2 s3 : keeps s1 s2 -> keeps s2 s3 -> keeps s1 s3. Proof. intros H1 H2 a b H. auto. Qed.
Lemma fill_ok head s s' : (head <= tail)%nat -> fill N L msc n_vals v av head tail s = Ok s' ->
  (forall i j, (i < head)%nat -> (j < head)%nat -> s i j = goal i j) -> forall i j, (i < tail)%nat -> (j < tail)%nat -> s' i j = goal i j.
Proof.
  intros Hh E H0. unfold fill in E. destruct (for_each _ (seq 0 head) s) as [s1|] eqn:E1; cbn [bind] in E; [|discriminate].
  destruct (each_inv keeps (fun i s => forall j, In j (seq head (tail - head)) -> s i j = goal i j /\ s j i = goal j i) _ _ _ _ E1 keeps_refl keeps_trans) as (K1 & Q1).
  { intros i a b Hk Hq j Hj. destruct (Hq j Hj). split; apply Hk; auto. }
  { intros i a b Hi Ei. apply in_seq in Hi. apply (each_inv keeps (fun j s => s i j = goal i j /\ s j i = goal j i) _ _ _ _ Ei keeps_refl keeps_trans).
    - intros j a' b' Hk [H1 H2]. split; apply Hk; auto.
    - intros j a' b' Hj Ej. apply in_seq in Hj. apply pair_ok; auto; lia. }
  destruct (each_inv keeps (fun i s => s i i = goal i i /\ forall j, In j (seq head (i - head)) -> s i j = goal i j /\ s j i = goal j i) _ _ _ _ E keeps_refl keeps_trans) as (K2 & Q2).
  { intros i a b Hk (Hd & Hq). split; [apply Hk; auto|]. intros j Hj. destruct (Hq j Hj). split; apply Hk; auto. }
  { intros i a b Hi Ei. apply in_seq in Hi. destruct (for_each _ (seq head (i - head)) a) as [a1|] eqn:Ea; cbn [bind] in Ei; [|discriminate].
    destruct (each_inv keeps (fun j s => s i j = goal i j /\ s j i = goal j i) _ _ _ _ Ea keeps_refl keeps_trans) as (K3 & Q3).
    - intros j a' b' Hk [H1 H2]. split; apply Hk; auto.
    - intros j a' b' Hj Ej. apply in_seq in Hj. apply pair_ok; auto; lia.
    - unfold store in Ei. destruct (_ && _)%bool; [|discriminate]. injection Ei as <-. rewrite at_av by lia. rewrite dotc_inner. change (cast L (inner (nth i v []) (A (at_ v i)))) with (goal i i).
      assert (K4 : keeps a1 (fun a b => if ((a =? i) && (b =? i))%bool then goal i i else a1 a b)) by (intros x y Hxy; destruct (Nat.eqb_spec x i), (Nat.eqb_spec y i); cbn [andb]; subst; auto).
      split; [eapply keeps_trans; eauto|]. split; [rewrite Nat.eqb_refl; reflexivity|]. intros j Hj. destruct (Q3 j Hj). split; apply K4; auto. }
  intros i j Hi Hj. destruct (Nat.lt_ge_cases i head) as [Li|Li], (Nat.lt_ge_cases j head) as [Lj|Lj].
  - apply K2, K1. auto.
  - apply K2. apply (Q1 i); apply in_seq; lia.
  - apply K2. apply (Q1 j); apply in_seq; lia.
  - destruct (lt_eq_lt_dec i j) as [[Lt|Eq]|Lt].
    + destruct (Q2 j ltac:(apply in_seq; lia)) as (_ & Q). destruct (Q i) as [_ X]; [apply in_seq; lia|exact X].
    + subst j. destruct (Q2 i ltac:(apply in_seq; lia)) as (X & _). exact X.
    + destruct (Q2 i ltac:(apply in_seq; lia)) as (_ & Q). destruct (Q j) as [X _]; [apply in_seq; lia|exact X].
Qed.
End Fill.
Lemma store_total i j x s : (i < size)%nat -> (j < size)%nat -> exists s', store L msc n_vals i j x s = Ok s'.
Proof. intros Hi Hj. unfold store. rewrite (proj2 (Nat.ltb_lt _ _) Hi), (proj2 (Nat.ltb_lt _ _) Hj). eexists. reflexivity. Qed.
Lemma pair_total v av i j s : (i < size)%nat -> (j < size)%nat -> exists s', store_pair N L msc n_vals v av i j s = Ok s'.
Proof. intros Hi Hj. unfold store_pair. destruct (store_total i j (dotc N (nth i v []) (nth j av [])) s Hi Hj) as (s1 & ->). cbn [bind]. apply store_total; auto. Qed.
Lemma fill_total v av head tail s : (head <= tail)%nat -> (tail <= size)%nat -> exists s', fill N L msc n_vals v av head tail s = Ok s'.
Proof.
  intros H1 H2. unfold fill.
  destruct (each_total (fun i => for_each (fun j => store_pair N L msc n_vals v av i j) (seq head (tail - head))) (seq 0 head)) with (s := s) as (s1 & ->).
  { intros i s' Hi. apply in_seq in Hi. apply each_total. intros j s2 Hj. apply in_seq in Hj. apply pair_total; lia. }
  cbn [bind]. apply each_total. intros i s' Hi. apply in_seq in Hi. destruct (each_total (fun j => store_pair N L msc n_vals v av i j) (seq head (i - head))) with (s := s') as (s2 & ->).
  { intros j s2 Hj. apply in_seq in Hj. apply pair_total; lia. }
  cbn [bind]. apply store_total; lia.
Qed.

(** ** One cycle *)
Definition residuals (vals : list K) (us aus : list vec) : list vec := map (fun p => vsub N (snd p) (vscale N (fst (fst p)) (snd (fst p)))) (combine (combine vals us) aus).
Definition rows_of (rows : list (list K)) (basis : list vec) : list vec := map (fun r => trans_vec N r basis) rows.
Definition pre_of (st : state) := match s_pre st with None => precond_std L | Some p => p end.
Definition next (st1 : state) : res state :=
  let V := s_search st1 in
  let p := eigh L (length V) (s_sub st1) (Nat.min (length V) n_vals) in
  let vals := fst p in
  let rows := snd p in
  if (size <? length vals + length V)%nat then Ok (mkSt (rows_of rows V) [] [] (fun _ _ => 0) None (Some vals) None [] [] None (s_log st1 ++ [(V, s_sub st1)]))
  else match vals with
       | [] => Raise IndexError
       | ritz0 :: _ =>
           let rs := residuals vals (rows_of rows V) (rows_of rows (s_col st1)) in
           let cs := repeat false (length vals) in
           Ok (mkSt (flat_map (trial_of N L (pre_of st1) V ritz0) (combine rs (combine (rows_of rows V) cs))) V (s_col st1) (s_sub st1) None (Some vals) (Some rows) rs cs (Some (pre_of st1)) (s_log st1 ++ [(V, s_sub st1)]))
       end.
Definition extended (svd : bool) (st : state) : res state :=
  let t := step_on svd (s_trial st) in
  bind (fill N L msc n_vals (s_search st ++ t) (s_col st ++ map A t) (length (s_search st)) (length (s_search st ++ t)) (s_sub st))
    (fun s => Ok (mkSt t (s_search st ++ t) (s_col st ++ map A t) s (s_last st) (s_ritz st) (s_rvecs st) (s_res st) (s_conv st) (s_pre st) (s_log st))).
Lemma extended_eq svd (st : state) : extend_space N L msc n_vals (orthonormalize N L svd st) = extended svd st.
Proof. rewrite orthonormalize_eq. reflexivity. Qed.
Lemma cycles_S mode n (st : state) : s_last st = None -> cycles N L msc n_vals mode (S n) st =
  bind (extended (negb mode) st) (fun st1 => if (mode && (n_vals <=? length (s_search st1)))%bool then Ok st1 else
    if (Nat.min (length (s_search st1)) n_vals =? 0)%nat then Raise ValueError else bind (next st1) (cycles N L msc n_vals mode n)).
Proof.
  intros Hl. cbn [cycles]. rewrite extended_eq. unfold extended. destruct (fill _ _ _ _ _ _ _ _ _) as [s|]; cbn [bind]; [|reflexivity].
  set (V := (s_search st ++ step_on (negb mode) (s_trial st))). cbn [s_search]. destruct (_ && _)%bool; [reflexivity|].
  unfold calc_ritz_pairs. cbn [s_search]. destruct (_ =? 0)%nat; [reflexivity|]. unfold next. cbn [s_search s_sub].
  destruct (eigh L (length V) s (Nat.min (length V) n_vals)) as [vals rows] eqn:Ee. cbn [bind fst snd].
  unfold calc_residuals, ritz_of, ritz_vecs. cbn [s_ritz s_rvecs bind s_search s_col].
  unfold is_converged, ritz_of. cbn [s_ritz bind s_last]. rewrite Hl. unfold set_conv. cbn [s_ritz bind s_search].
  destruct (_ <? _)%nat; [reflexivity|]. unfold calc_trial_vecs, ritz_of, ritz_vecs. cbn [s_ritz s_rvecs bind s_search s_pre s_res s_conv]. destruct vals as [|r vals]; reflexivity.
Qed.

(** ** The matrices given to the eigenvalue solver *)
Definition entry_ok (e : list vec * (nat -> nat -> K)) : Prop := orthonormal (fst e) /\ projected N (cast L) A (fst e) (snd e).
Record Good (st : state) : Prop := mkGood {
  g_last : s_last st = None; g_col : s_col st = map A (s_search st); g_sub : projected N (cast L) A (s_search st) (s_sub st);
  g_on : orthonormal (s_search st); g_len : Forall (fun v => length v = N) (s_search st); g_log : Forall entry_ok (s_log st) }.
Definition apart (st : state) : Prop := forall w u, In w (s_search st) -> In u (s_trial st) -> inner w u = 0.
Lemma init_good vs pre : Good (init vs pre []) /\ apart (init vs pre []).
Proof. split; [constructor; cbn; auto; [intros i j Hi; cbn in Hi; lia|apply on_nil]|]. intros w u []. Qed.
Lemma extended_good svd st st1 : hermitian N A -> (forall x, cast L (rconj (cast L x)) = cast L (rconj x)) -> step_ok svd -> Good st -> apart st -> extended svd st = Ok st1 -> Good st1.
Proof.
  intros HA HC HS [G1 G2 G3 G4 G5 G6] Ap E. unfold extended in E. destruct (HS (s_trial st)) as (_ & Ho & Hf & Hk). set (t := step_on svd (s_trial st)) in *.
  destruct (fill _ _ _ _ _ _ _ _ _) as [s|] eqn:Ef; cbn [bind] in E; [|discriminate]. injection E as <-.
  assert (HF : Forall (fun v => length v = N) (s_search st ++ t)) by (apply Forall_app; auto).
  rewrite G2, <- map_app in Ef. constructor; cbn [s_last s_search s_col s_sub s_log]; auto.
  - rewrite G2, map_app. reflexivity.
  - intros i j Hi Hj. apply (fill_ok (s_search st ++ t) HA HC HF (length (s_search st)) (s_sub st) s); auto; [rewrite app_length; lia|].
    intros a b Ha Hb. unfold goal. rewrite !at_app1 by auto. apply G3; auto.
  - apply on_app; [auto|auto|]. intros w u Hw Hu. apply (Hk w); auto.
Qed.
Lemma trial_apart pre V r0' p w u : orthonormal V -> In w V -> In u (trial_of N L pre V r0' p) -> inner w u = 0.
Proof.
  intros H Hw Hu. destruct p as [r [x c]]. cbn [trial_of] in Hu. destruct (_ && _)%bool; [|destruct Hu]. destruct (lin_big L _); [|destruct Hu]. destruct Hu as [<-|[]]. rewrite inner_scale, proj_zero by auto. ring.
Qed.
Lemma next_good st1 st2 : Good st1 -> next st1 = Ok st2 -> Good st2 /\ apart st2.
Proof.
  intros [G1 G2 G3 G4 G5 G6] E. unfold next in E. destruct (_ <? _)%nat.
  - injection E as <-. split; [|intros w u []]. constructor; cbn [s_last s_search s_col s_sub s_log map]; auto; [intros i j Hi; cbn in Hi; lia|apply on_nil|].
    apply Forall_app. split; auto. constructor; [split; auto|constructor].
  - destruct (fst _) as [|r vals] eqn:Ev; [discriminate|]. injection E as <-. split.
    + constructor; cbn [s_last s_search s_col s_sub s_log]; auto. apply Forall_app. split; auto. constructor; [split; auto|constructor].
    + intros w u Hw Hu. cbn [s_search s_trial] in *. apply in_flat_map in Hu as (q & _ & Hu). eapply trial_apart; eauto.
Qed.
Lemma cycles_good mode : hermitian N A -> (forall x, cast L (rconj (cast L x)) = cast L (rconj x)) -> step_ok (negb mode) ->
  forall n st st', Good st -> apart st -> cycles N L msc n_vals mode n st = Ok st' -> Good st'.
Proof.
  intros HA HC HS. induction n as [|n IH]; intros st st' G Ap E; [injection E as <-; auto|]. rewrite cycles_S in E by apply G.
  destruct (extended _ st) as [st1|] eqn:E1; cbn [bind] in E; [|discriminate]. pose proof (extended_good _ _ _ HA HC HS G Ap E1) as G1.
  destruct (_ && _)%bool; [injection E as <-; auto|]. destruct (_ =? 0)%nat; [discriminate|]. destruct (next st1) as [st2|] eqn:E2; cbn [bind] in E; [|discriminate].
  destruct (next_good st1 st2 G1 E2) as (G2 & Ap2). eapply IH; eauto.
Qed.

(** ** Number of cycles *)
Lemma extended_log svd st st1 : extended svd st = Ok st1 -> s_log st1 = s_log st /\ s_last st1 = s_last st /\ s_pre st1 = s_pre st.
Proof. unfold extended. destruct (fill _ _ _ _ _ _ _ _ _); cbn [bind]; [|discriminate]. intros E. injection E as <-. auto. Qed.
Lemma next_log st1 st2 : next st1 = Ok st2 -> s_log st2 = s_log st1 ++ [(s_search st1, s_sub st1)] /\ s_last st2 = None.
Proof.
  unfold next. destruct (_ <? _)%nat; [intros E; injection E as <-; auto|]. destruct (fst _); [discriminate|]. intros E; injection E as <-; auto.
Qed.
Lemma cycles_count n : forall st st', s_last st = None -> cycles N L msc n_vals false n st = Ok st' -> length (s_log st') = (length (s_log st) + n)%nat /\ s_last st' = None.
Proof.
  induction n as [|n IH]; intros st st' H E; [injection E as <-; auto|]. rewrite cycles_S in E by auto. destruct (extended _ st) as [st1|] eqn:E1; cbn [bind] in E; [|discriminate].
  destruct (extended_log _ _ _ E1) as (L1 & H1 & _). cbn [andb] in E. destruct (_ =? 0)%nat; [discriminate|]. destruct (next st1) as [st2|] eqn:E2; cbn [bind] in E; [|discriminate].
  destruct (next_log _ _ E2) as (L2 & H2). destruct (IH st2 st' H2 E) as (L3 & H3). split; [|auto]. rewrite L3, L2, L1, app_length. cbn [length]. lia.
Qed.

(** ** Room *)
Definition shrinks : Prop := forall t, (length (orth L t) <= length t)%nat.
Definition step_shrinks (svd : bool) : Prop := forall t, (length (step_on svd t) <= length t)%nat.
Lemma shrinks_step svd : shrinks -> step_shrinks svd.
Proof. intros H [|x t]; cbn [step_on]; [auto|]. destruct svd; [apply H|apply (gs_len (x :: t) [])]. Qed.
Definition room (st : state) : Prop := (length (s_search st) + length (s_trial st) <= size)%nat.
Lemma extended_room svd st : step_shrinks svd -> room st -> exists st1, extended svd st = Ok st1 /\ s_search st1 = s_search st ++ step_on svd (s_trial st) /\ s_sub st1 = s_sub st1 /\
  s_last st1 = s_last st /\ s_log st1 = s_log st /\ s_pre st1 = s_pre st.
Proof.
  intros HS R. unfold extended. destruct (fill_total (s_search st ++ step_on svd (s_trial st)) (s_col st ++ map A (step_on svd (s_trial st))) (length (s_search st)) (length (s_search st ++ step_on svd (s_trial st))) (s_sub st)) as (s & ->).
  - rewrite app_length. lia.
  - rewrite app_length. specialize (HS (s_trial st)). unfold room in R. lia.
  - cbn [bind]. eexists. split; [reflexivity|]. repeat split.
Qed.
Lemma flat_len {X Y} (f : X -> list Y) l : (forall x, length (f x) <= 1)%nat -> (length (flat_map f l) <= length l)%nat.
Proof. intros H. induction l as [|x l IH]; cbn [flat_map length]; [lia|]. rewrite app_length. specialize (H x). lia. Qed.
Lemma trial_len pre V r p : (length (trial_of N L pre V r p) <= 1)%nat.
Proof. destruct p as [x [u c]]. cbn [trial_of]. destruct (_ && _)%bool; [|cbn; lia]. destruct (lin_big L _); cbn; lia. Qed.
Lemma next_room st1 : eigh_sizes (eigh L) -> (Nat.min (length (s_search st1)) n_vals <> 0)%nat -> exists st2, next st1 = Ok st2 /\ room st2 /\
  (s_rvecs st2 = None <-> (size < Nat.min (length (s_search st1)) n_vals + length (s_search st1))%nat).
Proof.
  intros HE Hk. unfold next. destruct (HE (length (s_search st1)) (s_sub st1) (Nat.min (length (s_search st1)) n_vals)) as (E1 & E2). rewrite E1.
  destruct (Nat.ltb_spec size (Nat.min (length (s_search st1)) n_vals + length (s_search st1))) as [Lt|Ge].
  - eexists. split; [reflexivity|]. split; [|split; auto]. unfold room. cbn [s_search s_trial length]. unfold rows_of. rewrite map_length, E2. unfold Davidson_Model.size. lia.
  - destruct (fst _) as [|r vals] eqn:Ev; [cbn [length] in E1; lia|]. eexists. split; [reflexivity|]. split; [|split; [discriminate|lia]].
    unfold room. cbn [s_search s_trial]. set (l := combine _ _). assert (length l <= Nat.min (length (s_search st1)) n_vals)%nat.
    { unfold l, residuals, rows_of. rewrite !combine_length, map_length, !combine_length, !map_length, E2. lia. }
    pose proof (flat_len (trial_of N L (pre_of st1) (s_search st1) r) l (trial_len _ _ _)). lia.
Qed.
Lemma cycles_room mode : shrinks -> eigh_sizes (eigh L) -> (1 <= n_vals)%nat -> forall n st, s_last st = None -> room st -> Forall (fun e => length (fst e) <= size)%nat (s_log st) ->
  match cycles N L msc n_vals mode n st with
  | Ok st' => s_last st' = None /\ (length (s_search st') <= size)%nat /\ Forall (fun e => length (fst e) <= size)%nat (s_log st')
  | Raise e => e = ValueError
  end.
Proof.
  intros HS HE Hv. induction n as [|n IH]; intros st Hl R HF; [cbn [cycles]; unfold room in R; split; auto; split; [lia|auto]|]. rewrite cycles_S by auto.
  destruct (extended_room (negb mode) st (shrinks_step _ HS) R) as (st1 & -> & S1 & _ & L1 & G1 & _). cbn [bind].
  assert (B : (length (s_search st1) <= size)%nat) by (rewrite S1, app_length; pose proof (shrinks_step (negb mode) HS (s_trial st)); unfold room in R; lia).
  destruct (_ && _)%bool; [split; [congruence|split; [auto|now rewrite G1]]|]. destruct (Nat.eqb_spec (Nat.min (length (s_search st1)) n_vals) 0) as [Z|Z]; [reflexivity|].
  destruct (next_room st1 HE Z) as (st2 & E2 & R2 & _). rewrite E2. cbn [bind]. destruct (next_log _ _ E2) as (L2 & H2). apply IH; auto. rewrite L2, G1. apply Forall_app. split; auto.
Qed.

(** ** A restart in the last cycle *)
Lemma next_restarts st1 : eigh_sizes (eigh L) -> (size < Nat.min (length (s_search st1)) n_vals + length (s_search st1))%nat ->
  exists st2, next st1 = Ok st2 /\ s_search st2 = [] /\ length (s_trial st2) = Nat.min (length (s_search st1)) n_vals /\ s_rvecs st2 = None /\ s_pre st2 = None.
Proof.
  intros HE H. unfold next. destruct (HE (length (s_search st1)) (s_sub st1) (Nat.min (length (s_search st1)) n_vals)) as (E1 & E2). rewrite E1.
  rewrite (proj2 (Nat.ltb_lt _ _) H). eexists. split; [reflexivity|]. cbn [s_search s_trial]. unfold rows_of. rewrite map_length. auto.
Qed.
Lemma flat_len_eq {X Y} (f : X -> list Y) l : (forall x, In x l -> length (f x) = 1)%nat -> length (flat_map f l) = length l.
Proof. intros H. induction l as [|x l IH]; cbn [flat_map length]; [reflexivity|]. rewrite app_length, IH, (H x) by (cbn; auto; intros; apply H; cbn; auto). reflexivity. Qed.
Lemma combine_false (l : list vec) k p : In p (combine l (repeat false k)) -> snd p = false.
Proof. destruct p as [a b]. intros H. apply in_combine_r in H. apply repeat_spec in H. exact H. Qed.
Lemma next_grows st1 : eigh_sizes (eigh L) -> (forall v, lin_big L v = true) -> (Nat.min (length (s_search st1)) n_vals <> 0)%nat ->
  (Nat.min (length (s_search st1)) n_vals + length (s_search st1) <= size)%nat ->
  exists st2, next st1 = Ok st2 /\ s_search st2 = s_search st1 /\ length (s_trial st2) = Nat.min (length (s_search st1)) n_vals.
Proof.
  intros HE HB Hk H. unfold next. destruct (HE (length (s_search st1)) (s_sub st1) (Nat.min (length (s_search st1)) n_vals)) as (E1 & E2). rewrite E1.
  rewrite (proj2 (Nat.ltb_ge _ _)) by lia. destruct (fst _) as [|r vals] eqn:Ev; [cbn [length] in E1; lia|]. eexists. split; [reflexivity|]. cbn [s_search s_trial]. split; [reflexivity|].
  rewrite flat_len_eq.
  - unfold residuals, rows_of. rewrite !combine_length, map_length, !combine_length, !map_length, E2, repeat_length. lia.
  - intros [x [u c]] Hx. assert (c = false) by (apply in_combine_r in Hx; apply combine_false in Hx; exact Hx). subst c. cbn [trial_of]. rewrite HB. cbn [andb negb]. rewrite HB. reflexivity.
Qed.
Definition fresh (k : nat) (st : state) : Prop := s_last st = None /\ s_search st = [] /\ length (s_trial st) = k.
Lemma one_cycle n st : shrinks -> s_last st = None -> room st -> cycles N L msc n_vals false (S n) st =
  bind (extended true st) (fun st1 => if (Nat.min (length (s_search st1)) n_vals =? 0)%nat then Raise ValueError else bind (next st1) (cycles N L msc n_vals false n)).
Proof. intros HS Hl R. rewrite cycles_S by auto. reflexivity. Qed.
Lemma three_cycles n st : shrinks -> (forall t, length t = n_vals -> length (orth L t) = n_vals) -> eigh_sizes (eigh L) -> (forall v, lin_big L v = true) -> (msc < n_vals)%nat ->
  fresh n_vals st -> exists st', fresh n_vals st' /\ s_rvecs st' = None /\ cycles N L msc n_vals false (S (S (S n))) st = cycles N L msc n_vals false n st'.
Proof.
  intros HS HO HE HB Hk (Hl & Hs & Ht).
  assert (ON : forall t, length t = n_vals -> length (step_on true t) = n_vals) by (intros [|x t] Hx; cbn [step_on]; [cbn in Hx; lia|apply HO; auto]).
  assert (R : room st) by (unfold room, Davidson_Model.size; rewrite Hs; cbn [length]; lia).
  rewrite one_cycle by auto. destruct (extended_room true st (shrinks_step _ HS) R) as (a & -> & Sa & _ & La & _). cbn [bind].
  assert (Na : length (s_search a) = n_vals) by (rewrite Sa, Hs; cbn [app]; auto).
  rewrite (proj2 (Nat.eqb_neq _ _)) by lia. destruct (next_grows a HE HB) as (b & Eb & Sb & Tb); [lia|unfold Davidson_Model.size; lia|]. rewrite Eb. cbn [bind].
  destruct (next_log _ _ Eb) as (_ & Lb). assert (Rb : room b) by (unfold room, Davidson_Model.size; rewrite Sb, Tb; lia).
  rewrite one_cycle by auto. destruct (extended_room true b (shrinks_step _ HS) Rb) as (c & -> & Sc & _ & Lc & _). cbn [bind].
  assert (Nc : length (s_search c) = (2 * n_vals)%nat) by (rewrite Sc, Sb, app_length, ON by lia; lia).
  rewrite (proj2 (Nat.eqb_neq _ _)) by lia. destruct (next_grows c HE HB) as (d & Ed & Sd & Td); [lia|unfold Davidson_Model.size; lia|]. rewrite Ed. cbn [bind].
  destruct (next_log _ _ Ed) as (_ & Ld). assert (Rd : room d) by (unfold room, Davidson_Model.size; rewrite Sd, Td; lia).
  rewrite one_cycle by auto. destruct (extended_room true d (shrinks_step _ HS) Rd) as (e & -> & Se & _ & Le & _). cbn [bind].
  assert (Ne : length (s_search e) = (3 * n_vals)%nat) by (rewrite Se, Sd, app_length, ON by lia; lia).
  rewrite (proj2 (Nat.eqb_neq _ _)) by lia. destruct (next_restarts e HE) as (f & Ef & Sf & Tf & Rf & _); [unfold Davidson_Model.size; lia|]. rewrite Ef. cbn [bind].
  destruct (next_log _ _ Ef) as (_ & Lf). exists f. split; [split; [auto|split; [auto|lia]]|]. split; auto.
Qed.
Lemma thirds m : shrinks -> (forall t, length t = n_vals -> length (orth L t) = n_vals) -> eigh_sizes (eigh L) -> (forall v, lin_big L v = true) -> (msc < n_vals)%nat ->
  forall st, fresh n_vals st -> exists st', cycles N L msc n_vals false (3 * S m) st = Ok st' /\ s_rvecs st' = None.
Proof.
  intros HS HO HE HB Hk. induction m as [|m IH]; intros st F.
  - destruct (three_cycles 0 st HS HO HE HB Hk F) as (st' & F' & R' & E). exists st'. split; [exact E|exact R'].
  - destruct (three_cycles (3 * S m) st HS HO HE HB Hk F) as (st' & F' & R' & E). replace (3 * S (S m))%nat with (S (S (S (3 * S m)))) by lia. rewrite E. apply IH. exact F'.
Qed.

(** ** Forgetting the preconditioner *)
Definition set_pre (p : option (vec -> K -> vec -> vec)) (st : state) : state :=
  mkSt (s_trial st) (s_search st) (s_col st) (s_sub st) (s_last st) (s_ritz st) (s_rvecs st) (s_res st) (s_conv st) p (s_log st).
Lemma forget p q n st : s_last st = None -> (forall st1, extended true st = Ok st1 -> size < length (fst (eigh L (length (s_search st1)) (s_sub st1) (Nat.min (length (s_search st1)) n_vals))) + length (s_search st1))%nat ->
  cycles N L msc n_vals false (S n) (set_pre p st) = cycles N L msc n_vals false (S n) (set_pre q st).
Proof.
  intros Hl H. rewrite !cycles_S by auto. unfold extended in *. cbn [s_trial s_search s_col s_sub s_last s_ritz s_rvecs s_res s_conv s_pre s_log set_pre negb andb] in *.
  destruct (fill _ _ _ _ _ _ _ _ _) as [s|]; cbn [bind] in *; [|reflexivity]. cbn [s_search s_sub]. specialize (H _ eq_refl). cbn [s_search s_sub] in H.
  destruct (_ =? 0)%nat; [reflexivity|]. unfold next. cbn [s_search s_sub s_log]. rewrite (proj2 (Nat.ltb_lt _ _) H). reflexivity.
Qed.

(** ** Ritz pairs *)
Lemma trans_nth k : (k < N)%nat -> forall (row : list K) (V : list vec), length row = length V -> forall acc : vec,
  nth k (fold_left (fun acc p => vadd N acc (vscale N (fst p) (snd p))) (combine row V) acc) 0 = nth k acc 0 + sumn (length V) (fun b => nth b row 0 * nth k (at_ V b) 0).
Proof.
  intros Hk. induction row as [|c row IH]; intros [|v V] E acc; try discriminate E; cbn [combine fold_left length]; [rewrite sumn_0; ring|].
  rewrite IH by (cbn [length] in E; lia). rewrite sumn_S_l. cbn [fst snd]. unfold vadd, vscale. rewrite !vb_nth by auto. change (nth 0 (c :: row) 0) with c. change (at_ (v :: V) 0) with v.
  rewrite (sumn_ext _ (length V) (fun b => nth (S b) (c :: row) 0 * nth k (at_ (v :: V) (S b)) 0) (fun b => nth b row 0 * nth k (at_ V b) 0)) by reflexivity. ring.
Qed.
Lemma trans_coord (row : list K) (V : list vec) k : (k < N)%nat -> length row = length V -> nth k (trans_vec N row V) 0 = sumn (length V) (fun b => nth b row 0 * nth k (at_ V b) 0).
Proof. intros Hk E. unfold trans_vec. rewrite trans_nth by auto. unfold vzero. rewrite vb_nth by auto. ring. Qed.
Lemma inner_comb w v (n : nat) (c : nat -> K) (f : nat -> vec) : (forall k, (k < N)%nat -> nth k v 0 = sumn n (fun b => c b * nth k (f b) 0)) -> inner w v = sumn n (fun b => c b * inner w (f b)).
Proof.
  intros H. unfold Davidson_Spec.inner. rewrite (sumn_ext _ N _ (fun k => sumn n (fun b => rconj (nth k w 0) * (c b * nth k (f b) 0)))) by (intros k Hk; rewrite H, sumn_scal_l by auto; reflexivity).
  rewrite sumn_swap. apply sumn_ext. intros b Hb. rewrite <- sumn_scal_l. apply sumn_ext. intros k Hk. ring.
Qed.
Lemma inner_herm u v : inner u v = rconj (inner v u).
Proof. unfold Davidson_Spec.inner. rewrite rconj_sumn. apply sumn_ext. intros k Hk. rewrite rconj_mul, rconj_invol. ring. Qed.
Lemma lin_trans B (row : list K) (V : list vec) : linear N B -> length row = length V -> forall k, (k < N)%nat -> nth k (B (trans_vec N row V)) 0 = sumn (length V) (fun b => nth b row 0 * nth k (B (at_ V b)) 0).
Proof.
  intros [M HM] E k Hk. rewrite HM by auto. rewrite (sumn_ext _ N _ (fun l => sumn (length V) (fun b => M k l * (nth b row 0 * nth l (at_ V b) 0)))) by (intros l Hl; rewrite trans_coord, sumn_scal_l by auto; reflexivity).
  rewrite sumn_swap. apply sumn_ext. intros b Hb. rewrite HM, <- sumn_scal_l by auto. apply sumn_ext. intros l Hl. ring.
Qed.
Lemma galerkin V s k p : orthonormal V -> linear N A -> (forall i j, (i < length V)%nat -> (j < length V)%nat -> s i j = inner (at_ V i) (A (at_ V j))) -> eigenpairs (length V) s k p ->
  forall i, (i < k)%nat -> let u := trans_vec N (nth i (snd p) []) V in
  spanned N V u /\ (forall w, In w V -> inner w (vsub N (A u) (vscale N (nth i (fst p) 0) u)) = 0) /\ (forall j, (j < k)%nat -> inner u (trans_vec N (nth j (snd p) []) V) = delta i j).
Proof.
  intros Ho HL Hs (E1 & E2 & E3 & E4 & E5) i Hi u. pose proof (E3 i Hi) as Er. split; [|split].
  - exists (fun b => nth b (nth i (snd p) []) 0). intros k' Hk. apply trans_coord; auto.
  - intros w Hw. apply (In_nth _ _ []) in Hw as (a & Ha & <-). change (nth a V []) with (at_ V a). rewrite inner_sub, inner_scale.
    rewrite (inner_comb (at_ V a) (A u) (length V) (fun b => nth b (nth i (snd p) []) 0) (fun b => A (at_ V b))) by (apply lin_trans; auto).
    rewrite (inner_comb (at_ V a) u (length V) (fun b => nth b (nth i (snd p) []) 0) (at_ V)) by (intros; apply trans_coord; auto).
    rewrite (sumn_ext _ (length V) (fun b => _ * inner (at_ V a) (at_ V b)) (fun b => delta b a * nth b (nth i (snd p) []) 0)) by (intros b Hb; rewrite Ho, (delta_sym K a b) by auto; ring).
    rewrite sumn_delta by auto. rewrite <- E4 by auto. rewrite (sumn_ext _ (length V) (fun b => s a b * _) (fun b => nth b (nth i (snd p) []) 0 * inner (at_ V a) (A (at_ V b)))) by (intros b Hb; rewrite Hs by auto; ring). ring.
  - intros j Hj. pose proof (E3 j Hj) as Erj. rewrite <- E5 by auto.
    rewrite (inner_comb u _ (length V) (fun b => nth b (nth j (snd p) []) 0) (at_ V)) by (intros; apply trans_coord; auto). apply sumn_ext. intros b Hb.
    rewrite (inner_herm u (at_ V b)). rewrite (inner_comb (at_ V b) u (length V) (fun b => nth b (nth i (snd p) []) 0) (at_ V)) by (intros; apply trans_coord; auto).
    rewrite (sumn_ext _ (length V) _ (fun c => delta c b * nth c (nth i (snd p) []) 0)) by (intros c Hc; rewrite Ho, (delta_sym K b c) by auto; ring). rewrite sumn_delta by auto. ring.
Qed.
Definition pairs (st : state) : Prop := forall rows, s_rvecs st = Some rows ->
  s_ritz st = Some (fst (eigh L (length (s_search st)) (s_sub st) (Nat.min (length (s_search st)) n_vals))) /\ rows = snd (eigh L (length (s_search st)) (s_sub st) (Nat.min (length (s_search st)) n_vals)).
Lemma next_pairs st1 st2 : next st1 = Ok st2 -> pairs st2.
Proof.
  unfold next. destruct (_ <? _)%nat; [intros E; injection E as <-; intros rows H; discriminate H|]. destruct (fst _) as [|r vals] eqn:Ev; [discriminate|]. intros E. injection E as <-.
  intros rows H. cbn [s_rvecs s_ritz s_search s_sub] in *. injection H as <-. rewrite Ev. auto.
Qed.
Lemma cycles_pairs n : forall st st', s_last st = None -> pairs st -> cycles N L msc n_vals false n st = Ok st' -> pairs st'.
Proof.
  induction n as [|n IH]; intros st st' H P E; [injection E as <-; auto|]. rewrite cycles_S in E by auto. destruct (extended _ st) as [st1|] eqn:E1; cbn [bind] in E; [|discriminate].
  cbn [andb] in E. destruct (_ =? 0)%nat; [discriminate|]. destruct (next st1) as [st2|] eqn:E2; cbn [bind] in E; [|discriminate].
  destruct (next_log _ _ E2) as (L2 & H2). eapply IH; [exact H2| |exact E]. eapply next_pairs; eauto.
Qed.

(** ** Search mode *)
Lemma extended_search svd st st1 : extended svd st = Ok st1 -> s_search st1 = s_search st ++ step_on svd (s_trial st).
Proof. unfold extended. destruct (fill _ _ _ _ _ _ _ _ _); cbn [bind]; [|discriminate]. intros E. injection E as <-. reflexivity. Qed.
Lemma next_search st1 st2 : eigh_sizes (eigh L) -> (length (s_search st1) < n_vals)%nat -> next st1 = Ok st2 -> s_search st2 = s_search st1.
Proof.
  intros HE H. unfold next. destruct (HE (length (s_search st1)) (s_sub st1) (Nat.min (length (s_search st1)) n_vals)) as (E1 & E2). rewrite E1.
  rewrite (proj2 (Nat.ltb_ge _ _)) by (unfold Davidson_Model.size; lia). destruct (fst _); [discriminate|]. intros E. injection E as <-. reflexivity.
Qed.
Lemma search_grows : eigh_sizes (eigh L) -> forall n st st', s_last st = None -> cycles N L msc n_vals true n st = Ok st' ->
  (exists r, s_search st' = s_search st ++ r) /\ ((length (s_search st') < n_vals)%nat -> length (s_log st') = (length (s_log st) + n)%nat).
Proof.
  intros HE. induction n as [|n IH]; intros st st' Hl E; [injection E as <-; split; [exists []; now rewrite app_nil_r|intros; lia]|]. rewrite cycles_S in E by auto.
  destruct (extended _ st) as [st1|] eqn:E1; cbn [bind] in E; [|discriminate]. destruct (extended_log _ _ _ E1) as (L1 & H1 & _). pose proof (extended_search _ _ _ E1) as S1. cbn [andb] in E.
  destruct (Nat.leb_spec n_vals (length (s_search st1))) as [Le|Lt]; [injection E as <-; split; [eexists; exact S1|lia]|].
  destruct (_ =? 0)%nat; [discriminate|]. destruct (next st1) as [st2|] eqn:E2; cbn [bind] in E; [|discriminate]. destruct (next_log _ _ E2) as (L2 & H2).
  destruct (IH st2 st' H2 E) as ((r & Er) & Lg). rewrite (next_search st1 st2 HE Lt E2) in Er. split.
  - rewrite S1, <- app_assoc in Er. eexists. exact Er.
  - intros Hlt. rewrite Lg by auto. rewrite L2, L1, app_length. cbn [length]. lia.
Qed.
Lemma search_first : eigh_sizes (eigh L) -> forall n st st', s_last st = None -> cycles N L msc n_vals true (S n) st = Ok st' ->
  exists r, s_search st' = (s_search st ++ step_on false (s_trial st)) ++ r.
Proof.
  intros HE n st st' Hl E. rewrite cycles_S in E by auto.
  destruct (extended _ st) as [st1|] eqn:E1; cbn [bind] in E; [|discriminate]. pose proof (extended_search _ _ _ E1) as S1. cbn [andb negb] in E, S1.
  destruct (Nat.leb_spec n_vals (length (s_search st1))) as [Le|Lt]; [injection E as <-; exists []; now rewrite app_nil_r|].
  destruct (_ =? 0)%nat; [discriminate|]. destruct (next st1) as [st2|] eqn:E2; cbn [bind] in E; [|discriminate]. destruct (next_log _ _ E2) as (L2 & H2).
  destruct (search_grows HE n st2 st' H2 E) as ((r & Er) & _). rewrite (next_search st1 st2 HE Lt E2), S1 in Er. exists r. exact Er.
Qed.
Lemma gs_first v t : gs_big L v = true -> exists r, gs_loop N L [] (v :: t) = vscale N (inv_norm L v) v :: r.
Proof. intros H. cbn [gs_loop fold_left]. rewrite H. cbn [app]. destruct (gs_prefix t [vscale N (inv_norm L v) v]) as (r & ->). exists r. reflexivity. Qed.

Lemma search_total : eigh_sizes (eigh L) -> shrinks -> (1 <= n_vals)%nat -> forall n st, s_last st = None -> room st -> s_search st ++ step_on false (s_trial st) <> [] ->
  exists st', cycles N L msc n_vals true n st = Ok st'.
Proof.
  intros HE HS Hv. induction n as [|n IH]; intros st Hl R Hne; [eexists; reflexivity|]. rewrite cycles_S by auto.
  destruct (extended_room (negb true) st (shrinks_step _ HS) R) as (st1 & -> & S1 & _ & L1 & G1 & _). cbn [bind andb negb] in *.
  destruct (Nat.leb_spec n_vals (length (s_search st1))) as [Le|Lt]; [eexists; reflexivity|]. rewrite <- S1 in Hne.
  destruct (Nat.eqb_spec (Nat.min (length (s_search st1)) n_vals) 0) as [Z|Z]; [destruct (s_search st1); [congruence|cbn [length] in Z; lia]|].
  destruct (next_room st1 HE Z) as (st2 & E2 & R2 & _). rewrite E2. cbn [bind]. destruct (next_log _ _ E2) as (L2 & H2). apply IH; auto.
  rewrite (next_search st1 st2 HE Lt E2). intros X. apply app_eq_nil in X as [X _]. auto.
Qed.

(** ** Too many vectors *)
Lemma each_raise {X St} (f : X -> St -> res St) e l : (forall x s, In x l -> f x s = Raise e \/ exists s', f x s = Ok s') -> (exists x, In x l /\ forall s, f x s = Raise e) -> forall s, for_each f l s = Raise e.
Proof.
  induction l as [|x l IH]; intros H (y & Hy & Ey) s; [destruct Hy|]. cbn [for_each]. destruct (H x s (or_introl eq_refl)) as [->|(s' & E)]; [reflexivity|]. rewrite E. cbn [bind]. apply IH; [intros; apply H; cbn; auto|].
  destruct Hy as [->|Hy]; [rewrite Ey in E; discriminate|]. exists y. auto.
Qed.
Lemma each_cases {X St} (f : X -> St -> res St) e l : (forall x s, In x l -> f x s = Raise e \/ exists s', f x s = Ok s') -> forall s, for_each f l s = Raise e \/ exists s', for_each f l s = Ok s'.
Proof.
  induction l as [|x l IH]; intros H s; cbn [for_each]; [right; eexists; reflexivity|]. destruct (H x s (or_introl eq_refl)) as [->|(s' & ->)]; [left; reflexivity|]. cbn [bind]. apply IH. intros. apply H. cbn; auto.
Qed.
Lemma store_cases i j x s : store L msc n_vals i j x s = Raise IndexError \/ exists s', store L msc n_vals i j x s = Ok s'.
Proof. unfold store. destruct (_ && _)%bool; [right; eexists; reflexivity|left; reflexivity]. Qed.
Lemma pair_cases v av i j s : store_pair N L msc n_vals v av i j s = Raise IndexError \/ exists s', store_pair N L msc n_vals v av i j s = Ok s'.
Proof. unfold store_pair. destruct (store_cases i j (dotc N (nth i v []) (nth j av [])) s) as [->|(s' & ->)]; [left; reflexivity|]. cbn [bind]. apply store_cases. Qed.
Lemma fill_over v av tail s : (size < tail)%nat -> fill N L msc n_vals v av 0 tail s = Raise IndexError.
Proof.
  intros H. unfold fill. cbn [seq for_each bind]. rewrite Nat.sub_0_r. apply each_raise.
  - intros i s' Hi. destruct (each_cases (fun j => store_pair N L msc n_vals v av i j) IndexError (seq 0 (i - 0))) with (s := s') as [->|(s2 & ->)]; [intros; apply pair_cases|left; reflexivity|]. cbn [bind]. apply store_cases.
  - exists (tail - 1)%nat. split; [apply in_seq; lia|]. intros s'. destruct (each_cases (fun j => store_pair N L msc n_vals v av (tail - 1) j) IndexError (seq 0 (tail - 1 - 0))) with (s := s') as [->|(s2 & ->)]; [intros; apply pair_cases|reflexivity|].
    cbn [bind]. unfold store. rewrite (proj2 (Nat.ltb_ge _ _)) by lia. reflexivity.
Qed.
End Lib.
End P.
