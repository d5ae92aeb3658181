(** The vectors of the initial state for finite temperature. *)
From Coq Require Import List Arith Bool Lia Ring.
From Verif Require Import Py Alg ListX NdArray_Model NdArray_Proof Contract_Model Net_Model Net_Spec Normalize_Spec Ft_Model Ft_Spec Ft_Proof.
From Verif Require Davidson_Model Davidson_Spec Davidson_Proof Davidson_Prop.
Import ListNotations.
Local Open Scope nat_scope.

Section Zeros.
Import Davidson_Model Davidson_Proof.
Context {K : StarRing}.
Add Ring Kz : (r_theory K).
Variable N : nat.
Variable L : @library K.
Variables msc n_vals : nat.
Variable Z : nat -> Prop.
(** Vectors that vanish on a set of places. *)
Definition zeros (v : list K) : Prop := forall k, k < N -> Z k -> nth k v r0 = r0.
Local Open Scope star_scope.
Lemma zeros_build f : (forall k, (k < N)%nat -> Z k -> f k = 0) -> zeros (vbuild N f).
Proof.
  intros H k Hk Hz. unfold vbuild. rewrite (nth_indep _ 0 (f O)) by (rewrite map_length, seq_length; auto). rewrite (map_nth f), seq_nth by auto. apply H; auto.
Qed.
Lemma zeros_scale c v : zeros v -> zeros (vscale N c v).
Proof. intros H. apply zeros_build. intros k Hk Hz. rewrite H by auto. ring. Qed.
Lemma zeros_sub u v : zeros u -> zeros v -> zeros (vsub N u v).
Proof. intros H H'. apply zeros_build. intros k Hk Hz. rewrite H, H' by auto. ring. Qed.
Lemma zeros_add u v : zeros u -> zeros v -> zeros (vadd N u v).
Proof. intros H H'. apply zeros_build. intros k Hk Hz. rewrite H, H' by auto. ring. Qed.
Lemma zeros_zero : zeros (vzero N).
Proof. apply zeros_build. auto. Qed.
Lemma zeros_project ws : Forall zeros ws -> forall v, zeros v -> zeros (project_out N ws v).
Proof. unfold project_out. induction 1 as [|w ws Hw _ IH]; intros v Hv; cbn [fold_left]; auto. apply IH. apply zeros_sub; auto. apply zeros_scale; auto. Qed.
Lemma zeros_gs t : Forall zeros t -> forall vs, Forall zeros vs -> Forall zeros (gs_loop N L vs t).
Proof.
  induction 1 as [|v t Hv _ IH]; intros vs Hs; cbn [gs_loop]; auto. apply IH. change (fold_left _ vs v) with (project_out N vs v).
  destruct (gs_big L _); auto. apply Forall_app. split; auto. constructor; auto. apply zeros_scale, zeros_project; auto.
Qed.
Lemma zeros_trans (b : list (list K)) : Forall zeros b -> forall row, zeros (trans_vec N row b).
Proof.
  intros Hb row. unfold trans_vec. generalize (@vzero K N) zeros_zero. revert row. induction Hb as [|v b Hv _ IH]; intros [|c row] a Ha; cbn [combine fold_left]; auto.
  apply IH. apply zeros_add; auto. apply zeros_scale; auto.
Qed.
Hypothesis mat_keeps : forall v, zeros v -> zeros (matvec L v).
Hypothesis pre_keeps : forall r e u, zeros r -> zeros (precond_std L r e u).
Definition tidy (st : state) : Prop := s_last st = None /\ Forall zeros (s_trial st) /\ Forall zeros (s_search st) /\ Forall zeros (s_col st) /\
  match s_pre st with None => True | Some p => forall r e u, zeros r -> zeros (p r e u) end.
Lemma tidy_extended st st1 : tidy st -> extended N L msc n_vals false st = Ok st1 -> tidy st1.
Proof.
  intros (T0 & T1 & T2 & T3 & T4) E. unfold extended in E. destruct (fill _ _ _ _ _ _ _ _ _) as [s|]; cbn [bind] in E; [|discriminate]. injection E as <-.
  assert (F : Forall zeros (step_on N L false (s_trial st))) by (destruct (s_trial st); cbn [step_on]; auto; apply zeros_gs; auto).
  split; [|split; [|split; [|split]]]; cbn [s_last s_trial s_search s_col s_pre]; auto; apply Forall_app; split; auto.
  apply Forall_forall. intros x Hx. apply in_map_iff in Hx. destruct Hx as (y & <- & Hy). apply mat_keeps. rewrite Forall_forall in F. auto.
Qed.
Lemma tidy_next st st1 : tidy st -> next N L msc n_vals st = Ok st1 -> tidy st1.
Proof.
  intros (T0 & T1 & T2 & T3 & T4) E. unfold next in E. destruct (_ <? _)%nat.
  - injection E as <-. split; [|split; [|split; [|split]]]; cbn [s_last s_trial s_search s_col s_pre]; auto. unfold rows_of. apply Forall_forall. intros x Hx. apply in_map_iff in Hx. destruct Hx as (y & <- & _).
    apply zeros_trans. auto.
  - set (pr := eigh L _ _ _) in E. destruct (fst pr) as [|r vals] eqn:Ev; [discriminate|]. injection E as <-.
    assert (Pk : forall r e u, zeros r -> zeros (pre_of L st r e u)) by (unfold pre_of; destruct (s_pre st); auto).
    split; [|split; [|split; [|split]]]; cbn [s_last s_trial s_search s_col s_pre]; auto.
    apply Forall_forall. intros x Hx. apply in_flat_map in Hx. destruct Hx as ([res [u c]] & Hq & Hx). apply in_combine_l in Hq. unfold residuals in Hq. apply in_map_iff in Hq. destruct Hq as ([[e w] aw] & <- & Hq).
    cbn [fst snd] in Hx. pose proof (in_combine_r _ _ _ _ Hq) as Ha. apply in_combine_l in Hq. apply in_combine_r in Hq. unfold rows_of in Ha, Hq. apply in_map_iff in Ha, Hq. destruct Ha as (ra & <- & _). destruct Hq as (rw & <- & _).
    cbn [trial_of] in Hx. destruct (_ && _)%bool; [|destruct Hx]. destruct (lin_big L _); [|destruct Hx]. destruct Hx as [<-|[]].
    apply zeros_scale, zeros_project; auto. apply zeros_scale, Pk, zeros_sub; [apply zeros_trans; auto|apply zeros_scale, zeros_trans; auto].
Qed.
Lemma tidy_cycles n : forall st st', tidy st -> cycles N L msc n_vals true n st = Ok st' -> tidy st'.
Proof.
  induction n as [|n IH]; intros st st' T E; [injection E as <-; auto|]. rewrite cycles_S in E by apply T. cbn [negb] in E.
  destruct (extended _ _ _ _ _ st) as [st1|] eqn:E1; cbn [bind] in E; [|discriminate]. pose proof (tidy_extended _ _ T E1) as T1.
  destruct (_ && _)%bool; [injection E as <-; auto|]. destruct (_ =? 0)%nat; [discriminate|]. destruct (next _ _ _ _ st1) as [st2|] eqn:E2; cbn [bind] in E; [|discriminate].
  eapply IH; [|exact E]. eapply tidy_next; eauto.
Qed.
End Zeros.

Section S.
Variable K : StarRing.
Add Ring Kr : (r_theory K).
Local Open Scope star_scope.
Notation arr := (arr K).

(** ** Independence *)
Lemma on_free N (ws : list (list K)) : Davidson_Spec.orthonormal N ws -> Forall (fun r => length r = N) ws -> free_rows N ws.
Proof.
  intros O F. split; auto. intros c Hc j Hj.
  transitivity (sumn (length ws) (fun i => delta i j * c i)); [symmetry; apply sumn_delta; auto|].
  transitivity (sumn N (fun x => rconj (nth x (nth j ws []) 0) * sumn (length ws) (fun i => c i * nth x (nth i ws []) 0))).
  - rewrite (sumn_ext K N _ (fun x => sumn (length ws) (fun i => rconj (nth x (nth j ws []) 0) * (c i * nth x (nth i ws []) 0)))) by (intros; now rewrite sumn_scal_l).
    rewrite sumn_swap. apply sumn_ext. intros i Hi. rewrite (sumn_ext K N _ (fun x => c i * (rconj (nth x (nth j ws []) 0) * nth x (nth i ws []) 0))) by (intros; ring).
    rewrite sumn_scal_l. specialize (O j i Hj Hi). unfold Davidson_Spec.inner, Davidson_Spec.at_ in O. rewrite O. unfold delta. rewrite Nat.eqb_sym. ring.
  - apply sumn_zero. intros x Hx. rewrite Hc by (apply in_seq; lia). ring.
Qed.
Lemma on_firstn N p (ws : list (list K)) : Davidson_Spec.orthonormal N ws -> Davidson_Spec.orthonormal N (firstn p ws).
Proof. intros O. rewrite <- (firstn_skipn p ws) in O. eapply Davidson_Proof.on_prefix. exact O. Qed.

Definition sk (j i : nat) : nat := if (i <? j)%nat then i else S i.
Lemma sum_skip m (f : nat -> K) j : (j <= m)%nat -> sumn (S m) f = f j + sumn m (fun i => f (sk j i)).
Proof.
  induction m as [|m IH]; intros H.
  - assert (j = O) by lia. subst j. rewrite sumn_S, !sumn_0. ring.
  - destruct (Nat.eq_dec j (S m)) as [->|Ne].
    + rewrite sumn_S, (sumn_ext K (S m) (fun i => f (sk (S m) i)) f); [ring|]. intros i Hi. unfold sk. rewrite (proj2 (Nat.ltb_lt _ _)); auto.
    + rewrite sumn_S, IH by lia. rewrite (sumn_S K m (fun i => f (sk j i))). unfold sk at 3. rewrite (proj2 (Nat.ltb_ge m j)) by lia. ring.
Qed.
Lemma pivot (nontrivial : (1 : K) <> 0) (field : forall x : K, x = 0 \/ exists y, x * y = 1) m (f : nat -> K) : (forall i, (i < m)%nat -> f i = 0) \/ exists j y, (j < m)%nat /\ f j * y = 1.
Proof.
  induction m as [|m [IH|(j & y & Hj & E)]]; [left; intros; lia| |right; exists j, y; split; auto].
  destruct (field (f m)) as [E|(y & E)]; [left; intros i Hi; destruct (Nat.eq_dec i m) as [->|]; auto; apply IH; lia|right; exists m, y; auto].
Qed.
(** More vectors than places. *)
Lemma dependent (nontrivial : (1 : K) <> 0) (field : forall x : K, x = 0 \/ exists y, x * y = 1) n : forall v : nat -> nat -> K,
  exists c, (exists i, (i <= n)%nat /\ c i <> 0) /\ forall k, (k < n)%nat -> sumn (S n) (fun i => c i * v i k) = 0.
Proof.
  induction n as [|n IH]; intros v; [exists (fun _ => 1); split; [exists O; auto|intros; lia]|].
  destruct (pivot nontrivial field (S (S n)) (fun i => v i n)) as [Z|(j & y & Hj & E)].
  - destruct (IH v) as (c & (i & Hi & Hc) & Hs). exists (fun i => if (i <=? n)%nat then c i else 0). split.
    + exists i. split; [lia|]. rewrite (proj2 (Nat.leb_le _ _)); auto.
    + intros k Hk. destruct (Nat.eq_dec k n) as [->|Ne].
      * apply sumn_zero. intros q Hq. rewrite Z by auto. ring.
      * rewrite sumn_S, (proj2 (Nat.leb_gt (S n) n)) by lia. rewrite (sumn_ext K (S n) _ (fun i => c i * v i k)) by (intros q Hq; rewrite (proj2 (Nat.leb_le q n)) by lia; reflexivity).
        rewrite Hs by lia. ring.
  - destruct (IH (fun i k => v (sk j i) k - v (sk j i) n * y * v j k)) as (c & (i & Hi & Hc) & Hs).
    set (d := - sumn (S n) (fun i => c i * (v (sk j i) n * y))).
    exists (fun i => if (i =? j)%nat then d else if (i <? j)%nat then c i else c (pred i)).
    assert (Sk : forall q, (if (sk j q =? j)%nat then d else if (sk j q <? j)%nat then c (sk j q) else c (pred (sk j q))) = c q).
    { intros q. unfold sk. destruct (Nat.ltb_spec q j) as [Lt|Ge]; [rewrite (proj2 (Nat.eqb_neq q j)), (proj2 (Nat.ltb_lt q j)) by lia; reflexivity|].
      rewrite (proj2 (Nat.eqb_neq (S q) j)), (proj2 (Nat.ltb_ge (S q) j)) by lia. reflexivity. }
    split.
    + exists (sk j i). split; [unfold sk; destruct (_ <? _)%nat; lia|]. rewrite Sk. exact Hc.
    + intros k Hk. rewrite (sum_skip (S n) _ j) by lia. rewrite Nat.eqb_refl. rewrite (sumn_ext K (S n) _ (fun i => c i * v (sk j i) k)) by (intros q _; rewrite Sk; reflexivity).
      assert (W : sumn (S n) (fun i => c i * (v (sk j i) k - v (sk j i) n * y * v j k)) = 0).
      { destruct (Nat.eq_dec k n) as [->|Ne]; [|apply Hs; lia]. apply sumn_zero. intros q _. transitivity (c q * (v (sk j q) n * (1 - v j n * y))); [ring|]. rewrite E. ring. }
      rewrite <- W. unfold d. rewrite (sumn_ext K (S n) (fun i => c i * (v (sk j i) k - v (sk j i) n * y * v j k)) (fun i => c i * v (sk j i) k + (c i * (v (sk j i) n * y)) * (- v j k))) by (intros; ring).
      rewrite sumn_add, sumn_scal_r. ring.
Qed.

Lemma padded_dependent (nontrivial : (1 : K) <> 0) (field : forall x : K, x = 0 \/ exists y, x * y = 1) n p (ws rows : list (list K)) : (0 < n)%nat ->
  Forall (on_diagonal n) ws -> length ws = n -> (n < p)%nat -> ft_rows n p ws = Ok rows -> ~ free_rows (n * n) rows.
Proof.
  intros Hn F Lw Hp E (_ & I). pose proof (rows_len K n p ws rows E) as Lr. rewrite Lr in I.
  assert (D : forall i, (i <= n)%nat -> on_diagonal n (nth i rows [])).
  { intros i Hi. unfold ft_rows in E. rewrite (proj2 (Nat.leb_gt p (length ws))) in E by lia. destruct (_ <? _)%nat; [discriminate|]. injection E as <-.
    destruct (Nat.eq_dec i n) as [->|Ne].
    - rewrite app_nth2 by lia. rewrite Lw, Nat.sub_diag. destruct (p - n)%nat eqn:Ep; [lia|]. cbn [seq map nth].
      intros k Hk Hne. rewrite (nth_indep _ 0 (delta O O)) by (rewrite map_length, seq_length; auto). rewrite (map_nth (fun k => delta k O)), seq_nth by auto. cbn [Nat.add]. unfold delta.
      destruct (Nat.eqb_spec k O) as [->|]; auto. exfalso. apply Hne. rewrite Nat.div_0_l, Nat.mod_0_l by lia. reflexivity.
    - rewrite app_nth1 by lia. rewrite Forall_forall in F. apply F. apply nth_In. lia. }
  destruct (dependent nontrivial field n (fun i k => nth (k * n + k) (nth i rows []) 0)) as (c & (i & Hi & Hc) & Hs).
  apply Hc. assert (Z : (if (i <=? n)%nat then c i else 0) = 0); [|rewrite (proj2 (Nat.leb_le i n)) in Z; auto].
  apply (I (fun i => if (i <=? n)%nat then c i else 0)); [|lia]. intros x Hx. apply in_seq in Hx.
  replace p with (S n + (p - S n))%nat by lia. generalize (p - S n)%nat as q. induction q as [|q IHq].
  - rewrite Nat.add_0_r. rewrite (sumn_ext K (S n) _ (fun i => c i * nth x (nth i rows []) 0)) by (intros q Hq; rewrite (proj2 (Nat.leb_le q n)) by lia; reflexivity).
    destruct (Nat.eq_dec (x / n) (x mod n)) as [Eq|Ne].
    + etransitivity; [|apply (Hs (x / n)%nat); apply Nat.div_lt_upper_bound; lia]. apply sumn_ext. intros q Hq. f_equal. f_equal. rewrite Eq at 2. pose proof (Nat.div_mod x n ltac:(lia)) as Dm. lia.
    + apply sumn_zero. intros q Hq. rewrite (D q ltac:(lia) x) by (auto; lia). ring.
  - rewrite Nat.add_succ_r, sumn_S, IHq. rewrite (proj2 (Nat.leb_gt (S n + q) n)) by lia. ring.
Qed.

(** ** What the search finds *)
Variable isqrt : nat -> K.
Hypothesis nontrivial : (1 : K) <> 0.
Hypothesis isqrt_real : forall n, rconj (isqrt n) = isqrt n.
Hypothesis isqrt_ok : forall n, (0 < n)%nat -> sumn n (fun _ => isqrt n * isqrt n) = 1.
Variable lib : nat -> (list K -> list K) -> @Davidson_Model.library K.
Hypothesis lib_ok : library_ok lib.
Variables max_cycle max_space : nat.
Notation found := (found isqrt lib (S max_cycle) max_space).

Lemma search_ok n p (mat : arr) : (0 < n)%nat -> (0 < p)%nat -> shape mat = [n; n] ->
  (forall i j, (i < n)%nat -> (j < n)%nat -> get mat [i; j] = rconj (get mat [j; i])) ->
  exists ws, found n p mat = Ok (vec_i isqrt n :: ws) /\ Davidson_Spec.orthonormal (n * n) (vec_i isqrt n :: ws) /\
    Forall (fun r => length r = (n * n)%nat) (vec_i isqrt n :: ws).
Proof.
  intros Hn Hp Sm Hh. destruct (lib_ok (n * n)%nat (operator mat)) as (L1 & L2 & L3 & L4 & L5 & L6).
  assert (U : Davidson_Spec.inner (n * n) (vec_i isqrt n) (vec_i isqrt n) = 1) by (apply vec_unit; auto).
  destruct (L6 _ (vec_len K isqrt n) U) as (B1 & B2).
  destruct (Davidson_Prop.C62_search K (n * n) (lib (n * n)%nat (operator mat)) max_cycle max_space p (vec_i isqrt n) [] None L2 L3) as (ws & st & E & _); auto; [cbn [length]; lia|].
  unfold Ft_Model.found. destruct (matvec_ok K mat n (vec_i isqrt n) Sm (vec_len K isqrt n)) as (w & -> & _). cbn [bind]. rewrite E. cbn [bind fst].
  assert (V : Davidson_Model.vscale (n * n) (Davidson_Model.inv_norm (lib (n * n)%nat (operator mat)) (vec_i isqrt n)) (vec_i isqrt n) = vec_i isqrt n).
  { rewrite B2. unfold Davidson_Model.vscale, Davidson_Model.vbuild. apply nth_ext with (d := 0) (d' := 0); [rewrite map_length, seq_length, vec_len; auto|].
    intros k Hk. rewrite map_length, seq_length in Hk. rewrite (nth_indep _ 0 ((fun i => 1 * nth i (vec_i isqrt n) 0) O)) by (rewrite map_length, seq_length; auto).
    rewrite (map_nth (fun i => 1 * nth i (vec_i isqrt n) 0)), seq_nth by auto. cbn [Nat.add]. ring. }
  rewrite V in E |- *. exists ws. split; [reflexivity|].
  unfold Davidson_Model.kernel_search in E. destruct (Davidson_Model.cycles _ _ _ _ _ _ _) as [st'|] eqn:Ec; cbn [bind] in E; [|discriminate]. injection E as E1 ->.
  assert (HA : Davidson_Spec.hermitian (n * n) (Davidson_Model.matvec (lib (n * n)%nat (operator mat)))).
  { intros u v Lu Lv. rewrite !L1. apply operator_hermitian; auto. }
  destruct (Davidson_Proof.init_good (n * n) (lib (n * n)%nat (operator mat)) [vec_i isqrt n] None) as (G & Ap).
  pose proof (Davidson_Proof.cycles_good (n * n) _ max_space p true HA L4 (Davidson_Proof.step_gs _ _ L5) (S max_cycle) _ _ G Ap Ec) as G'. destruct G' as [_ _ _ G4 G5 _]. rewrite E1 in G4, G5. auto.
Qed.

(** A diagonal Hamiltonian *)
Lemma search_diagonal n p (mat : arr) ws : (0 < n)%nat -> shape mat = [n; n] ->
  (forall i j, (i < n)%nat -> (j < n)%nat -> i <> j -> get mat [i; j] = 0) ->
  (forall r e u, on_diagonal n r -> on_diagonal n (Davidson_Model.precond_std (lib (n * n)%nat (operator mat)) r e u)) ->
  (forall v, length v <> (n * n)%nat -> operator mat v = []) ->
  found n p mat = Ok ws -> Forall (on_diagonal n) ws.
Proof.
  intros Hn Sm Dm Pk Op E. destruct (lib_ok (n * n)%nat (operator mat)) as (L1 & _). unfold Ft_Model.found in E. destruct (local_matvec mat (vec_i isqrt n)) as [w|]; cbn [bind] in E; [|discriminate].
  unfold Davidson_Model.kernel_search in E. destruct (Davidson_Model.cycles _ _ _ _ _ _ _) as [st'|] eqn:Ec; cbn [bind] in E; [|discriminate]. cbn [fst] in E. injection E as <-.
  set (Z := fun k => (k / n)%nat <> (k mod n)%nat).
  destruct (tidy_cycles (n * n) (lib (n * n)%nat (operator mat)) max_space p Z) with (n := S max_cycle) (st := Davidson_Model.init [vec_i isqrt n] None []) (st' := st') as (_ & _ & T & _); auto.
  - intros v Hv k Hk Hz. rewrite L1. destruct (Nat.eq_dec (length v) (n * n)) as [Lv|Lv]; [|rewrite Op by auto; destruct k; reflexivity].
    unfold operator. destruct (matvec_ok K mat n v Sm Lv) as (w' & -> & _ & Gw). rewrite Gw by auto. unfold times. apply sumn_zero. intros l Hl.
    assert (Kd : (k / n < n)%nat) by (apply Nat.div_lt_upper_bound; lia). assert (Km : (k mod n < n)%nat) by (apply Nat.mod_upper_bound; lia).
    destruct (Nat.eq_dec (k / n) l) as [<-|Ne]; [|rewrite Dm by auto; ring].
    rewrite (Hv (k / n * n + k mod n)%nat); [ring|nia|]. unfold Z. destruct (div_mod_at n (k / n) (k mod n) Km) as (-> & ->). exact Hz.
  - split; [reflexivity|]. split; [|split; [|split]]; cbn [Davidson_Model.init Davidson_Model.s_trial Davidson_Model.s_search Davidson_Model.s_col Davidson_Model.s_pre]; auto.
    constructor; auto. intros k Hk Hz. rewrite vec_at by auto. unfold delta. rewrite (proj2 (Nat.eqb_neq _ _) Hz). ring.
Qed.
Lemma operator_other n (mat : arr) v : shape mat = [n; n] -> length v <> (n * n)%nat -> operator mat v = [].
Proof. intros Sm Lv. unfold operator. rewrite matvec_bad; [reflexivity|]. rewrite Sm. cbn [prod]. lia. Qed.
End S.
