(** Proofs about [dense_hamiltonian]. *)
From Coq Require Import String List Arith Bool Lia Ring.
From Verif Require Import Py Alg ListX NdArray_Model NdArray_Proof Net_Model Net_Spec Cache_Spec Eom_Spec
  Trav_Proof Acyc_Proof EnvThm_Proof TEnv_Proof Env_Proof DenseH_Model.
Import ListNotations.
Local Open Scope nat_scope.
Local Open Scope list_scope.

Lemma last_fold {K : StarRing} (l : id) : forall (term : list (id * arr K)) d acc, dget d l = acc ->
  dget (fold_left (fun d e => dput d (fst e) (snd e)) term d) l =
  fold_left (fun acc p => if fst p =? l then Some (snd p) else acc) term acc.
Proof.
  induction term as [|e term IH]; intros d acc H; cbn [fold_left]; auto. apply IH. rewrite dget_dput, Nat.eqb_sym.
  destruct (fst e =? l); auto.
Qed.
Lemma dict_last {K : StarRing} (term : list (id * arr K)) l : dget (dict_of term) l = last_of term l.
Proof. unfold dict_of, last_of. now apply last_fold. Qed.

Lemma Forall2_nth_seq {A} (l : list A) : forall k l0, length l0 = k -> Forall2 (fun i m => nth_error (l0 ++ l) i = Some m) (seq k (length l)) l.
Proof.
  induction l as [|x l IH]; intros k l0 E; cbn [length seq]; constructor.
  - subst k. rewrite nth_error_app2 by lia. now rewrite Nat.sub_diag.
  - replace (l0 ++ x :: l) with ((l0 ++ [x]) ++ l) by (rewrite <- app_assoc; reflexivity). apply IH. rewrite app_length. cbn. lia.
Qed.
Lemma others_nth (ax : option nat) (sh : list nat) :
  Forall2 (fun i m => nth_error sh i = Some m) (others ax (seq 0 (length sh))) (others ax sh).
Proof. pose proof (Forall2_nth_seq sh 0 [] eq_refl) as H. cbn [app] in H. destruct ax; cbn [others]; auto. now apply Forall2_del. Qed.

Section Proofs.
Variable K : StarRing.
Add Ring Kr : (r_theory K).
Local Open Scope star_scope.

Lemma mapM_app' {X Y} (f : X -> res Y) l1 l2 a b : mapM f l1 = Ok a -> mapM f l2 = Ok b -> mapM f (l1 ++ l2) = Ok (a ++ b).
Proof.
  revert a. induction l1 as [|x l1 IH]; intros a E1 E2; cbn [mapM app] in *.
  - now inversion E1.
  - destruct (f x) as [y|]; cbn [bind] in *; [|discriminate]. destruct (mapM f l1) as [ys|]; cbn [bind] in *; [|discriminate].
    rewrite (IH ys eq_refl E2). cbn [bind]. now inversion E1.
Qed.

(** The dimensions of the leaves. *)
Lemma dims_ok (h : heap K) A : forall t up d, hangs h up t -> fits A (option_map fst up) d t ->
  (match up with Some (_, (n, i)) => exists a, oarr (hget h n) = Some a /\ nth_error (shape a) i = Some d | None => Net_Spec.inner t = true end) ->
  (forall n, In n (nids t) -> oarr (hget h n) = Some (A n)) ->
  (forall l, In l (lids t) -> exists p, dget (oacc (hget h l)) 0 = Some p) ->
  mapM (leaf_dim h) (lids t) = Ok (ldims A (option_map fst up) d t).
Proof.
  induction t as [n|n ks IH] using tree_ind'; intros up d H F U N L.
  - inversion H as [? j p Lf Ac| |]; subst. destruct p as (m & i). destruct U as (a & Ea & En).
    destruct (L n ltac:(left; auto)) as (p & Ep). cbn [lids mapM]. unfold leaf_dim, dindex. rewrite Ac in *. cbn [dget] in *.
    destruct (0 =? j)%nat; [|discriminate]. cbn [bind fst snd]. rewrite Ea, En. reflexivity.
  - destruct (hangs_kids _ _ _ _ _ H) as (Lf & Fk & _). inversion F as [|? ? ? ? W P X I Fs]; subst.
    rewrite ldims_node. cbn [lids].
    pose proof (others_nth (option_map fst up) (shape (A n))) as O. change (length (shape (A n))) with (ndim (A n)) in O. rewrite <- I in O.
    assert (Nn : oarr (hget h n) = Some (A n)) by (apply N; left; auto).
    assert (Nk : Forall (fun k => forall x, In x (nids (k_t k)) -> oarr (hget h x) = Some (A x)) ks).
    { rewrite Forall_forall. intros k Hk x Hx. apply N. right. apply in_flat_map. eauto. }
    assert (Lk : Forall (fun k => forall l, In l (lids (k_t k)) -> exists p, dget (oacc (hget h l)) 0 = Some p) ks).
    { rewrite Forall_forall. intros k Hk x Hx. apply L. cbn [lids]. apply in_flat_map. eauto. }
    clear - IH Fk Fs O Nn Nk Lk. revert Fs O. generalize (others (option_map fst up) (shape (A n))) as ms.
    induction IH as [|k ks Hk _ IHk]; intros ms Fs O; inversion Fs as [|? m ? ms' F1 F2]; subst; [reflexivity|].
    cbn [map] in O. inversion O; subst. inversion Fk; subst. inversion Nk; subst. inversion Lk; subst. cbn [flat_map gdims].
    apply mapM_app'; [|apply IHk; auto].
    apply (Hk (Some (k_j k, (n, k_i k))) m); auto. exists (A n). auto.
Qed.

(** Product of the matrices of a term, leaf by leaf. *)
Fixpoint entry (f : id -> nat -> nat -> K) (ls : list id) (v w : list nat) : K :=
  match ls, v, w with l :: ls, a :: v, b :: w => f l a b * entry f ls v w | _, _, _ => r1 end.

Lemma entry_asg f : forall ls v w, NoDup ls -> length v = length ls -> length w = length ls ->
  entry f ls v w = prodL ls (fun l => f l (asg ls v l) (asg ls w l)).
Proof.
  induction ls as [|l ls IH]; intros [|a v] [|b w] D Lv Lw; try discriminate; [reflexivity|].
  cbn [entry]. inversion D; subst. rewrite IH by (auto; cbn in *; lia). rewrite prodL_cons, !asg_cons_eq. f_equal.
  apply prodL_ext_in. intros x Hx. rewrite !asg_cons_ne; auto; intros ->; auto.
Qed.

Lemma kron_matrix (a b : arr K) m n p q : is_matrix a m n -> is_matrix b p q -> is_matrix (np_kron a b) (m * p) (n * q).
Proof. intros (_ & Ea) (_ & Eb). unfold np_kron. rewrite Ea, Eb. cbn [nth]. split; [apply wf_build|reflexivity]. Qed.
Lemma kron_get (a b : arr K) m n p q i j k l : is_matrix a m n -> is_matrix b p q -> i < m -> j < n -> k < p -> l < q ->
  get (np_kron a b) [(i * p + k)%nat; (j * q + l)%nat] = get a [i; j] * get b [k; l].
Proof.
  intros (_ & Ea) (_ & Eb) Hi Hj Hk Hl. unfold np_kron. rewrite Ea, Eb. cbn [nth].
  rewrite get_build by (apply in_range2; nia). cbn [nth].
  rewrite !Nat.div_add_l, !Nat.div_small, !Nat.add_0_r by lia.
  replace ((i * p + k) mod p)%nat with k. replace ((j * q + l) mod q)%nat with l. reflexivity.
  - rewrite Nat.add_comm, Nat.mod_add, Nat.mod_small; lia.
  - rewrite Nat.add_comm, Nat.mod_add, Nat.mod_small; lia.
Qed.

Lemma term_fold (term : list (id * arr K)) : forall ls ds,
  Forall2 (fun l d => match last_of term l with None => True | Some m => wf m /\ shape m = [d; d] end) ls ds ->
  forall acc ds0, is_matrix acc (prod ds0) (prod ds0) ->
  let M := fold_left (fun h_i l => np_kron h_i (match dget (dict_of term) (fst l) with Some m => m | None => eye (snd l) (snd l) end)) (combine ls ds) acc in
  is_matrix M (prod (ds0 ++ ds)) (prod (ds0 ++ ds)) /\
  forall v0 w0 v w, in_range v0 ds0 -> in_range w0 ds0 -> in_range v ds -> in_range w ds ->
    get M [ravel (ds0 ++ ds) (v0 ++ v); ravel (ds0 ++ ds) (w0 ++ w)] = get acc [ravel ds0 v0; ravel ds0 w0] * entry (factor term) ls v w.
Proof.
  intros ls ds F. induction F as [|l d ls ds Hl F IH]; intros acc ds0 Ha M.
  - subst M. cbn [combine fold_left]. rewrite app_nil_r. split; auto. intros v0 w0 v w _ _ Rv Rw. inversion Rv; inversion Rw; subst.
    rewrite !app_nil_r. cbn [entry]. ring.
  - set (b := match dget (dict_of term) l with Some m => m | None => eye d d end).
    assert (Hb : is_matrix b d d). { subst b. rewrite dict_last. destruct (last_of term l); auto. split; [apply wf_build|reflexivity]. }
    assert (Gb : forall i j, (i < d)%nat -> (j < d)%nat -> get b [i; j] = factor term l i j).
    { intros i j Hi Hj. subst b. rewrite dict_last. unfold factor. destruct (last_of term l); auto. now apply get_eye. }
    assert (P1 : prod (ds0 ++ [d]) = (prod ds0 * d)%nat) by (rewrite prod_app; unfold prod; cbn; lia).
    assert (Ka : is_matrix (np_kron acc b) (prod (ds0 ++ [d])) (prod (ds0 ++ [d]))) by (rewrite P1; now apply kron_matrix).
    specialize (IH (np_kron acc b) (ds0 ++ [d]) Ka). cbv zeta in IH. destruct IH as (I1 & I2).
    assert (EM : M = fold_left (fun h_i l => np_kron h_i (match dget (dict_of term) (fst l) with Some m => m | None => eye (snd l) (snd l) end)) (combine ls ds) (np_kron acc b)) by reflexivity.
    rewrite <- app_assoc in *. cbn [app] in *. split; [rewrite EM; exact I1|].
    intros v0 w0 v w R0 R0' Rv Rw. inversion Rv as [|x dx v' dsx Hx Rv' Ex1 Ex2]; inversion Rw as [|z dz w' dsz Hy Rw' Ez1 Ez2]; subst.
    specialize (I2 (v0 ++ [x]) (w0 ++ [z]) v' w'). rewrite <- !app_assoc in I2. cbn [app] in I2. rewrite EM, I2; auto.
    2,3: apply in_range_app; auto; repeat constructor; auto.
    rewrite !(ravel_app ds0) by auto. cbn [ravel]. replace (prod [d]) with d by (unfold prod; cbn; lia). replace (prod []) with 1%nat by reflexivity.
    rewrite !Nat.mul_1_r, !Nat.add_0_r.
    rewrite (kron_get acc b (prod ds0) (prod ds0) d d); auto using ravel_lt. rewrite Gb by auto. cbn [entry]. ring.
Qed.

Lemma sum_fold (ls : list id) (ds : list nat) : forall terms ans f,
  Forall (fun term => Forall2 (fun l d => match last_of term l with None => True | Some m => wf m /\ shape m = [d; d] end) ls ds) terms ->
  is_matrix ans (prod ds) (prod ds) ->
  (forall v w, in_range v ds -> in_range w ds -> get ans [ravel ds v; ravel ds w] = f v w) ->
  exists M, dense_sum (combine ls ds) (Some ans) terms = Ok (Some M) /\ is_matrix M (prod ds) (prod ds) /\
    forall v w, in_range v ds -> in_range w ds -> get M [ravel ds v; ravel ds w] = f v w + sumL terms (fun term => entry (factor term) ls v w).
Proof.
  induction terms as [|term terms IH]; intros ans f F Ha Hg.
  - exists ans. split; [reflexivity|]. split; auto. intros v w Rv Rw. rewrite sumL_nil, Hg by auto. ring.
  - inversion F as [|? ? F1 F2]; subst. cbn [dense_sum].
    destruct (term_fold term ls ds F1 (mkArr [1%nat; 1%nat] [r1]) [] ltac:(split; reflexivity)) as (T1 & T2). fold (dense_term (combine ls ds) term) in T1, T2. cbn [app] in T1, T2.
    destruct Ha as (Wa & Sa). destruct T1 as (Wt & St).
    rewrite (arr_add_ok K ans (dense_term (combine ls ds) term)) by (auto; congruence). cbn [bind].
    destruct (IH (build (shape ans) (fun idx => get ans idx + get (dense_term (combine ls ds) term) idx)) (fun v w => f v w + entry (factor term) ls v w) F2) as (M & EM & HM & GM).
    + split; [apply wf_build|exact Sa].
    + intros v w Rv Rw. rewrite get_build by (rewrite Sa; apply in_range2; now apply ravel_lt). rewrite Hg by auto. f_equal.
      pose proof (T2 [] [] v w ltac:(constructor) ltac:(constructor) Rv Rw) as T. cbn [app ravel] in T. etransitivity; [exact T|]. cbn. ring.
    + exists M. split; auto. split; auto. intros v w Rv Rw. rewrite GM, sumL_cons by auto. ring.
Qed.

Lemma dense_hamiltonian_ok {F} (h : heap K) R fuel A (terms : list (list (id * arr K))) :
  hangs h None R -> no_self_slot h -> oaxis (hget h (top R)) = None -> height R <= fuel -> fits A None 0 R ->
  (forall n, In n (nids R) -> oarr (hget h n) = Some (A n)) ->
  (forall l, In l (lids R) -> exists p, dget (oacc (hget h l)) 0 = Some p) ->
  Forall (suits h R A) terms -> terms <> [] ->
  exists H, dense_hamiltonian fuel h (top R) terms (@None F) = Ok (Some H) /\
    is_matrix H (prod (ldims A None 0 R)) (prod (ldims A None 0 R)) /\
    forall v w, in_range v (ldims A None 0 R) -> in_range w (ldims A None 0 R) ->
      get H [ravel (ldims A None 0 R) v; ravel (ldims A None 0 R) w] = total terms R v w.
Proof.
  intros H NS Ax Hf FA N L Su Ne. unfold dense_hamiltonian. rewrite leaves_ok by auto. cbn [bind].
  pose proof (lids_nodup _ h R None H (nids_nodup _ h R NS H)) as ND.
  rewrite (dims_ok h A R None 0) by (auto; inversion H; reflexivity). cbn [bind option_map].
  set (ds := ldims A None 0 R). destruct terms as [|term terms]; [tauto|]. clear Ne. cbn [dense_sum].
  assert (Su' : Forall (fun term => Forall2 (fun l d => match last_of term l with None => True | Some m => wf m /\ shape m = [d; d] end) (lids R) ds) (term :: terms)).
  { eapply Forall_impl; [|exact Su]. intros t (_ & X). exact X. }
  inversion Su' as [|? ? F1 F2]; subst.
  destruct (term_fold term (lids R) ds F1 (mkArr [1%nat; 1%nat] [r1]) [] ltac:(split; reflexivity)) as (T1 & T2). fold (dense_term (combine (lids R) ds) term) in T1, T2. cbn [app] in T1, T2.
  cbn [bind]. destruct (sum_fold (lids R) ds terms (dense_term (combine (lids R) ds) term) (entry (factor term) (lids R)) F2 T1) as (M & EM & HM & GM).
  { intros v w Rv Rw. pose proof (T2 [] [] v w ltac:(constructor) ltac:(constructor) Rv Rw) as T. cbn [app ravel] in T. etransitivity; [exact T|]. cbn. ring. }
  exists M. split; auto. split; auto. intros v w Rv Rw. rewrite GM by auto.
  assert (El : length (lids R) = length ds) by (clear - F1; induction F1; cbn; congruence). apply in_range_len in Rv, Rw. unfold total. rewrite sumL_cons. f_equal.
  - apply entry_asg; auto; congruence.
  - apply sumL_ext. intros t. apply entry_asg; auto; congruence.
Qed.
End Proofs.
