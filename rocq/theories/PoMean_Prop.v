(** C100: the Hamiltonian of the many-dimensional DVR between two vectors, and mean energies. *)
From Coq Require Import List Arith Bool Lia Ring ZArith.
From Verif Require Import Py Alg ListX NdArray_Model NdArray_Proof PoDvr_Model PoDvr_Spec PoDvr_Proof PoDvr_Prop PoMean_Model PoMean_Spec.
Import ListNotations.
Local Open Scope nat_scope.

Section Mean.
Context {K : StarRing}.
Add Ring Kpm : (r_theory K).
Local Open Scope star_scope.

Lemma pair_sum : forall (v w : list K), length v = length w -> sum_list (map (fun p => rmul (rconj (fst p)) (snd p)) (combine v w)) = dotc (length v) v w.
Proof.
  unfold dotc. induction v as [|x v IH]; intros [|y w] L; try discriminate; [reflexivity|]. cbn [combine map sum_list length fst snd]. rewrite IH by (injection L; auto). unfold sumn. cbn [seq]. rewrite sumL_cons, <- seq_shift. unfold sumL. rewrite map_map. reflexivity.
Qed.
Lemma upd_ins i k m (x : list nat) : i <= length x -> upd i k (ins i m x) = ins i k x.
Proof. intros L. rewrite upd_eq by (rewrite length_ins; lia). rewrite del_ins by auto. reflexivity. Qed.
(** one axis, between two functions *)
Lemma axis_form sh i H (f g : list nat -> K) : i < length sh ->
  sumL (indices sh) (fun x => rconj (f x) * on_axis i (nth i sh 0%nat) H g x) =
  sumL (indices (del i sh)) (fun x => sumn (nth i sh 0%nat) (fun m => sumn (nth i sh 0%nat) (fun k => rconj (f (ins i m x)) * (H m k * g (ins i k x))))).
Proof.
  intros Hi. rewrite (sum_indices_del K i sh) by auto. unfold sumn at 1. rewrite sumL_swap. apply sum_indices_ext. intros x R. apply sumL_ext. intros m.
  assert (Lx : i <= length x) by (rewrite (in_range_len_eq _ _ R), length_del; lia).
  unfold on_axis. rewrite <- sumn_scal_l. apply sumL_ext. intros k. rewrite nth_ins_eq, upd_ins by auto. reflexivity.
Qed.
Lemma axis_adjoint sh i H (f g : list nat -> K) : i < length sh -> hermitian (nth i sh 0%nat) H ->
  sumL (indices sh) (fun x => rconj (f x) * on_axis i (nth i sh 0%nat) H g x) = rconj (sumL (indices sh) (fun x => rconj (g x) * on_axis i (nth i sh 0%nat) H f x)).
Proof.
  intros Hi Hh. rewrite !axis_form by auto. rewrite rconj_sumL. apply sumL_ext. intros x. rewrite rconj_sumn. rewrite sumn_swap. apply sumn_ext. intros m Hm. rewrite rconj_sumn. apply sumn_ext. intros k Hk.
  rewrite (Hh k m Hk Hm), !rconj_mul, rconj_invol. ring.
Qed.

Definition real_diagonal (d : option (list K)) : Prop := forall l k, d = Some l -> rconj (nth k l 0) = nth k l 0.
Section Fixed.
Variables (hs : list (@op1 K)) (Hs : nat -> nat -> nat -> K) (d : option (list K)).
Notation sizes := (map fst hs).
Hypothesis Hn : Forall (fun h => fst h <> 0%nat) hs.
Hypothesis Ht : equal_tail sizes.
Hypothesis Ha : forall i h, nth_error hs i = Some h -> acts (fst h) (fst h) (Hs i) (snd h).
Hypothesis Hd : forall l, d = Some l -> length l = prod sizes.

Lemma form_sum u v w : length v = prod sizes -> po_matvec hs d v = Ok w ->
  length w = prod sizes /\ dotc (prod sizes) u w = sumn (length hs) (fun i => sumL (indices sizes) (fun x => rconj (nth (ravel sizes x) u 0) * on_axis i (nth i sizes 0%nat) (Hs i) (fun x => nth (ravel sizes x) v 0) x)) +
    match d with None => 0 | Some l => sumn (prod sizes) (fun k => rconj (nth k u 0) * (nth k l 0 * nth k v 0)) end.
Proof.
  intros L E. destruct (matvec_ok hs Hs d v Hn Ht L Ha) as (w' & E' & Lw & V); [intros l El; rewrite L; auto|]. rewrite E in E'. injection E' as <-. split; [exact Lw|].
  unfold dotc. rewrite sumn_ravel_gen. rewrite (sum_indices_ext K sizes _ (fun x => sumn (length hs) (fun i => rconj (nth (ravel sizes x) u 0) * on_axis i (nth i sizes 0%nat) (Hs i) (fun x => nth (ravel sizes x) v 0) x) + match d with None => 0 | Some l => rconj (nth (ravel sizes x) u 0) * (nth (ravel sizes x) l 0 * nth (ravel sizes x) v 0) end)).
  - rewrite sumL_add. unfold sumn at 1. rewrite sumL_swap. f_equal. destruct d as [l|]; [rewrite sumn_ravel_gen; reflexivity|apply sumL_zero].
  - intros x R. rewrite (V x R). rewrite sumn_scal_l. destruct d; ring.
Qed.
(** Between any two vectors the Hamiltonian stands as well on one side as on the other, if the
    matrices of the axes are Hermitian and the coupling is real: [_rmatvec], which is [_matvec],
    is then the adjoint. *)
Theorem C100_adjoint u v : length u = prod sizes -> length v = prod sizes -> (forall i, (i < length hs)%nat -> hermitian (nth i sizes 0%nat) (Hs i)) -> real_diagonal d ->
  exists wu wv, po_matvec hs d u = Ok wu /\ po_matvec hs d v = Ok wv /\ dotc (prod sizes) u wv = rconj (dotc (prod sizes) v wu).
Proof.
  intros Lu Lv Hh Hr. destruct (matvec_ok hs Hs d u Hn Ht Lu Ha) as (wu & Eu & _); [intros l El; rewrite Lu; auto|]. destruct (matvec_ok hs Hs d v Hn Ht Lv Ha) as (wv & Ev & _); [intros l El; rewrite Lv; auto|].
  exists wu, wv. split; [exact Eu|]. split; [exact Ev|]. rewrite (proj2 (form_sum u v wv Lv Ev)), (proj2 (form_sum v u wu Lu Eu)). rewrite rconj_add, rconj_sumn. f_equal.
  - apply sumn_ext. intros i Hi. apply axis_adjoint; [rewrite map_length; exact Hi|auto].
  - destruct d as [l|] eqn:El; [|symmetry; apply rconj_0]. rewrite rconj_sumn. apply sumn_ext. intros k _. rewrite !rconj_mul, rconj_invol, (Hr l k eq_refl). ring.
Qed.
Lemma energy_dotc v w : length v = prod sizes -> po_matvec hs d v = Ok w -> po_energy (Some hs, d) v = Ok (dotc (prod sizes) v w).
Proof. intros L E. unfold po_energy. cbn [fst snd]. rewrite E. cbn [bind]. rewrite pair_sum by (rewrite L; symmetry; apply (form_sum v v w L E)). rewrite L. reflexivity. Qed.
(** So the mean energy is its own conjugate. *)
Theorem C100_real v : length v = prod sizes -> (forall i, (i < length hs)%nat -> hermitian (nth i sizes 0%nat) (Hs i)) -> real_diagonal d ->
  exists e, po_energy (Some hs, d) v = Ok e /\ rconj e = e.
Proof. intros L Hh Hr. destruct (C100_adjoint v v L L Hh Hr) as (w & w' & E & E' & Q). rewrite E in E'. injection E' as <-. exists (dotc (prod sizes) v w). split; [apply energy_dotc; auto|symmetry; exact Q]. Qed.
(** The mean energy of an eigenvector is the eigenvalue times its norm squared. *)
Theorem C100_eigenvector v e : length v = prod sizes -> po_matvec hs d v = Ok (map (rmul e) v) -> po_energy (Some hs, d) v = Ok (e * dotc (prod sizes) v v).
Proof.
  intros L E. rewrite (energy_dotc v _ L E). f_equal. unfold dotc. rewrite <- sumn_scal_l. apply sumn_ext. intros i Hi. rewrite (nth_indep (map (rmul e) v) 0 (e * 0)) by (rewrite map_length, L; auto). rewrite map_nth. ring.
Qed.

(** ** Products *)
Lemma product_ins : forall i (vs : list (list K)) (x : list nat) m, i < length vs -> length x = (length vs - 1)%nat -> product_at vs (ins i m x) = nth m (nth i vs []) 0 * product_at (del i vs) x.
Proof.
  induction i as [|i IH]; intros [|v vs] x m Hi L; cbn in Hi; try lia.
  - rewrite ins_0, del_0. reflexivity.
  - destruct vs as [|v2 vs]; [cbn in Hi; lia|]. destruct x as [|y x]; [cbn in L; lia|]. rewrite ins_S, del_S. change (nth y v 0 * product_at (v2 :: vs) (ins i m x) = nth m (nth i (v2 :: vs) []) 0 * (nth y v 0 * product_at (del i (v2 :: vs)) x)). rewrite IH; [|cbn in *; lia|cbn in *; lia]. ring.
Qed.
Lemma product_norm : forall sh (vs : list (list K)), length vs = length sh -> sumL (indices sh) (fun x => rconj (product_at vs x) * product_at vs x) = prodK (map (fun p => dotc (fst p) (snd p) (snd p)) (combine sh vs)).
Proof.
  induction sh as [|n sh IH]; intros [|v vs] L; try discriminate.
  - rewrite sum_indices_nil. cbn. rewrite rconj_1. ring.
  - rewrite sum_indices_cons. cbn [combine map prodK fst snd]. rewrite <- IH by (injection L; auto). unfold dotc. rewrite <- sumn_scal_r. apply sumL_ext. intros i. rewrite <- sumL_scal_l. apply sumL_ext. intros x. cbn [product_at]. rewrite rconj_mul. ring.
Qed.
Lemma combine_del {A B} : forall i (l : list A) (r : list B), combine (del i l) (del i r) = del i (combine l r).
Proof. induction i as [|i IH]; intros [|a l] [|b r]; cbn [combine]; rewrite ?del_nil, ?del_0, ?del_S; cbn [combine]; try reflexivity; try (destruct (del i l); reflexivity); try (destruct l; reflexivity). f_equal. apply IH. Qed.
(** The mean energy of a product of one vector for each axis: the mean energy of each axis times the
    squared norms of the other vectors, and the mean of the coupling. *)
Theorem C100_product_state vs v : length vs = length hs -> length v = prod sizes -> (forall x, in_range x sizes -> nth (ravel sizes x) v 0 = product_at vs x) ->
  po_energy (Some hs, d) v = Ok (sumn (length hs) (fun i => mean1 (nth i sizes 0%nat) (Hs i) (nth i vs []) * prodK (del i (map (fun p => dotc (fst p) (snd p) (snd p)) (combine sizes vs)))) +
    match d with None => 0 | Some l => sumL (indices sizes) (fun x => nth (ravel sizes x) l 0 * (rconj (product_at vs x) * product_at vs x)) end).
Proof.
  intros Lvs L P. destruct (matvec_ok hs Hs d v Hn Ht L Ha) as (w & E & _); [intros l El; rewrite L; auto|]. rewrite (energy_dotc v w L E). f_equal. rewrite (proj2 (form_sum v v w L E)). f_equal.
  - apply sumn_ext. intros i Hi. assert (LD : length (del i vs) = length (del i sizes)).
    { assert (A1 : i < length vs) by (rewrite Lvs; exact Hi). assert (A2 : i < length sizes) by (rewrite map_length; exact Hi). rewrite (length_del i vs A1), (length_del i sizes A2), map_length, Lvs. reflexivity. }
    rewrite axis_form by (rewrite map_length; exact Hi). rewrite <- (map_del (fun p : nat * list K => dotc (fst p) (snd p) (snd p)) i (combine sizes vs)), <- combine_del, <- product_norm by exact LD.
    rewrite <- sumL_scal_l. apply sum_indices_ext. intros x R. unfold mean1. rewrite <- sumn_scal_r. apply sumn_ext. intros m Hm. rewrite <- sumn_scal_r. apply sumn_ext. intros k Hk.
    assert (A1 : (i < length vs)%nat) by (rewrite Lvs; exact Hi). assert (Lx : length x = (length vs - 1)%nat) by (rewrite (in_range_len_eq _ _ R), <- LD; apply (length_del i vs A1)).
    assert (Q : forall m, m < nth i sizes 0%nat -> nth (ravel sizes (ins i m x)) v 0 = nth m (nth i vs []) 0 * product_at (del i vs) x).
    { intros m' Hm'. rewrite P; [apply product_ins; [exact A1|exact Lx]|]. rewrite <- (ins_del i 0%nat sizes) by (rewrite map_length; exact Hi). apply Forall2_ins; auto. }
    rewrite !Q by auto. rewrite rconj_mul. ring.
  - destruct d as [l|]; [|reflexivity]. rewrite sumn_ravel_gen. apply sum_indices_ext. intros x R. rewrite (P x R). ring.
Qed.
End Fixed.

(** Before [set_v_func] there is no energy; with three or more axes of unequal sizes it is refused. *)
Theorem C100_refused (hs : list (@op1 K)) Hs d v : po_energy at_first v = Raise TypeError /\
  (Forall (fun h => fst h <> 0%nat) hs -> ~ equal_tail (map fst hs) -> length v = prod (map fst hs) -> (forall i h, nth_error hs i = Some h -> acts (fst h) (fst h) (Hs i) (snd h)) -> po_energy (Some hs, d) v = Raise ValueError).
Proof. split; [reflexivity|]. intros F T L A. unfold po_energy. cbn [fst snd]. rewrite (matvec_bad hs Hs d v F T L A). reflexivity. Qed.
(** Setting the potentials again without a coupling adds the old coupling to the mean energy. *)
Theorem C100_stale_refuted {A} sizes (grids : list (list A)) (st : fields) hs hs' Hs (f : list A -> K) d0 v : map (@length A) grids = sizes -> map fst hs' = sizes ->
  Forall (fun h => fst h <> 0%nat) hs' -> equal_tail sizes -> length v = prod sizes -> (forall i h, nth_error hs' i = Some h -> acts (fst h) (fst h) (Hs i) (snd h)) ->
  exists st1 st2 e e', set_again sizes grids st hs (Some f) = Ok st1 /\ set_again sizes grids st1 hs' (None : option (list A -> K)) = Ok st2 /\ po_energy (Some hs', None) v = Ok e /\ po_energy st2 v = Ok e' /\
    e' = e + sumL (indices sizes) (fun x => f (map (fun p => nth (snd p) (fst p) d0) (combine grids x)) * (rconj (nth (ravel sizes x) v 0) * nth (ravel sizes x) v 0)).
Proof.
  intros EG ES F T L HA. destruct (diag_ok sizes grids f d0 EG) as (d & Ed & Ld & Vd). rewrite <- ES in T, L.
  assert (Hd : forall l, Some d = Some l -> length l = prod (map fst hs')) by (intros l Q; injection Q as <-; rewrite ES; exact Ld).
  destruct (matvec_ok hs' Hs None v F T L HA) as (w & E & _); [discriminate|]. destruct (matvec_ok hs' Hs (Some d) v F T L HA) as (w' & E' & _); [intros l Q; rewrite L; auto|].
  exists (Some hs, Some d), (Some hs', Some d). eexists. eexists. split; [unfold set_again, set_v_func; rewrite Ed; reflexivity|]. split; [reflexivity|].
  split; [apply (energy_dotc hs' Hs None F T HA ltac:(discriminate) v w L E)|]. split; [apply (energy_dotc hs' Hs (Some d) F T HA Hd v w' L E')|].
  rewrite (proj2 (form_sum hs' Hs None F T HA ltac:(discriminate) v v w L E)), (proj2 (form_sum hs' Hs (Some d) F T HA Hd v v w' L E')). rewrite ES.
  match goal with |- ?a + ?b = ?a' + 0 + ?c => assert (Q : b = c); [|rewrite Q; ring] end. rewrite sumn_ravel_gen. apply sum_indices_ext. intros x R. rewrite (Vd x R). ring.
Qed.
End Mean.
Print Assumptions C100_adjoint.
Print Assumptions C100_real.
Print Assumptions C100_eigenvector.
Print Assumptions C100_product_state.
Print Assumptions C100_refused.
Print Assumptions C100_stale_refuted.

(** Two axes of sizes 2 and 3 over the integers with a coupling: the energy of a product state. *)
Definition h100 (n : nat) : @op1 Z_star := (n, fun v => if length v =? n then Ok (map (fun i => Z.of_nat (i + n) * nth i v 0)%Z (seq 0 n)) else Raise ValueError).
Definition Hs100 (i j k : nat) : Z_star := if j =? k then Z.of_nat (j + (if i =? 0 then 2 else 3)) else 0%Z.
Definition v100 : list (list Z_star) := [[1; 2]; [1; 0; -1]]%Z.
Definition vec100 : list Z_star := map (product_at v100) (indices [2; 3]).
Example C100_example : (forall i h, nth_error [h100 2; h100 3] i = Some h -> acts (fst h) (fst h) (Hs100 i) (snd h)) /\ (forall i, i < 2 -> hermitian (nth i [2; 3] 0) (Hs100 i)) /\
  (forall x, in_range x [2; 3] -> nth (ravel [2; 3] x) vec100 r0 = product_at v100 x) /\
  po_energy (Some [h100 2; h100 3], Some [1; 1; 1; 1; 1; 5]%Z) vec100 = Ok (14 * 2 + 8 * 5 + 26)%Z.
Proof.
  split; [|split; [|split]].
  - intros [|[|i]] h E; cbn in E; [injection E as <-|injection E as <-|destruct i; discriminate]; intros v L; cbn [h100 fst snd] in *;
      [destruct v as [|a [|b [|c v]]]; try discriminate|destruct v as [|a [|b [|c [|e v]]]]; try discriminate];
      (eexists; split; [reflexivity|]; split; [reflexivity|]; intros j Hj; destruct j as [|[|[|j]]]; try lia);
      unfold sumn, sumL, Hs100; cbn [seq map sum_list nth Nat.eqb Nat.add]; match goal with |- @eq _ ?a ?b => change (@eq Z a b) end; cbn [rmul radd Z_star r0 Z.of_nat]; ring.
  - intros i _ j k _ _. unfold Hs100. rewrite (Nat.eqb_sym k j). destruct (Nat.eqb_spec j k) as [->|]; reflexivity.
  - intros x R. apply in_indices in R. repeat (destruct R as [<-|R]; [reflexivity|]). destruct R.
  - vm_compute. reflexivity.
Qed.
(** The coupling x y of an earlier call, in the energy after a call without coupling *)
Example C100_stale_example :
  (let! st1 := set_again [2; 3] [[0; 1]; [0; 1; 2]]%Z at_first [h100 2; h100 3] (Some (fun x => nth 0 x 0 * nth 1 x 0)%Z) in
   let! st2 := set_again [2; 3] [[0; 1]; [0; 1; 2]]%Z st1 [h100 2; h100 3] (None : option (list Z -> Z_star)) in po_energy st2 vec100)%py = Ok (68 + 8)%Z /\
  po_energy (Some [h100 2; h100 3], None) vec100 = Ok 68%Z.
Proof. split; vm_compute; reflexivity. Qed.
