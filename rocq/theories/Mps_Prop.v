(** Properties C46, C47 and C48: matrix product states. *)
From Coq Require Import Reals String Ascii List Arith Bool Lia ZArith Ring.
From Verif Require Import Py Alg Ord ListX NdArray_Model NdArray_Proof Svd_Model Svd_Spec Mps_Model Mps_Spec Dmrg_Spec Mps_Proof MpsEnv_Proof Heis_Proof Dmrg_Proof DmrgSweep_Proof.
Import ListNotations.
Local Open Scope nat_scope.
Notation length := Datatypes.length.

(** ** C48: matrix elements *)

(** [mat_element] is the sum over all pairs of configurations. *)
Theorem C48_mat_element (K : StarRing) n d1 d2 D1 Do D2 (m1 o m2 : list (arr K)) :
  chain n d1 D1 m1 -> chain_op n d1 d2 Do o -> chain n d2 D2 m2 ->
  mat_element m1 (Some o) m2 = Ok (dense_element m1 o m2).
Proof. apply mat_element_ok. Qed.
Print Assumptions C48_mat_element.

Theorem C48_overlap (K : StarRing) n d D1 D2 (m1 m2 : list (arr K)) :
  chain n d D1 m1 -> chain n d D2 m2 -> mat_element m1 None m2 = Ok (dense_overlap m1 m2).
Proof. apply mat_element_none_ok. Qed.
Print Assumptions C48_overlap.

(** Contracting from the right end gives the same number. *)
Theorem C48_from_right (K : StarRing) n d1 d2 D1 Do D2 (m1 o m2 : list (arr K)) :
  chain n d1 D1 m1 -> chain_op n d1 d2 Do o -> chain n d2 D2 m2 ->
  exists R, element_right K m1 o m2 = Ok R /\ shape R = [1; 1; 1] /\ mat_element m1 (Some o) m2 = Ok (get R [0; 0; 0]).
Proof.
  intros H1 Ho H2. destruct (element_right_ok K n d1 d2 D1 Do D2 m1 o m2 H1 Ho H2) as (R & E & S & G). exists R. split; [exact E|]. split; [exact S|].
  rewrite G. eapply mat_element_ok; eauto.
Qed.
Print Assumptions C48_from_right.

(** Merging two neighbouring sites changes neither the state nor the matrix element. *)
Theorem C48_coarse_graining (K : StarRing) n d1 d2 D1 Do D2 (l1 r1 lo ro l2 r2 : list (arr K)) A B W X A' B' :
  chain n d1 D1 (l1 ++ A :: B :: r1) -> chain_op n d1 d2 Do (lo ++ W :: X :: ro) -> chain n d2 D2 (l2 ++ A' :: B' :: r2) ->
  length lo = length l1 -> length l2 = length l1 ->
  exists C Y C', coarse_grain_mps A B = Ok C /\ coarse_grain_mpo W X = Ok Y /\ coarse_grain_mps A' B' = Ok C' /\
    (forall ss s t ts, length ss = length l1 -> s < d1 (length l1) -> t < d1 (S (length l1)) ->
       dense (l1 ++ C :: r1) (ss ++ s * d1 (S (length l1)) + t :: ts) = dense (l1 ++ A :: B :: r1) (ss ++ s :: t :: ts)) /\
    mat_element (l1 ++ C :: r1) (Some (lo ++ Y :: ro)) (l2 ++ C' :: r2) = mat_element (l1 ++ A :: B :: r1) (Some (lo ++ W :: X :: ro)) (l2 ++ A' :: B' :: r2).
Proof.
  intros H1 Ho H2 Elo El2. pose proof H1 as (_ & F1 & _). pose proof H2 as (_ & F2 & _). pose proof Ho as (_ & Fo & _).
  apply fits_app in F1 as (_ & (WA & SA) & (WB & SB) & _). apply fits_app in F2 as (_ & (WA' & SA') & (WB' & SB') & _). apply fits_op_app in Fo as (_ & (WW & SW) & (WX & SX) & _).
  destruct (coarse_mps_ok K A B _ _ _ _ _ WA WB SA SB) as (C & EC & _). destruct (coarse_mps_ok K A' B' _ _ _ _ _ WA' WB' SA' SB') as (C' & EC' & _).
  destruct (coarse_mpo_ok K W X _ _ _ _ _ _ _ WW WX SW SX) as (Y & EY & _). exists C, Y, C'. do 3 (split; auto). split.
  - intros. eapply dense_join; eauto.
  - rewrite (mat_element_ok K n d1 d2 D1 Do D2 (l1 ++ A :: B :: r1) (lo ++ W :: X :: ro) (l2 ++ A' :: B' :: r2)) by auto.
    pose proof (join_chain K n d1 D1 l1 r1 A B C (length l1) eq_refl H1 EC) as J1. pose proof (join_chain K n d2 D2 l2 r2 A' B' C' (length l1) (eq_sym El2) H2 EC') as J2.
    pose proof (join_chain_op K n d1 d2 Do lo ro W X Y (length l1) (eq_sym Elo) Ho EY) as Jo.
    rewrite (mat_element_ok K (pred n) _ _ _ _ _ _ _ _ J1 Jo J2). f_equal. eapply element_join; eauto.
Qed.
Print Assumptions C48_coarse_graining.

(** ** C46: the Heisenberg chain *)

(** The operator on [n] sites: the z coupling is [Jz * half]. *)
Theorem C46_heisenberg (K : StarRing) (half J Jz h : K) n ss ts :
  2 <= n -> length ss = n -> length ts = n -> Forall (fun s => s < 2) ss -> Forall (fun s => s < 2) ts ->
  dense_op (heisenberg half n J Jz h) ss ts = spin_chain half n (rmul J half) (rmul Jz half) h ss ts.
Proof. apply heisenberg_ok. Qed.
Print Assumptions C46_heisenberg.

(** The list is a chain with five bond values between neighbours. *)
Theorem C46_shapes (K : StarRing) (half J Jz h : K) n : 2 <= n ->
  chain_op n (fun _ => 2) (fun _ => 2) (fun x => if x =? 0 then 1 else if x =? n then 1 else 5) (heisenberg half n J Jz h).
Proof. apply heisenberg_chain. Qed.
Print Assumptions C46_shapes.

(** The documented operator has the z coupling [Jz]: with [half + half = 1] they differ. *)
Section Documented.
Variable K : StarRing.
Add Ring Krf : (r_theory K).
Local Open Scope star_scope.
Theorem C46_documented_coupling_refuted (half : K) : half + half = 1 -> (1 : K) <> 0 ->
  exists J Jz h : K, dense_op (heisenberg half 2 J Jz h) [O; O] [O; O] <> spin_chain half 2 (J * half) Jz h [O; O] [O; O].
Proof.
  intros Hh H10. exists 0, 1, 0. rewrite C46_heisenberg by auto. unfold spin_chain. cbn [Nat.sub].
  rewrite !sumn_S_l, !sumn_0. unfold at_pair, at_site, product_op, prodL, s_z, s_p, s_m, s_id. cbn. intros E. apply H10.
  assert (E' : half * half * half = half * half).
  { match type of E with ?a = ?b => assert (Ea : a = half * half * half) by ring; assert (Eb : b = half * half) by ring end. rewrite <- Ea, <- Eb. exact E. }
  assert (X : (half + half) * (half + half) * (half + half) = (half + half) * (half + half) * (1 + 1)).
  { transitivity ((1 + 1) * (1 + 1) * (1 + 1) * (half * half * half)); [ring|]. rewrite E'. ring. }
  rewrite Hh in X. transitivity (1 * 1 * (1 + 1) - 1 * 1 * 1 : K); [ring|]. rewrite <- X. ring.
Qed.
End Documented.
Print Assumptions C46_documented_coupling_refuted.

(** Fewer than two sites give the operator of two sites. *)
Theorem C46_short_chains (K : StarRing) (half J Jz h : K) n : n <= 2 ->
  heisenberg half n J Jz h = heisenberg half 2 J Jz h /\ length (heisenberg half n J Jz h) = 2.
Proof. intros H. unfold heisenberg. replace (n - 2) with 0 by lia. split; reflexivity. Qed.
Print Assumptions C46_short_chains.

(** The start states: all spins up, or up and down in turn, where an odd number loses a site. *)
Theorem C46_states (K : StarRing) n :
  chain n (fun _ => 2) (fun _ => 1) (fm_state (K := K) n false) /\
  (forall ss, length ss = n -> Forall (fun s => s < 2) ss ->
     dense (fm_state (K := K) n false) ss = if list_eq_dec Nat.eq_dec ss (repeat 0 n) then r1 else r0) /\
  (let m := 2 * Nat.div n 2 in chain m (fun _ => 2) (fun _ => 1) (fm_state (K := K) n true) /\
  forall ss, length ss = m -> Forall (fun s => s < 2) ss ->
     dense (fm_state (K := K) n true) ss = if list_eq_dec Nat.eq_dec ss (map (fun x => Nat.modulo x 2) (seq 0 m)) then r1 else r0).
Proof.
  split; [apply fm_chain|]. split; [intros ss L B; rewrite fm_dense by auto; destruct (list_eq_dec _ _ _); reflexivity|]. cbv zeta. split; [apply afm_chain|].
  intros ss L B. rewrite afm_dense by auto.
  assert (E : times (Nat.div n 2) [0; 1] = map (fun x => Nat.modulo x 2) (seq 0 (2 * Nat.div n 2))).
  { generalize (Nat.div n 2). clear. intros q. induction q as [|q IH]; [reflexivity|]. cbn [times]. rewrite IH. replace (2 * S q) with (2 + 2 * q) by lia. rewrite seq_app, map_app. cbn [seq map app Nat.add].
    change (Nat.modulo 0 2) with 0. change (Nat.modulo 1 2) with 1. do 2 f_equal. rewrite <- (seq_shift _ 1), <- (seq_shift _ 0), !map_map. apply map_ext. intros x. replace (S (S x)) with (x + 1 * 2) by lia. rewrite Nat.mod_add by lia. reflexivity. }
  rewrite E. destruct (list_eq_dec _ _ _); reflexivity.
Qed.
Print Assumptions C46_states.
Theorem C46_energy (K : StarRing) (half J Jz h : K) n : 2 <= n ->
  mat_element (fm_state n false) (Some (heisenberg half n J Jz h)) (fm_state n false)
  = Ok (rsub (sumn (n - 1) (fun _ => rmul (rmul Jz half) (rmul half half))) (sumn n (fun _ => rmul h half))).
Proof. apply fm_energy. Qed.
Print Assumptions C46_energy.

(** ** C47: the sweeps *)

(** Whatever vectors the eigensolver returns, each call of it gets the operator of its site and
    the contractions of the current matrices on both sides.  The stacks end as they started. *)
Theorem C47_dmrg1 (K : StarRing) (F : OrdRing) inj eig svd (mpo : list (arr K)) trunc n d Do D (mps : list (arr K)) sweeps :
  eig_sizes eig -> svd_shapes (F := F) svd -> 0 < trunc -> (forall x, x < n -> 0 < d x) -> chain_op n d d Do mpo ->
  1 <= n -> chain n d D mps -> (forall x, x <= n -> 0 < D x) ->
  exists w, dmrg1 inj eig svd mpo trunc mps sweeps = Ok w /\
    Forall (fun c => up_to_date1 n d Do mpo (c_site c) (c_mps c) (c_L c) (c_W c) (c_R c)) (w_log w) /\
    (exists D', chain n d D' (w_mps w)) /\ length (w_L w) = 1 /\ length (w_R w) = n /\
    map c_site (rev (w_log w)) = concat (repeat (seq 0 (n - 1) ++ rev (seq 1 (n - 1))) (Nat.div sweeps 2)).
Proof. intros. eapply dmrg1_ok; eauto. Qed.
Print Assumptions C47_dmrg1.

Theorem C47_dmrg2 (K : StarRing) (F : OrdRing) inj eig svd (mpo : list (arr K)) trunc n d Do D (mps : list (arr K)) sweeps :
  eig_sizes eig -> svd_shapes (F := F) svd -> 0 < trunc -> (forall x, x < n -> 0 < d x) -> chain_op n d d Do mpo ->
  2 <= n -> chain n d D mps -> (forall x, x <= n -> 0 < D x) ->
  exists w, dmrg2 inj eig svd mpo trunc mps sweeps = Ok w /\
    Forall (fun c => up_to_date2 n d Do mpo (c_site c) (c_mps c) (c_L c) (c_W c) (c_R c)) (w_log w) /\
    (exists D', chain n d D' (w_mps w)) /\ length (w_L w) = 1 /\ length (w_R w) = n - 1 /\
    map c_site (rev (w_log w)) = concat (repeat (seq 0 (n - 2) ++ rev (seq 1 (n - 2))) (Nat.div sweeps 2)).
Proof. intros. eapply dmrg2_ok; eauto. Qed.
Print Assumptions C47_dmrg2.

(** Two sites: the two-site sweeps do not change anything, whatever the operator. *)
Theorem C47_two_sites (K : StarRing) (F : OrdRing) inj eig svd (mpo : list (arr K)) trunc (mps : list (arr K)) sweeps :
  length mpo = 2 -> length mps = 2 -> dmrg2 (F := F) inj eig svd mpo trunc mps sweeps = Ok (mkSweep mps [one3] [one3] []).
Proof.
  intros L1 L2. unfold dmrg2, start2, down. rewrite L1. cbn [Nat.sub Nat.add seq rev contract_Rs bind].
  induction (Nat.div sweeps 2) as [|m IH]; [reflexivity|]. cbn [turns]. unfold turn2 at 1, down. rewrite L1. cbn [Nat.sub seq foldM bind w_mps]. rewrite L2. cbn [Nat.sub Nat.add seq rev foldM bind]. exact IH.
Qed.
Print Assumptions C47_two_sites.

(** The problem solved at an up-to-date site is the operator between the states obtained by
    exchanging the matrix of that site. *)
Theorem C47_one_site_problem (K : StarRing) n d Do (mpo mps : list (arr K)) s L W R A B :
  chain_op n d d Do mpo -> up_to_date1 n d Do mpo s mps L W R ->
  let y := nth 2 (shape L) 0 in let y' := nth 2 (shape R) 0 in
  wf A -> shape A = [d s; y; y'] -> wf B -> shape B = [d s; y; y'] ->
  exists v, matvec L W R A = Ok v /\ shape v = [prod [d s; y; y']] /\
  sumn (d s) (fun t => sumn y (fun j => sumn y' (fun k => rmul (get B [t; j; k]) (get v [ravel [d s; y; y'] [t; j; k]]))))
  = dense_element (upd s A mps) mpo (upd s B mps).
Proof. apply effective1. Qed.
Print Assumptions C47_one_site_problem.

Theorem C47_two_site_problem (K : StarRing) n d Do (mpo mps : list (arr K)) s L Y R A B :
  chain_op n d d Do mpo -> up_to_date2 n d Do mpo s mps L Y R ->
  let y := nth 2 (shape L) 0 in let y' := nth 2 (shape R) 0 in let dd := d s * d (S s) in
  wf A -> shape A = [dd; y; y'] -> wf B -> shape B = [dd; y; y'] ->
  let put X l := firstn s l ++ X :: skipn (S (S s)) l in
  exists v, matvec L Y R A = Ok v /\ shape v = [prod [dd; y; y']] /\
  sumn dd (fun t => sumn y (fun j => sumn y' (fun k => rmul (get B [t; j; k]) (get v [ravel [dd; y; y'] [t; j; k]]))))
  = dense_element (put A mps) (put Y mpo) (put B mps).
Proof. apply effective2. Qed.
Print Assumptions C47_two_site_problem.

(** A decomposition that is exact and not truncated leaves the state alone. *)
Section Keep.
Variable K : StarRing.
Variable F : OrdRing.
Variable inj : F -> K.
Variable svd : arr K -> arr K * list F * arr K.
Variable trunc : nat.
Definition exact_svd : Prop := forall a m n, wf a -> shape a = [m; n] -> 0 < m -> 0 < n ->
  let '(u, s, v) := svd a in factorises inj a m n u s v /\ length s <= min m n.

Theorem C47_moves_keep_state n d D (l r : list (arr K)) A B :
  exact_svd -> chain n d D (l ++ A :: B :: r) -> (forall x, x < n -> 0 < d x) -> (forall x, x <= n -> 0 < D x) -> D (S (length l)) <= trunc ->
  exists A1 B1 A2 B2, move_right inj svd A B trunc = Ok (A1, B1) /\ move_left inj svd B A trunc = Ok (B2, A2) /\
    forall ss, in_range ss (map d (seq 0 n)) ->
      dense (l ++ A1 :: B1 :: r) ss = dense (l ++ A :: B :: r) ss /\ dense (l ++ A2 :: B2 :: r) ss = dense (l ++ A :: B :: r) ss.
Proof.
  intros HS Hc Hd HD Htr. pose proof Hc as (Ln & Fm & _). rewrite app_length in Ln. cbn [length] in Ln.
  apply fits_app in Fm as (_ & (WA & SA) & (WB & SB) & _). cbn [Nat.add] in *. set (p := length l) in *.
  pose proof (Hd p ltac:(lia)) as Hp. pose proof (Hd (S p) ltac:(lia)) as Hp1. pose proof (HD p ltac:(lia)) as Dp. pose proof (HD (S p) ltac:(lia)) as Dp1. pose proof (HD (S (S p)) ltac:(lia)) as Dp2.
  set (M := mkArr [d p * D p; D (S p)] (data A)). set (M' := mkArr [D (S p); d (S p) * D (S (S p))] (data (transpose B [1; 0; 2]))).
  assert (WM : wf M) by (unfold wf in *; unfold M; cbn [data shape]; rewrite WA, SA; cbn; lia).
  assert (WM' : wf M').
  { pose proof (wf_build K (gather (shape B) [1; 0; 2]) (fun idx => get B (map (fun m => nth (index_of m [1; 0; 2]) idx 0) (seq 0 (ndim B))))) as W. unfold wf in *. unfold M'. cbn [data shape]. unfold transpose. rewrite W, shape_build, SB. cbn. lia. }
  pose proof (HS M _ _ WM eq_refl ltac:(nia) Dp1) as X. destruct (svd M) as [[U s] V] eqn:E. destruct X as [Hf Ht0]. assert (Ht : length s <= trunc) by lia.
  pose proof (HS M' _ _ WM' eq_refl Dp1 ltac:(nia)) as X. destruct (svd M') as [[U' s'] V'] eqn:E'. destruct X as [Hf' Ht0']. assert (Ht' : length s' <= trunc) by lia.
  pose proof Hf as (WU & SU & WV & SV & _). pose proof Hf' as (WU' & SU' & WV' & SV' & _).
  destruct (move_right_ok K F inj svd A B (d p) (D p) (D (S p)) (d (S p)) (D (S (S p))) trunc U s V) as (A1 & B1 & E1 & _ & _ & S1 & T1 & _); auto.
  destruct (move_left_ok K F inj svd B A (d (S p)) (D (S p)) (D (S (S p))) (d p) (D p) trunc U' s' V') as (B2 & A2 & E2 & _ & _ & S2 & T2 & _); auto.
  exists A1, B1, A2, B2. split; [exact E1|]. split; [exact E2|]. rewrite Nat.min_l in S1, T1, S2, T2 by auto. intros ss R. split.
  - apply (pair_dense K n d D l r A B A1 B1 (length s)); auto. intros. eapply (move_right_exact K F inj svd A B (d p) (D p) (D (S p)) (d (S p)) (D (S (S p))) trunc U s V); eauto.
  - apply (pair_dense K n d D l r A B A2 B2 (length s')); auto. intros. eapply (move_left_exact K F inj svd B A (d (S p)) (D (S p)) (D (S (S p))) (d p) (D p) trunc U' s' V'); eauto.
Qed.

(** Splitting the product of two sites again gives the state before. *)
Theorem C47_split_keeps_state n d D (l r : list (arr K)) A B right :
  exact_svd -> chain n d D (l ++ A :: B :: r) -> (forall x, x < n -> 0 < d x) -> (forall x, x <= n -> 0 < D x) ->
  min (d (length l) * D (length l)) (d (S (length l)) * D (S (S (length l)))) <= trunc ->
  exists C A1 B1, coarse_grain_mps A B = Ok C /\ fine_grain_mps inj svd C (d (length l)) (d (S (length l))) right trunc = Ok (A1, B1) /\
    forall ss, in_range ss (map d (seq 0 n)) -> dense (l ++ A1 :: B1 :: r) ss = dense (l ++ A :: B :: r) ss.
Proof.
  intros HS Hc Hd HD Htr. pose proof Hc as (Ln & Fm & _). rewrite app_length in Ln. cbn [length] in Ln.
  apply fits_app in Fm as (_ & (WA & SA) & (WB & SB) & _). cbn [Nat.add] in *. set (p := length l) in *.
  pose proof (Hd p ltac:(lia)) as Hp. pose proof (Hd (S p) ltac:(lia)) as Hp1. pose proof (HD p ltac:(lia)) as Dp. pose proof (HD (S p) ltac:(lia)) as Dp1. pose proof (HD (S (S p)) ltac:(lia)) as Dp2.
  destruct (coarse_mps_ok K A B _ _ _ _ _ WA WB SA SB) as (C & EC & WC & SC & GC).
  set (M := mkArr [d p * D p; d (S p) * D (S (S p))] (data (transpose (mkArr [d p; d (S p); D p; D (S (S p))] (data C)) [0; 2; 1; 3]))).
  assert (WM : wf M).
  { assert (W : wf (transpose (mkArr [d p; d (S p); D p; D (S (S p))] (data C)) [0; 2; 1; 3])) by apply wf_build. unfold wf in *. unfold M. cbn [data shape]. rewrite W. unfold transpose. rewrite shape_build. cbn. lia. }
  pose proof (HS M _ _ WM eq_refl ltac:(nia) ltac:(nia)) as X. destruct (svd M) as [[U s] V] eqn:E. destruct X as [Hf Ht0]. assert (Ht : length s <= trunc) by lia. pose proof Hf as (WU & SU & WV & SV & _).
  destruct (fine_ok K F inj svd C (d p) (d (S p)) (D p) (D (S (S p))) right trunc U s V) as (A1 & B1 & E1 & _ & _ & S1 & T1 & _); auto.
  exists C, A1, B1. split; [exact EC|]. split; [exact E1|]. intros ss R.
  assert (Em : (if trunc =? 0 then length s else min (length s) trunc) = length s) by (destruct (Nat.eqb_spec trunc 0); lia).
  try rewrite Em in S1, T1. apply (pair_dense K n d D l r A B A1 B1 (length s)); auto.
  intros s0 t i k H1 H2 H3 H4. rewrite (fine_exact K F inj svd C (d p) (d (S p)) (D p) (D (S (S p))) right trunc U s V A1 B1); auto.
Qed.
End Keep.
Print Assumptions C47_moves_keep_state.
Print Assumptions C47_split_keeps_state.

(** ** Examples: three sites with two states and bonds 1, 2, 2, 1, integers *)
Definition ex_d (x : nat) : nat := 2.
Definition ex_D (x : nat) : nat := nth x [1; 2; 2; 1] 1.
Definition ex_mps : list (arr Z_star) :=
  [mkArr (K := Z_star) [2; 1; 2] [1; 2; 3; -1]%Z; mkArr (K := Z_star) [2; 2; 2] [1; 0; 2; 1; -1; 3; 1; 1]%Z; mkArr (K := Z_star) [2; 2; 1] [1; 2; -2; 5]%Z].
Definition ex_mpo : list (arr Z_star) := heisenberg (K := Z_star) 3%Z 3 2%Z 5%Z 7%Z.
Lemma ex_mps_chain : chain 3 ex_d ex_D ex_mps.
Proof. repeat split. Qed.
Lemma ex_mpo_chain : chain_op 3 ex_d ex_d (fun x => nth x [1; 5; 5; 1] 1) ex_mpo.
Proof. repeat split. Qed.
Example C48_mat_element_ex :
  mat_element ex_mps (Some ex_mpo) ex_mps = Ok (dense_element ex_mps ex_mpo ex_mps) /\ (dense_element ex_mps ex_mpo ex_mps <> 0)%Z /\
  mat_element ex_mps None ex_mps = Ok (dense_overlap ex_mps ex_mps).
Proof.
  split; [eapply C48_mat_element; [exact ex_mps_chain|exact ex_mpo_chain|exact ex_mps_chain]|]. split; [vm_compute; discriminate|].
  eapply C48_overlap; exact ex_mps_chain.
Qed.
Example C48_from_right_ex : exists R, element_right Z_star ex_mps ex_mpo ex_mps = Ok R /\ mat_element ex_mps (Some ex_mpo) ex_mps = Ok (get R [0; 0; 0]).
Proof. destruct (C48_from_right Z_star 3 ex_d ex_d ex_D (fun x => nth x [1; 5; 5; 1] 1) ex_D ex_mps ex_mpo ex_mps ex_mps_chain ex_mpo_chain ex_mps_chain) as (R & E & _ & M). exists R. auto. Qed.
Example C48_coarse_graining_ex : match ex_mps, ex_mpo with
  | [A; B; C], [W; X; Y] => match coarse_grain_mps A B, coarse_grain_mpo W X with
     | Ok AB, Ok WX => mat_element [AB; C] (Some [WX; Y]) [AB; C] = mat_element ex_mps (Some ex_mpo) ex_mps /\ shape AB = [4; 1; 2]
     | _, _ => False end
  | _, _ => False end.
Proof. vm_compute. split; reflexivity. Qed.
Example C48_coarse_graining_ex2 : forall A B C W X Y, ex_mps = [A; B; C] -> ex_mpo = [W; X; Y] ->
  exists AB WX AB', coarse_grain_mps A B = Ok AB /\ coarse_grain_mpo W X = Ok WX /\ coarse_grain_mps A B = Ok AB' /\ mat_element [AB; C] (Some [WX; Y]) [AB'; C] = mat_element ex_mps (Some ex_mpo) ex_mps.
Proof.
  intros A B C W X Y E1 E2. pose proof ex_mps_chain as H1. pose proof ex_mpo_chain as H2. rewrite E1 in *. rewrite E2 in *.
  destruct (C48_coarse_graining Z_star 3 ex_d ex_d ex_D (fun x => nth x [1; 5; 5; 1] 1) ex_D [] [C] [] [Y] [] [C] A B W X A B) as (AB & WX & AB' & Ea & Eb & Ec & _ & M); auto.
  exists AB, WX, AB'. auto.
Qed.

Example C46_heisenberg_ex : dense_op ex_mpo [0; 1; 1] [0; 1; 1] = spin_chain (K := Z_star) 3%Z 3 (2 * 3)%Z (5 * 3)%Z 7%Z [0; 1; 1] [0; 1; 1] /\
  dense_op ex_mpo [0; 1; 1] [0; 1; 1] = 21%Z /\ dense_op ex_mpo [0; 1; 1] [1; 0; 1] = 6%Z.
Proof. split; [apply C46_heisenberg; auto; repeat constructor|vm_compute; auto]. Qed.
Example C46_shapes_ex : map (@shape Z_star) ex_mpo = [[1; 5; 2; 2]; [5; 5; 2; 2]; [5; 1; 2; 2]].
Proof. reflexivity. Qed.
Lemma ex_half : radd (s := R_star) (/ 2)%R (/ 2)%R = r1.
Proof. cbn. field. Qed.
Example C46_documented_coupling_refuted_ex :
  exists J Jz h : R_star, dense_op (heisenberg (K := R_star) (/ 2)%R 2 J Jz h) [0; 0] [0; 0] <> spin_chain (K := R_star) (/ 2)%R 2 (rmul (s := R_star) J (/ 2)%R) Jz h [0; 0] [0; 0].
Proof. apply C46_documented_coupling_refuted; [exact ex_half|exact R1_neq_R0]. Qed.
Example C46_short_chains_ex : length (heisenberg (K := Z_star) 3%Z 1 2%Z 5%Z 7%Z) = 2.
Proof. apply C46_short_chains. lia. Qed.
Example C46_states_ex : length (fm_state (K := Z_star) 5 true) = 4 /\ dense (fm_state (K := Z_star) 5 true) [0; 1; 0; 1] = 1%Z /\ dense (fm_state (K := Z_star) 5 true) [0; 1; 1; 0] = 0%Z.
Proof. vm_compute. auto. Qed.
Example C46_energy_ex : mat_element (fm_state 3 false) (Some ex_mpo) (fm_state 3 false) = Ok (2 * (5 * 27) - 3 * (7 * 3))%Z.
Proof. unfold ex_mpo. rewrite C46_energy by lia. vm_compute. reflexivity. Qed.

(** An eigensolver that returns 1, 2, 3, ... and a decomposition that is exact. *)
Definition ex_inj (x : Z_ord) : Z_star := x.
Definition ex_eig (L W R A : arr Z_star) : arr Z_star :=
  let n := prod [nth 3 (shape W) O; nth 2 (shape L) O; nth 2 (shape R) O] in mkArr (K := Z_star) [n] (map (fun x => Z.of_nat (S x)) (seq 0 n)).
Definition ex_svd (a : arr Z_star) : arr Z_star * list Z_ord * arr Z_star :=
  let m := nth 0 (shape a) 0 in let n := nth 1 (shape a) 0 in
  if m <=? n then (eye m m, repeat 1%Z m, a) else (a, repeat 1%Z n, eye n n).
Lemma ex_eig_ok : eig_sizes ex_eig.
Proof. intros L W R A. unfold ex_eig. cbn [data]. rewrite map_length, seq_length. reflexivity. Qed.
Lemma ex_svd_factorises a m n : wf a -> shape a = [m; n] -> let '(u, s, v) := ex_svd a in factorises ex_inj a m n u s v /\ length s = min m n.
Proof.
  intros W E. unfold ex_svd. rewrite E. cbn [nth].
  assert (N : forall k i, nth i (repeat 1%Z k) 1%Z = 1%Z) by (intros k; induction k; intros [|i]; cbn; auto).
  destruct (Nat.leb_spec m n).
  - split; [|rewrite repeat_length; lia]. unfold factorises. rewrite repeat_length. split; [apply wf_build|]. split; [reflexivity|]. split; [auto|]. split; [auto|]. intros i j Hi Hj.
    rewrite (sumn_single Z_star m i); auto.
    + rewrite (get_eye Z_star) by auto. unfold delta. rewrite Nat.eqb_refl. rewrite (nth_indep _ _ 1%Z) by (rewrite repeat_length; auto). rewrite N. cbn. destruct (get a [i; j]); reflexivity.
    + intros p Hp Ne. rewrite (get_eye Z_star) by auto. unfold delta. rewrite (proj2 (Nat.eqb_neq _ _)) by auto. reflexivity.
  - split; [|rewrite repeat_length; lia]. unfold factorises. rewrite repeat_length. split; [auto|]. split; [auto|]. split; [apply wf_build|]. split; [reflexivity|]. intros i j Hi Hj.
    rewrite (sumn_single Z_star n j); auto.
    + rewrite (get_eye Z_star) by auto. unfold delta. rewrite Nat.eqb_refl. rewrite (nth_indep _ _ 1%Z) by (rewrite repeat_length; auto). rewrite N. unfold ex_inj. symmetry. etransitivity; [apply Z.mul_1_r|apply Z.mul_1_r].
    + intros p Hp Ne. rewrite (get_eye Z_star) by auto. unfold delta. rewrite (proj2 (Nat.eqb_neq _ _)) by auto. apply Z.mul_0_r.
Qed.
Lemma ex_svd_shapes : svd_shapes ex_svd.
Proof.
  intros a m n W E Hm Hn. pose proof (ex_svd_factorises a m n W E) as H. destruct (ex_svd a) as [[u s] v]. destruct H as ((W1 & S1 & W2 & S2 & _) & L). split; [lia|]. auto.
Qed.
Lemma ex_pos x : x <= 3 -> 0 < ex_D x.
Proof. intros. do 4 (destruct x as [|x]; [cbn; lia|]). lia. Qed.
Lemma ex_changes : match dmrg1 (F := Z_ord) ex_inj ex_eig ex_svd ex_mpo 2 ex_mps 4 with Ok w => w_mps w <> ex_mps | Raise _ => False end.
Proof. vm_compute. discriminate. Qed.
Example C47_dmrg1_ex : exists w, dmrg1 ex_inj ex_eig ex_svd ex_mpo 2 ex_mps 4 = Ok w /\
    Forall (fun c => up_to_date1 3 ex_d (fun x => nth x [1; 5; 5; 1] 1) ex_mpo (c_site c) (c_mps c) (c_L c) (c_W c) (c_R c)) (w_log w) /\
    map c_site (rev (w_log w)) = [0; 1; 2; 1; 0; 1; 2; 1] /\ w_mps w <> ex_mps.
Proof.
  destruct (C47_dmrg1 Z_star Z_ord ex_inj ex_eig ex_svd ex_mpo 2 3 ex_d (fun x => nth x [1; 5; 5; 1] 1) ex_D ex_mps 4) as (w & E & G & _ & _ & _ & O);
    [exact ex_eig_ok|exact ex_svd_shapes|lia|intros; unfold ex_d; lia|exact ex_mpo_chain|lia|exact ex_mps_chain|exact ex_pos|].
  exists w. split; [exact E|]. split; [exact G|]. split; [rewrite O; reflexivity|].
  pose proof ex_changes as X. rewrite E in X. exact X.
Qed.
Example C47_dmrg2_ex : exists w, dmrg2 ex_inj ex_eig ex_svd ex_mpo 2 ex_mps 4 = Ok w /\
    Forall (fun c => up_to_date2 3 ex_d (fun x => nth x [1; 5; 5; 1] 1) ex_mpo (c_site c) (c_mps c) (c_L c) (c_W c) (c_R c)) (w_log w) /\
    map c_site (rev (w_log w)) = [0; 1; 0; 1].
Proof.
  destruct (C47_dmrg2 Z_star Z_ord ex_inj ex_eig ex_svd ex_mpo 2 3 ex_d (fun x => nth x [1; 5; 5; 1] 1) ex_D ex_mps 4) as (w & E & G & _ & _ & _ & O);
    [exact ex_eig_ok|exact ex_svd_shapes|lia|intros; unfold ex_d; lia|exact ex_mpo_chain|lia|exact ex_mps_chain|exact ex_pos|].
  exists w. split; [exact E|]. split; [exact G|]. rewrite O; reflexivity.
Qed.
Example C47_two_sites_ex : dmrg2 (F := Z_ord) ex_inj ex_eig ex_svd (firstn 2 ex_mpo) 2 (firstn 2 ex_mps) 4 = Ok (mkSweep (firstn 2 ex_mps) [one3] [one3] []).
Proof. apply C47_two_sites; reflexivity. Qed.
Example C47_one_site_problem_ex : exists w, dmrg1 ex_inj ex_eig ex_svd ex_mpo 2 ex_mps 4 = Ok w /\ length (w_log w) = 8 /\
  forall c, In c (w_log w) -> let y := nth 2 (shape (c_L c)) 0 in let y' := nth 2 (shape (c_R c)) 0 in
  let A := build (K := Z_star) [2; y; y'] (fun l => Z.of_nat (ravel [3; 3; 3] l)) in
  exists v, matvec (c_L c) (c_W c) (c_R c) A = Ok v /\
    sumn 2 (fun t => sumn y (fun j => sumn y' (fun k => rmul (get A [t; j; k]) (get v [ravel [2; y; y'] [t; j; k]])))) = dense_element (upd (c_site c) A (c_mps c)) ex_mpo (upd (c_site c) A (c_mps c)).
Proof.
  destruct C47_dmrg1_ex as (w & E & G & O & _). exists w. split; [exact E|]. split; [apply (f_equal (@length nat)) in O; rewrite map_length, rev_length in O; exact O|].
  intros c Hc y y' A. rewrite Forall_forall in G. specialize (G c Hc).
  destruct (C47_one_site_problem Z_star 3 ex_d (fun x => nth x [1; 5; 5; 1] 1) ex_mpo (c_mps c) (c_site c) (c_L c) (c_W c) (c_R c) A A ex_mpo_chain G) as (v & Ev & _ & S); try reflexivity; try apply wf_build.
  exists v. split; [exact Ev|exact S].
Qed.
Example C47_two_site_problem_ex : exists w, dmrg2 ex_inj ex_eig ex_svd ex_mpo 2 ex_mps 4 = Ok w /\ length (w_log w) = 4 /\
  forall c, In c (w_log w) -> let y := nth 2 (shape (c_L c)) 0 in let y' := nth 2 (shape (c_R c)) 0 in
  let A := build (K := Z_star) [4; y; y'] (fun l => Z.of_nat (ravel [3; 3; 3] l)) in
  let put (X : arr Z_star) l := firstn (c_site c) l ++ X :: skipn (S (S (c_site c))) l in
  exists v, matvec (c_L c) (c_W c) (c_R c) A = Ok v /\
    sumn 4 (fun t => sumn y (fun j => sumn y' (fun k => rmul (get A [t; j; k]) (get v [ravel [4; y; y'] [t; j; k]])))) = dense_element (put A (c_mps c)) (put (c_W c) ex_mpo) (put A (c_mps c)).
Proof.
  destruct C47_dmrg2_ex as (w & E & G & O). exists w. split; [exact E|]. split; [apply (f_equal (@length nat)) in O; rewrite map_length, rev_length in O; exact O|].
  intros c Hc y y' A put. rewrite Forall_forall in G. specialize (G c Hc).
  destruct (C47_two_site_problem Z_star 3 ex_d (fun x => nth x [1; 5; 5; 1] 1) ex_mpo (c_mps c) (c_site c) (c_L c) (c_W c) (c_R c) A A ex_mpo_chain G) as (v & Ev & _ & S); try reflexivity; try apply wf_build.
  exists v. split; [exact Ev|exact S].
Qed.
Lemma ex_svd_exact : exact_svd Z_star Z_ord ex_inj ex_svd.
Proof. intros a m n W E Hm Hn. pose proof (ex_svd_factorises a m n W E) as H. destruct (ex_svd a) as [[u s] v]. destruct H as (H & L). split; [exact H|lia]. Qed.
Example C47_moves_keep_state_ex : match ex_mps with
  | [A; B; C] => (exists A1 B1 A2 B2, move_right (F := Z_ord) ex_inj ex_svd A B 2 = Ok (A1, B1) /\ move_left (F := Z_ord) ex_inj ex_svd B A 2 = Ok (B2, A2) /\
      forall ss, in_range ss [2; 2; 2] -> dense [A1; B1; C] ss = dense ex_mps ss /\ dense [A2; B2; C] ss = dense ex_mps ss) /\
      match move_right (F := Z_ord) ex_inj ex_svd A B 2 with Ok (A1, _) => A1 <> A | Raise _ => False end
  | _ => False end.
Proof.
  cbn [ex_mps]. split; [|vm_compute; discriminate].
  destruct (C47_moves_keep_state Z_star Z_ord ex_inj ex_svd 2 3 ex_d ex_D [] (skipn 2 ex_mps) (nth 0 ex_mps one3) (nth 1 ex_mps one3) ex_svd_exact ex_mps_chain) as (A1 & B1 & A2 & B2 & E1 & E2 & H);
    [intros; unfold ex_d; lia|exact ex_pos|cbn; lia|]. exists A1, B1, A2, B2. split; [exact E1|]. split; [exact E2|]. exact H.
Qed.
Example C47_split_keeps_state_ex : match ex_mps with
  | [A; B; C] => exists AB A1 B1, coarse_grain_mps A B = Ok AB /\ fine_grain_mps (F := Z_ord) ex_inj ex_svd AB 2 2 true 2 = Ok (A1, B1) /\
      forall ss, in_range ss [2; 2; 2] -> dense [A1; B1; C] ss = dense ex_mps ss
  | _ => False end.
Proof.
  cbn [ex_mps].
  destruct (C47_split_keeps_state Z_star Z_ord ex_inj ex_svd 2 3 ex_d ex_D [] (skipn 2 ex_mps) (nth 0 ex_mps one3) (nth 1 ex_mps one3) true ex_svd_exact ex_mps_chain) as (AB & A1 & B1 & E1 & E2 & H);
    [intros; unfold ex_d; lia|exact ex_pos|cbn; lia|]. exists AB, A1, B1. split; [exact E1|]. split; [exact E2|]. exact H.
Qed.
