(** Proofs about Start_Model.v. *)
From Coq Require Import List Arith ZArith Bool Lia Ring Reals Lra.
From Verif Require Import Py Alg ListX NdArray_Model NdArray_Proof Contract_Model Cplx PoDvr_Model PoDvr_Spec PoDvr_Proof Mctdh_Model Mctdh_Spec Kron_Proof Mctdh_Proof
  Start_Model Start_Spec.
From Verif Require Dvr_Model Dvr_Proof.
From Verif Require Import Mode_Proof.
Import ListNotations.
Local Open Scope nat_scope.
Local Open Scope list_scope.
Add Ring Cr : (r_theory C_star).
Notation noarr := (mkArr [] [] : carr).

(** ** One dimension *)
Lemma rows_length (a : carr) n m : shape a = [n; m] -> length (rows a) = n /\ Forall (fun r => length r = m) (rows a).
Proof.
  intros E. unfold rows. rewrite E. cbn [nth]. split; [now rewrite map_length, seq_length|]. apply Forall_forall. intros r Hr. apply in_map_iff in Hr. destruct Hr as (i & <- & _).
  now rewrite map_length, seq_length.
Qed.
Lemma nth_rows (a : carr) n m i j : shape a = [n; m] -> i < n -> j < m -> nth j (nth i (rows a) []) r0 = get a [i; j].
Proof.
  intros E Hi Hj. unfold rows. rewrite E. cbn [nth]. rewrite (nth_indep _ [] ((fun i => map (fun j => get a [i; j]) (seq 0 m)) 0)) by (rewrite map_length, seq_length; auto).
  rewrite (map_nth (fun i => map (fun j => get a [i; j]) (seq 0 m)) (seq 0 n) 0 i). rewrite seq_nth by auto. cbn [plus].
  rewrite (nth_indep _ r0 ((fun j => get a [i; j]) 0)) by (rewrite map_length, seq_length; auto). rewrite (map_nth (fun j => get a [i; j]) (seq 0 m) 0 j). now rewrite seq_nth by auto.
Qed.
Lemma get_rows (rs : list (list C_star)) n k i j : length rs = k -> Forall (fun r => length r = n) rs -> j < n ->
  get (mkArr [k; n] (concat rs)) [i; j] = nth j (nth i rs []) r0.
Proof. intros L F Hj. unfold get. cbn [shape data ravel prod fold_right]. rewrite Nat.mul_1_r, Nat.mul_1_r, Nat.add_0_r. now apply nth_concat. Qed.
Lemma concat_length (rs : list (list C_star)) n : Forall (fun r => length r = n) rs -> length (concat rs) = length rs * n.
Proof. intros F. induction F as [|r rs E F IH]; [reflexivity|]. cbn [concat length Nat.mul]. rewrite app_length, IH, E. reflexivity. Qed.

Definition sign (z : C_star) : C_star := if Rle_dec 0 (fst z) then r1 else ropp r1.
Lemma upright_ok v : v <> [] -> exists w, upright v = Ok w /\ length w = length v /\ (forall i, nth i w r0 = rmul (sign (hd r0 v)) (nth i v r0)) /\ (0 <= fst (nth 0 w r0))%R.
Proof.
  destruct v as [|x v]; [congruence|]. intros _. unfold upright, sign. cbn [hd]. destruct (Rle_dec 0 (fst x)) as [P|P].
  - exists (x :: v). repeat split; auto. intros i. ring.
  - exists (map ropp (x :: v)). repeat split; [apply map_length| |cbn; lra].
    intros i. destruct (Nat.lt_ge_cases i (length (x :: v))) as [H|H].
    + rewrite (nth_indep (map ropp (x :: v)) r0 (ropp r0)) by now rewrite map_length. rewrite map_nth. ring.
    + rewrite !nth_overflow by (rewrite ?map_length; auto). ring.
Qed.
Lemma sign_cases z : sign z = r1 \/ sign z = ropp r1.
Proof. unfold sign. destruct (Rle_dec _ _); auto. Qed.

Section Solve.
Variable eigsh : carr -> nat -> res (list C_star * carr).
Definition same_dvr (d d' : dvr) : Prop := kin d' = kin d /\ points d' = points d /\ pot d' = pot d.
Lemma solve_ok o d h n k es V : match o with None => length (points d) - 1 | Some k => k end = k -> n <> 0 ->
  h_mat d = Ok h -> eigsh h k = Ok (es, V) -> shape V = [n; k] -> eigenvectors n k (entries h) es (entries V) ->
  exists W d', solve eigsh o d = Ok (es, W, d') /\ wf W /\ shape W = [k; n] /\ eigenvectors n k (entries h) es (fun x p => get W [p; x]) /\
    (forall p, p < k -> (0 <= fst (get W [p; 0%nat]))%R) /\ same_dvr d d' /\ h_mat d' = Ok h.
Proof.
  intros Hk Hn Eh Ee Es (Re & Or & Ev). unfold solve. rewrite Hk, Eh. cbn [bind]. rewrite Ee. cbn [bind fst snd].
  pose proof (shape_T V n k Es) as ET. destruct (rows_length (mat_T V) k n ET) as (L & F).
  destruct (mapM_rows upright (fun v w => length w = length v /\ (forall i, nth i w r0 = rmul (sign (hd r0 v)) (nth i v r0)) /\ (0 <= fst (nth 0 w r0))%R) (rows (mat_T V))) as (ws & Ew & Fw).
  { intros v Hv. destruct (upright_ok v) as (w & E1 & E2); [|exists w; auto]. rewrite Forall_forall in F. specialize (F v Hv). intros ->. cbn in F. lia. }
  rewrite Ew. cbn [bind]. rewrite Es. cbn [nth].
  assert (Lw : length ws = k). { clear - Fw L. revert L. generalize k. induction Fw; intros k' L; cbn in *; [auto|]. destruct k'; [discriminate|]. f_equal. apply IHFw. now injection L. }
  assert (Fl : Forall (fun r => length r = n) ws). { clear - Fw F. induction Fw as [|v w vs ws (E & _) Fw IH]; constructor; inversion F; subst; auto. }
  rewrite Lw. set (W := mkArr [k; n] (concat ws)).
  assert (At : forall p, p < k -> (exists s, (s = r1 \/ s = ropp r1) /\ forall x, x < n -> get W [p; x] = rmul s (get V [x; p])) /\ (0 <= fst (get W [p; 0%nat]))%R).
  { intros p Hp. assert (N : forall i, i < length (rows (mat_T V)) -> (fun v w => length w = length v /\ (forall i, nth i w r0 = rmul (sign (hd r0 v)) (nth i v r0)) /\ (0 <= fst (nth 0 w r0))%R) (nth i (rows (mat_T V)) []) (nth i ws [])).
    { clear - Fw. induction Fw; intros [|i] Hi; cbn in *; try lia; auto. apply IHFw. lia. }
    destruct (N p) as (_ & N1 & N2); [lia|]. split.
    - eexists. split; [apply sign_cases|]. intros x Hx. unfold W. rewrite (get_rows ws n k p x Lw Fl Hx). rewrite N1. f_equal. rewrite (nth_rows _ k n p x ET Hp Hx). now apply (get_T V n k).
    - unfold W. rewrite (get_rows ws n k p 0 Lw Fl) by lia. exact N2. }
  exists W. eexists. split; [reflexivity|]. split; [|split; [|split; [|split; [|split]]]].
  - unfold wf, W. cbn [data shape prod fold_right]. rewrite (concat_length ws n Fl). lia.
  - reflexivity.
  - repeat split.
    + intros x p Hx Hp. destruct (At p Hp) as ((s & [-> | ->] & E) & _); rewrite E by auto; specialize (Re x p Hx Hp); unfold entries in Re; cbn; rewrite Re; ring.
    + intros p q Hp Hq. destruct (At p Hp) as ((s & Hs & E) & _). destruct (At q Hq) as ((s' & Hs' & E') & _).
      rewrite (sumn_ext _ _ _ (fun x => rmul (rmul (rconj s) s') (rmul (rconj (entries V x p)) (entries V x q)))).
      2:{ intros x Hx. rewrite E, E' by auto. rewrite rconj_mul. unfold entries. ring. }
      rewrite sumn_scal_l, Or by auto. unfold delta. destruct (Nat.eqb_spec p q) as [->|N]; [|ring].
      assert (s' = s). { destruct (Nat.eq_dec n 0) as [|N0]; [lia|].
        destruct (At q Hq) as ((s2 & Hs2 & E2) & P2).
        assert (Cs : forall x, x < n -> get W [q; x] = r0 \/ s = s').
        { intros x Hx. pose proof (E x Hx) as A1. pose proof (E' x Hx) as A2. destruct Hs as [-> | ->], Hs' as [-> | ->]; auto; left.
          - rewrite A1 in A2 |- *. destruct (get V [x; q]) as (a, b). apply (f_equal fst) in A2 as B1. apply (f_equal snd) in A2 as B2. cbn in B1, B2 |- *. apply Ceq; cbn; lra.
          - rewrite A1 in A2 |- *. destruct (get V [x; q]) as (a, b). apply (f_equal fst) in A2 as B1. apply (f_equal snd) in A2 as B2. cbn in B1, B2 |- *. apply Ceq; cbn; lra. }
        destruct Hs as [-> | ->], Hs' as [-> | ->]; auto; exfalso.
        - pose proof (Or q q Hq Hq) as O. unfold delta in O. rewrite Nat.eqb_refl in O. rewrite sumn_zero in O; [apply (f_equal fst) in O; cbn in O; lra|].
          intros x Hx. destruct (Cs x Hx) as [Z|Z]; [|apply (f_equal fst) in Z; cbn in Z; lra]. rewrite E in Z by auto. unfold entries. replace (get V [x; q]) with (r0 : C_star); [ring|]. rewrite <- Z. ring.
        - pose proof (Or q q Hq Hq) as O. unfold delta in O. rewrite Nat.eqb_refl in O. rewrite sumn_zero in O; [apply (f_equal fst) in O; cbn in O; lra|].
          intros x Hx. destruct (Cs x Hx) as [Z|Z]; [|apply (f_equal fst) in Z; cbn in Z; lra]. rewrite E' in Z by auto. unfold entries. replace (get V [x; q]) with (r0 : C_star); [ring|]. rewrite <- Z. ring. }
      subst s'. destruct Hs as [-> | ->]; apply Ceq; cbn; ring.
    + intros x p Hx Hp. destruct (At p Hp) as ((s & Hs & E) & _). rewrite E by auto.
      rewrite (sumn_ext _ _ _ (fun y => rmul s (rmul (entries h x y) (entries V y p)))) by (intros y Hy; rewrite E by auto; unfold entries; ring).
      rewrite sumn_scal_l, Ev by auto. unfold entries. ring.
  - intros p Hp. apply At. auto.
  - repeat split.
  - reflexivity.
Qed.

(** The stored Hamiltonian is that of the present potential. *)
Definition cached (d : dvr) : Prop := match kept d with None => True | Some h => exists v, v_mat d = Ok v /\ arr_add (kin d) v = Ok h end.
Lemma cached_calls l : forall d d', cached d -> do_dvrs eigsh l d = Ok d' -> cached d' /\ kin d' = kin d /\ points d' = points d /\
  pot d' = fold_left (fun v c => match c with SetPot w => Some w | Solve _ => v end) l (pot d).
Proof.
  induction l as [|c l IH]; intros d d' C E; cbn [do_dvrs] in E; [injection E as <-; auto|].
  destruct (do_dvr eigsh c d) as [d1|] eqn:E1; [|discriminate]. cbn [bind] in E. cbn [fold_left].
  assert (X : cached d1 /\ kin d1 = kin d /\ points d1 = points d /\ pot d1 = match c with SetPot w => Some w | Solve _ => pot d end).
  { destruct c as [v|o]; cbn [do_dvr] in E1.
    - injection E1 as <-. cbn. auto.
    - unfold solve in E1. destruct (h_mat d) as [h|] eqn:Eh; [|discriminate]. cbn [bind] in E1. destruct (eigsh h _) as [ev|]; [|discriminate]. cbn [bind] in E1. destruct (mapM _ _); [|discriminate].
      cbn in E1. injection E1 as <-. cbn. repeat split; auto. unfold cached. cbn [kept]. unfold h_mat in Eh. unfold cached in C. destruct (kept d) as [h0|].
      + injection Eh as <-. destruct C as (v & Ev & Ea). exists v. auto.
      + destruct (v_mat d) as [v|] eqn:Ev; [|discriminate]. cbn in Eh. exists v. auto. }
  destruct X as (C1 & K1 & P1 & Q1). destruct (IH d1 d' C1 E) as (C2 & K2 & P2 & Q2). rewrite K1, P1 in *. rewrite Q1 in Q2. repeat split; auto.
Qed.
Lemma cached_h d : cached d -> h_mat d = bind (v_mat d) (fun v => arr_add (kin d) v).
Proof. unfold cached, h_mat. destruct (kept d) as [h|]; auto. intros (v & -> & E). cbn. auto. Qed.

(** ** All dimensions *)
Inductive prepared : list dvr -> list (nat * nat) -> list carr -> list (list C_star) -> Prop :=
| prepared_nil : prepared [] [] [] []
| prepared_cons d n m h es V dvrs sl hs ess :
    n <> 0 -> h_mat d = Ok h -> shape h = [n; n] -> eigsh h m = Ok (es, V) -> shape V = [n; m] -> eigenvectors n m (entries h) es (entries V) ->
    prepared dvrs sl hs ess -> prepared (d :: dvrs) ((n, m) :: sl) (h :: hs) (es :: ess).

(** What the columns of the matrices are. *)
Inductive states : list (nat * nat) -> list carr -> list (list C_star) -> list carr -> Prop :=
| states_nil : states [] [] [] []
| states_cons n m h es C sl hs ess Cs :
    wf C -> shape C = [n; m] -> eigenvectors n m (entries h) es (entries C) -> (forall p, p < m -> (0 <= fst (get C [0%nat; p]))%R) ->
    states sl hs ess Cs -> states ((n, m) :: sl) (h :: hs) (es :: ess) (C :: Cs).

Lemma eigen_ext n k h es (V V' : cmat) : (forall x p, x < n -> p < k -> V' x p = V x p) -> eigenvectors n k h es V -> eigenvectors n k h es V'.
Proof.
  intros E (A & B & C). repeat split.
  - intros x p Hx Hp. rewrite E by auto. auto.
  - intros p q Hp Hq. rewrite <- (B p q Hp Hq). apply sumn_ext. intros x Hx. now rewrite !E.
  - intros x p Hx Hp. rewrite E by auto. rewrite <- (C x p Hx Hp). apply sumn_ext. intros y Hy. now rewrite E.
Qed.
Lemma solve_all_ok dvrs sl hs ess : prepared dvrs sl hs ess -> exists Ws dvrs', solve_all eigsh (map snd sl) dvrs = Ok (Ws, dvrs') /\
  states sl hs ess (map mat_T Ws) /\ Forall2 (fun W s => wf W /\ shape W = [snd s; fst s]) Ws sl /\ Forall2 same_dvr dvrs dvrs' /\ Forall2 (fun d h => h_mat d = Ok h) dvrs' hs.
Proof.
  induction 1 as [|d n m h es V dvrs sl hs ess Hn Eh Sh Ee SV EV P (Ws & ds & E & S & Sw & D & H)]; [exists [], []; repeat constructor|].
  destruct (solve_ok (Some m) d h n m es V eq_refl Hn Eh Ee SV EV) as (W & d' & E1 & WW & SW & EW & PW & DW & HW).
  exists (W :: Ws), (d' :: ds). cbn [map snd solve_all]. rewrite E1. cbn [bind]. rewrite E. cbn [bind fst snd]. split; [reflexivity|].
  split; [|split; [|split]]; constructor; auto.
  - apply wf_transpose.
  - now apply (shape_T W m n).
  - apply (eigen_ext n m _ _ (fun x p => get W [p; x])); auto. intros x p Hx Hp. unfold entries. now apply (get_T W m n).
  - intros p Hp. rewrite (get_T W m n) by (auto; lia). auto.
Qed.
End Solve.

(** ** Products *)
Definition col (C : carr) : nat -> C_star := fun x => get C [x; 0].
Definition ground (sl : list (nat * nat)) (A : carr) : Prop :=
  part_ok (map snd sl) A /\ forall m, in_range m (map snd sl) -> get A m = if forallb (Nat.eqb 0) m then r1 else r0.
Lemma kron_times : forall (Cs : list carr) n k, length n = length Cs -> k = length Cs -> kron (map entries Cs) n (repeat 0 k) = times (map col Cs) n.
Proof. induction Cs as [|C Cs IH]; intros [|a n] k L ->; cbn in L; try lia; cbn [map kron repeat length times]; auto. rewrite IH by lia. reflexivity. Qed.
Lemma zeros_repeat m : forallb (Nat.eqb 0) m = true -> m = repeat 0 (length m).
Proof. induction m as [|[|x] m IH]; cbn; intros H; [auto|now rewrite IH at 1|discriminate]. Qed.
Lemma zeros_all k : forallb (Nat.eqb 0) (repeat 0 k) = true.
Proof. induction k; cbn; auto. Qed.
Lemma zeros_range (sl : list (nat * nat)) : Forall (fun s => snd s <> 0) sl -> in_range (repeat 0 (length sl)) (map snd sl).
Proof. induction 1 as [|s sl H F IH]; cbn; constructor; [lia|exact IH]. Qed.
Lemma psi_ground sl (Cs : list carr) A n : Forall (fun s => snd s <> 0) sl -> ground sl A -> length Cs = length sl -> length n = length sl ->
  psi (map entries Cs) (map snd sl) (get A) n = times (map col Cs) n.
Proof.
  intros P (_ & G) L Ln. unfold psi. rewrite (sumL_single _ (indices (map snd sl)) (repeat 0 (length sl))).
  - rewrite G.
    + rewrite zeros_all. rewrite (kron_times Cs n (length sl)) by lia. ring.
    + now apply zeros_range.
  - apply NoDup_indices.
  - apply in_indices. now apply zeros_range.
  - intros m Hm Ne. apply in_indices in Hm. rewrite G by auto. destruct (forallb (Nat.eqb 0) m) eqn:Z; [|ring]. apply zeros_repeat in Z. apply in_range_len in Hm. rewrite map_length in Hm. congruence.
Qed.

(** A function of one index that is an eigenfunction on its axis. *)
Lemma times_rest : forall (fs : list (nat -> C_star)) i x, i < length fs -> length x = length fs ->
  exists z, forall k, times fs (upd i k x) = rmul (nth i fs (fun _ => r0) k) z.
Proof.
  induction fs as [|f fs IH]; intros i [|a x] Hi L; cbn [length] in Hi, L; try lia. destruct i as [|i].
  - exists (times fs x). intros k. reflexivity.
  - destruct (IH i x) as (z & E1); try lia. exists (rmul (f a) z). intros k.
    replace (upd (S i) k (a :: x)) with (a :: upd i k x). 2:{ unfold upd. cbn [length]. replace (S i <? S (length x)) with true by (symmetry; apply Nat.ltb_lt; lia). replace (i <? length x) with true by (symmetry; apply Nat.ltb_lt; lia). reflexivity. }
    cbn [times nth]. rewrite E1. ring.
Qed.
Lemma upd_self : forall i (x : list nat), i < length x -> upd i (nth i x 0) x = x.
Proof.
  intros i x H. apply (nth_ext _ _ 0 0); [apply length_upd|]. intros j Hj. destruct (Nat.eq_dec j i) as [->|N]; [now rewrite nth_upd_eq by auto|now rewrite nth_upd_neq by auto].
Qed.
Lemma on_axis_times (fs : list (nat -> C_star)) i q (H : cmat) e x : i < length fs -> length x = length fs -> nth i x 0 < q ->
  (forall a, a < q -> sumn q (fun b => rmul (H a b) (nth i fs (fun _ => r0) b)) = rmul e (nth i fs (fun _ => r0) a)) ->
  on_axis i q H (times fs) x = rmul e (times fs x).
Proof.
  intros Hi L Hx E. destruct (times_rest fs i x Hi L) as (z & Z). unfold on_axis. rewrite (sumn_ext _ _ _ (fun k => rmul (rmul (H (nth i x 0) k) (nth i fs (fun _ => r0) k)) z)) by (intros k Hk; rewrite Z; ring).
  rewrite sumn_scal_r, E by auto. rewrite <- (upd_self i x) at 2 by lia. rewrite Z. ring.
Qed.
Definition lowest (ess : list (list C_star)) : C_star := sumL ess (fun es => nth 0 es r0).
Lemma states_len sl hs ess Cs : states sl hs ess Cs -> length hs = length sl /\ length ess = length sl /\ length Cs = length sl.
Proof. induction 1; cbn [length]; lia. Qed.
Lemma states_at sl hs ess Cs : states sl hs ess Cs -> forall i, i < length sl ->
  wf (nth i Cs noarr) /\ shape (nth i Cs noarr) = [nth i (map fst sl) 0; nth i (map snd sl) 0] /\
  eigenvectors (nth i (map fst sl) 0) (nth i (map snd sl) 0) (entries (nth i hs noarr)) (nth i ess []) (entries (nth i Cs noarr)).
Proof. induction 1; intros [|i] Hi; cbn [length nth map fst snd] in *; try lia; auto. apply IHstates. lia. Qed.
Lemma nth_map_in {X Y} (f : X -> Y) l i d d' : i < length l -> nth i (map f l) d = f (nth i l d').
Proof. intros H. rewrite (nth_indep _ d (f d')) by now rewrite map_length. apply map_nth. Qed.
Lemma sum_nth {X} (l : list X) (f : X -> C_star) d : sumL l f = sumL (seq 0 (length l)) (fun i => f (nth i l d)).
Proof. rewrite <- (sumL_map _ (fun i => nth i l d)). now rewrite map_nth_seq. Qed.
Lemma sum_eigen sl hs ess Cs x : Forall (fun s => snd s <> 0) sl -> states sl hs ess Cs -> in_range x (map fst sl) ->
  sum_on_axes (map fst sl) (map entries hs) (times (map col Cs)) x = rmul (lowest ess) (times (map col Cs) x).
Proof.
  intros P S R. destruct (states_len _ _ _ _ S) as (L1 & L2 & L3). pose proof (in_range_len _ _ R) as Lx. rewrite map_length in Lx.
  unfold sum_on_axes, lowest. rewrite (sum_nth ess _ []). rewrite <- sumL_scal_r. rewrite map_length, L2. apply sumL_ext_in. intros i Hi. apply in_seq in Hi.
  destruct (states_at _ _ _ _ S i ltac:(lia)) as (_ & _ & _ & _ & E). rewrite (nth_map_in entries hs i _ noarr) by lia.
  apply on_axis_times; rewrite ?map_length; try lia.
  - apply (in_range_nth i _ _ R). rewrite map_length; lia.
  - intros a Ha. rewrite (nth_map_in col Cs i _ noarr) by lia. unfold col. apply (E a 0 Ha). rewrite Forall_forall in P. rewrite (nth_map_in snd sl i _ (0, 0)) by lia. apply Nat.neq_0_lt_0, P, nth_In. lia.
Qed.

(** ** The terms *)
Lemma term_axis (ns : list nat) i (h : carr) (f : list nat -> C_star) x : i < length ns -> in_range x ns -> apply_term ns [(i, h)] f x = on_axis i (nth i ns 0) (entries h) f x.
Proof.
  intros Hi R. pose proof (in_range_len _ _ R) as Lx. unfold on_axis.
  set (D := map (fun _ : nat => delta : cmat) ns). assert (LD : length D = length ns) by apply map_length.
  assert (ND : forall j, j < length ns -> nth j D no_mat = delta). { intros j Hj. unfold D. rewrite (nth_indep _ no_mat ((fun _ : nat => delta : cmat) 0)) by (rewrite map_length; auto). now rewrite (map_nth (fun _ : nat => delta : cmat)). }
  rewrite (sumn_ext _ _ _ (fun k => sumL (indices ns) (fun y => rmul (rmul (entries h (nth i x 0) k) (kron D (upd i k x) y)) (f y)))).
  2:{ intros k Hk. rewrite <- (kron_delta ns (upd i k x) f) by (apply in_range_upd_same; auto). rewrite <- sumL_scal_l. apply sumL_ext. intros y. exact (Rmul_assoc (r_theory C_star) _ _ _). }
  unfold sumn. rewrite sumL_swap. unfold apply_term. apply sumL_ext_in. intros y Hy. apply in_indices in Hy. pose proof (in_range_len _ _ Hy) as Ly.
  rewrite sumL_scal_r. f_equal. fold (sumn (nth i ns 0) (fun k => rmul (entries h (nth i x 0) k) (kron D (upd i k x) y))). rewrite kron_axis by lia.
  apply (kron_ext ns ns); auto; [now rewrite map_length, seq_length|rewrite length_upd; auto|].
  intros j a b Hj Ha Hb. rewrite (nth_map_in _ _ j _ 0) by (rewrite seq_length; auto). rewrite seq_nth by auto. cbn [plus]. unfold op_at. cbn [find fst].
  destruct (Nat.eqb_spec i j) as [->|N].
  - rewrite nth_upd_eq by lia. rewrite ND by auto. rewrite comp_delta by auto. reflexivity.
  - rewrite nth_upd_neq by auto. now rewrite ND.
Qed.

(** Products of diagonal matrices. *)
Definition weight (l : list (nat * list C_star)) (j : nat) : nat -> C_star :=
  match find (fun p => fst p =? j) l with Some p => fun a => nth a (snd p) r0 | None => fun _ => r1 end.
Lemma times_upd : forall (fs : list (nat -> C_star)) i f x, i < length fs -> length x = length fs -> nth i fs (fun _ => r0) (nth i x 0) = r1 ->
  times (upd i f fs) x = rmul (f (nth i x 0)) (times fs x).
Proof.
  induction fs as [|g fs IH]; intros i f [|a x] Hi L E; cbn [length] in Hi, L; try lia. destruct i as [|i].
  - change (upd 0 f (g :: fs)) with (f :: fs). cbn [times nth] in *. rewrite E. ring.
  - replace (upd (S i) f (g :: fs)) with (g :: upd i f fs). 2:{ unfold upd. cbn [length]. replace (S i <? S (length fs)) with true by (symmetry; apply Nat.ltb_lt; lia). replace (i <? length fs) with true by (symmetry; apply Nat.ltb_lt; lia). reflexivity. }
    cbn [times nth] in *. rewrite IH by (auto; lia). ring.
Qed.
Lemma weight_none l j : ~ In j (map fst l) -> weight l j = fun _ => r1.
Proof.
  intros H. unfold weight. destruct (find (fun p => fst p =? j) l) as [p|] eqn:F; auto. apply find_some in F. destruct F as (F & E). apply Nat.eqb_eq in E. destruct H. apply in_map_iff. exists p. auto.
Qed.
Lemma times_ones : forall k s x, times (map (weight []) (seq s k)) x = r1.
Proof. induction k as [|k IH]; intros s [|a x]; cbn [seq map times]; auto. rewrite IH. unfold weight. cbn [find]. ring. Qed.
Lemma times_weights k : forall l x, NoDup (map fst l) -> Forall (fun p => fst p < k) l -> length x = k -> times (map (weight l) (seq 0 k)) x = factors l x.
Proof.
  induction l as [|(j, v) l IH]; intros x N F L; [now rewrite times_ones|]. inversion N as [|? ? Nj N']; subst. inversion F as [|? ? Fj F']; subst. cbn [fst] in *. unfold factors. cbn [fold_right fst snd]. fold (factors l x). rewrite <- IH by auto.
  transitivity (times (upd j (fun a => nth a v r0) (map (weight l) (seq 0 (length x)))) x).
  - f_equal. apply (nth_ext _ _ (fun _ => r0) (fun _ => r0)); [now rewrite length_upd, !map_length|]. intros i Hi. rewrite map_length, seq_length in Hi.
    rewrite (nth_map_in _ _ i _ 0) by (rewrite seq_length; auto). rewrite seq_nth by auto. cbn [plus]. unfold weight at 1. cbn [find fst]. destruct (Nat.eqb_spec j i) as [->|Ne].
    + rewrite nth_upd_eq by (rewrite map_length, seq_length; auto). reflexivity.
    + rewrite nth_upd_neq by auto. rewrite (nth_map_in _ _ i _ 0) by (rewrite seq_length; auto). rewrite seq_nth by auto. reflexivity.
  - rewrite times_upd; auto; rewrite ?map_length, ?seq_length; auto. rewrite (nth_map_in _ _ j _ 0) by (rewrite seq_length; auto). rewrite seq_nth by auto. cbn [plus fst] in *. now rewrite weight_none.
Qed.
Lemma kron_weights : forall k s (w : nat -> nat -> C_star) x y, length x = k -> length y = k ->
  kron (map (fun j a b => rmul (w j a) (delta a b)) (seq s k)) x y = rmul (times (map w (seq s k)) x) (kron (map (fun _ => delta) (seq s k)) x y).
Proof.
  induction k as [|k IH]; intros s w [|a x] [|b y] Lx Ly; cbn [length] in Lx, Ly; try lia; cbn [seq map kron times]; [ring|]. rewrite IH by lia. ring.
Qed.
Lemma np_diag_at (v : list C_star) a b : a < length v -> b < length v -> get (Dvr_Model.np_diag v) [a; b] = rmul (delta a b) (nth a v r0).
Proof. intros Ha Hb. exact (proj2 (proj2 (Dvr_Proof.square_diag (length v) v eq_refl)) a b Ha Hb). Qed.
Definition diagonal (p : nat * list C_star) : nat * carr := (fst p, Dvr_Model.np_diag (snd p)).
Lemma term_diagonal (ns : list nat) l (f : list nat -> C_star) x : NoDup (map fst l) -> Forall (fun p => fst p < length ns /\ length (snd p) = nth (fst p) ns 0) l -> in_range x ns ->
  apply_term ns (map diagonal l) f x = rmul (factors l x) (f x).
Proof.
  intros N F R. pose proof (in_range_len _ _ R) as Lx. unfold apply_term.
  rewrite (sumL_ext_in _ _ _ (fun y => rmul (factors l x) (rmul (kron (map (fun _ => delta) ns) x y) (f y)))).
  - rewrite sumL_scal_l. now rewrite kron_delta.
  - intros y Hy. apply in_indices in Hy. pose proof (in_range_len _ _ Hy) as Ly. rewrite <- (times_weights (length ns) l x); auto.
    2:{ eapply Forall_impl; [|exact F]. cbv beta. tauto. }
    assert (ED : kron (map (fun _ : nat => delta : cmat) (seq 0 (length ns))) x y = kron (map (fun _ : nat => delta : cmat) ns) x y).
    { f_equal. apply (nth_ext _ _ no_mat no_mat); [now rewrite !map_length, seq_length|]. intros j Hj. rewrite map_length, seq_length in Hj. rewrite (nth_map_in _ _ j _ 0) by (rewrite seq_length; auto). now rewrite (nth_map_in _ ns j _ 0). }
    transitivity (rmul (rmul (times (map (weight l) (seq 0 (length ns))) x) (kron (map (fun _ => delta) ns) x y)) (f y)); [|symmetry; exact (Rmul_assoc (r_theory C_star) _ _ _)]. f_equal.
    transitivity (rmul (times (map (weight l) (seq 0 (length ns))) x) (kron (map (fun _ => delta) (seq 0 (length ns))) x y)); [|f_equal; exact ED].
    rewrite <- kron_weights by lia. apply (kron_ext ns ns); auto; try (now rewrite map_length, seq_length).
    intros j a b Hj Ha Hb. rewrite !(nth_map_in _ (seq 0 (length ns)) j _ 0) by (rewrite seq_length; auto). rewrite seq_nth by auto. cbn [plus]. unfold op_at, weight.
    clear - F Ha Hb. induction F as [|(i, v) l (Fi & Fv) F IH]; cbn [map find diagonal fst snd]; [ring|]. destruct (Nat.eqb_spec i j) as [->|Ne]; [|exact IH].
    unfold diagonal. cbn [fst snd] in *. rewrite np_diag_at by lia. ring.
Qed.

(** What [gen_h_terms] returns. *)
Definition grid_of (dvrs : list dvr) (i : nat) : list R := points (nth i dvrs (mkDvr noarr [] None None)).
Definition values (dvrs : list dvr) (t : list (nat * (list R -> list C_star))) : list (nat * list C_star) := map (fun p => (fst p, snd p (grid_of dvrs (fst p)))) t.
Definition fits_grid (dvrs : list dvr) (ns : list nat) (t : list (nat * (list R -> list C_star))) : Prop :=
  NoDup (map fst t) /\ Forall (fun p => fst p < length ns /\ length (snd p (grid_of dvrs (fst p))) = nth (fst p) ns 0) t.
Definition own_terms (s : nat) (hs : list carr) : list cterm := map (fun p => [p]) (combine (seq s (length hs)) hs).
Definition given (extra : option (list (list (nat * (list R -> list C_star))))) := match extra with None => [] | Some l => l end.

Lemma mapM_ok {X Y} (f : X -> res Y) (g : X -> Y) l : (forall x, In x l -> f x = Ok (g x)) -> mapM f l = Ok (map g l).
Proof. induction l as [|x l IH]; intros H; cbn [mapM map]; [reflexivity|]. rewrite (H x) by (now left). cbn [bind]. rewrite IH by (intros; apply H; now right). reflexivity. Qed.
Lemma gen_own ko : forall dvrs hs s, Forall2 (fun d h => (if ko : bool then Ok (kin d) else h_mat d) = Ok h) dvrs hs ->
  mapM (fun p : nat * dvr => bind (if ko then Ok (kin (snd p)) else h_mat (snd p)) (fun h => Ok [(fst p, h)])) (combine (seq s (length dvrs)) dvrs) = Ok (own_terms s hs).
Proof.
  intros dvrs hs s F. revert s. induction F as [|d h dvrs hs E F IH]; intros s; [reflexivity|]. cbn [length seq combine mapM fst snd]. rewrite E. cbn [bind]. rewrite IH. reflexivity.
Qed.
Lemma extra_ok dvrs (ns : list nat) t : length dvrs = length ns -> fits_grid dvrs ns t -> mapM (extra_factor dvrs) t = Ok (map diagonal (values dvrs t)).
Proof.
  intros L (_ & F). unfold values. rewrite map_map. apply mapM_ok. intros p Hp. rewrite Forall_forall in F. destruct (F p Hp) as (Fp & _). unfold extra_factor, diagonal, grid_of. cbn [fst snd].
  rewrite (nth_error_nth' dvrs (mkDvr noarr [] None None)) by lia. reflexivity.
Qed.
Lemma gen_ok extra ko dvrs hs ns : Forall2 (fun d h => (if ko : bool then Ok (kin d) else h_mat d) = Ok h) dvrs hs -> length dvrs = length ns -> Forall (fits_grid dvrs ns) (given extra) ->
  gen_h_terms extra ko dvrs = Ok (own_terms 0 hs ++ map (fun t => map diagonal (values dvrs t)) (given extra)).
Proof.
  intros F L G. unfold gen_h_terms. rewrite (gen_own ko dvrs hs 0 F). cbn [bind]. destruct extra as [l|]; cbn [given] in *; [|now rewrite app_nil_r].
  rewrite (mapM_ok _ (fun t => map diagonal (values dvrs t))); [reflexivity|]. intros t Ht. rewrite Forall_forall in G. apply (extra_ok dvrs ns); auto.
Qed.
Lemma own_in s hs t : In t (own_terms s hs) -> exists i, t = [(s + i, nth i hs noarr)] /\ i < length hs.
Proof.
  unfold own_terms. revert s. induction hs as [|h hs IH]; intros s H; [destruct H|]. cbn [length seq combine map] in H. destruct H as [<-|H].
  - exists 0. rewrite Nat.add_0_r. cbn [nth length]. split; [reflexivity|lia].
  - destruct (IH (S s) H) as (i & -> & Hi). exists (S i). cbn [nth length]. split; [now rewrite Nat.add_succ_r|lia].
Qed.
Lemma own_sum (ns : list nat) hs (f : list nat -> C_star) x : forall s, s + length hs <= length ns -> in_range x ns ->
  apply_ham ns (own_terms s hs) f x = sumL (seq 0 (length hs)) (fun i => on_axis (s + i) (nth (s + i) ns 0) (entries (nth i hs noarr)) f x).
Proof.
  unfold apply_ham, own_terms. induction hs as [|h hs IH]; intros s L R; [reflexivity|]. cbn [length seq combine map] in *. rewrite !sumL_cons. rewrite term_axis by (auto; lia). rewrite Nat.add_0_r. cbn [nth]. f_equal.
  rewrite IH by (auto; lia). rewrite <- seq_shift, sumL_map. apply sumL_ext. intros i. cbn [nth]. now rewrite Nat.add_succ_r.
Qed.
Lemma terms_sum (ns : list nat) hs dvrs l (f : list nat -> C_star) x : length hs = length ns -> length dvrs = length ns -> Forall (fits_grid dvrs ns) l -> in_range x ns ->
  apply_ham ns (own_terms 0 hs ++ map (fun t => map diagonal (values dvrs t)) l) f x =
  radd (sum_on_axes ns (map entries hs) f x) (sumL l (fun t => rmul (factors (values dvrs t) x) (f x))).
Proof.
  intros L Ld G R. unfold apply_ham. rewrite sumL_app. f_equal.
  - change (apply_ham ns (own_terms 0 hs) f x = sum_on_axes ns (map entries hs) f x). rewrite own_sum by (auto; lia). unfold sum_on_axes. rewrite L. apply sumL_ext_in. intros i Hi. apply in_seq in Hi. cbn [plus]. f_equal.
    now rewrite (nth_map_in entries hs i _ noarr) by lia.
  - rewrite sumL_map. apply sumL_ext_in. intros t Ht. rewrite Forall_forall in G. destruct (G t Ht) as (N & F). apply term_diagonal; auto.
    + unfold values. rewrite map_map. exact N.
    + unfold values. apply Forall_map. exact F.
Qed.
Lemma own_formed (ns : list nat) hs : length hs = length ns -> (forall i, i < length ns -> shape (nth i hs noarr) = [nth i ns 0; nth i ns 0]) -> Forall (well_formed ns) (own_terms 0 hs).
Proof.
  intros L H. apply Forall_forall. intros t Ht. apply own_in in Ht. destruct Ht as (i & -> & Hi). cbn [plus]. split; [repeat constructor; intros []|]. repeat constructor; cbn [fst snd]; [lia|apply H; lia].
Qed.
Lemma diag_formed dvrs (ns : list nat) t : fits_grid dvrs ns t -> well_formed ns (map diagonal (values dvrs t)).
Proof.
  intros (N & F). split; [unfold values; now rewrite !map_map|]. unfold values. rewrite map_map. apply Forall_map. eapply Forall_impl; [|exact F]. intros p (Hp & E). change (fst p < length ns /\ shape (Dvr_Model.np_diag (snd p (grid_of dvrs (fst p)))) = [nth (fst p) ns 0; nth (fst p) ns 0]). split; auto. now rewrite <- E.
Qed.
Lemma tail_after (ms : list nat) : equal_tail ms -> forall j, equal_after j ms.
Proof.
  intros (c & F) j. exists c. destruct ms as [|m ms]; cbn [skipn tl] in *; [constructor|]. now apply Forall_skipn'.
Qed.
Lemma own_readable (ns ms : list nat) hs : equal_tail ms -> Forall (readable ns ms) (own_terms 0 hs).
Proof.
  intros T. apply Forall_forall. intros t Ht. apply own_in in Ht. destruct Ht as (i & -> & Hi). split.
  - intros j _. now apply tail_after.
  - intros a b [<-|[]] [<-|[]]. congruence.
Qed.

(** ** The vector *)
Lemma states_pieces sl hs ess Cs : states sl hs ess Cs -> Forall2 (fun s C => wf C /\ shape C = [fst s; snd s]) sl Cs /\ all_orthonormal sl Cs /\ Forall real_entries Cs.
Proof.
  induction 1 as [|n m h es C sl hs ess Cs W E (Re & Or & Ev) P S (F & O & R)]; repeat split; constructor; auto.
  intros idx Hidx. rewrite E in Hidx. apply in_range2_inv in Hidx. destruct Hidx as (i & j & -> & Hi & Hj). now apply Re.
Qed.
Definition first_only (sl : list (nat * nat)) : carr := mkArr (map snd sl) (r1 :: repeat r0 (prod (map snd sl) - 1)).
Lemma prod_pos (sl : list (nat * nat)) : Forall (fun s => snd s <> 0) sl -> 0 < prod (map snd sl).
Proof. unfold prod. induction 1 as [|s sl H F IH]; cbn [map fold_right]; [lia|]. apply Nat.mul_pos_pos; lia. Qed.
Lemma ravel_zeros : forall sh k, ravel sh (repeat 0 k) = 0.
Proof. induction sh as [|d sh IH]; intros [|k]; cbn; auto. Qed.
Lemma first_ground sl : Forall (fun s => snd s <> 0) sl -> ground sl (first_only sl).
Proof.
  intros P. pose proof (prod_pos sl P) as Q. split; [split; [|reflexivity]|].
  - unfold wf, first_only. cbn [data shape length]. rewrite repeat_length. lia.
  - intros m R. unfold get, first_only. cbn [data shape]. destruct (forallb (Nat.eqb 0) m) eqn:Z.
    + apply zeros_repeat in Z. rewrite Z. now rewrite ravel_zeros.
    + destruct (ravel (map snd sl) m) as [|k] eqn:E; [|cbn [nth]; apply nth_repeat]. exfalso.
      assert (m = repeat 0 (length sl)) by (apply (ravel_inj (map snd sl)); auto; [now apply zeros_range|now rewrite ravel_zeros]). subst m. now rewrite zeros_all in Z.
Qed.
Lemma ground_norm sl A : Forall (fun s => snd s <> 0) sl -> ground sl A -> braket (map snd sl) (get A) (get A) = r1.
Proof.
  intros P (_ & G). unfold braket. rewrite (sumL_single _ (indices (map snd sl)) (repeat 0 (length sl))).
  - rewrite G by now apply zeros_range. rewrite zeros_all. apply Ceq; cbn; ring.
  - apply NoDup_indices.
  - apply in_indices. now apply zeros_range.
  - intros m Hm Ne. apply in_indices in Hm. rewrite G by auto. destruct (forallb (Nat.eqb 0) m) eqn:Z; [|ring]. apply zeros_repeat in Z. apply in_range_len in Hm. rewrite map_length in Hm. congruence.
Qed.

Lemma init_ok eigsh dvrs sl hs ess terms : prepared eigsh dvrs sl hs ess -> Forall (fun s => fst s <> 0 /\ snd s <> 0) sl -> Forall (well_formed (map fst sl)) terms ->
  exists Cs vec mods dvrs', init_state eigsh sl (Some terms) dvrs = Ok (vec, mods, dvrs') /\ states sl hs ess Cs /\ pieces sl Cs (first_only sl) vec /\
    update_mod_terms (all_shapes sl) terms vec = Ok mods /\ Forall2 same_dvr dvrs dvrs' /\ Forall2 (fun d h => h_mat d = Ok h) dvrs' hs.
Proof.
  intros Pr P WF. assert (P2 : Forall (fun s => snd s <> 0) sl) by (eapply Forall_impl; [|exact P]; cbv beta; tauto). pose proof (prod_pos sl P2) as Q.
  destruct (solve_all_ok eigsh _ _ _ _ Pr) as (Ws & dvrs' & E & St & _ & Sd & Hd). destruct (states_pieces _ _ _ _ St) as (F & O & Re).
  pose proof (proj1 (first_ground sl P2)) as PA. set (Cs := map mat_T Ws) in *. set (vec := flat (Cs ++ [first_only sl])).
  destruct (update_ok sl Cs (first_only sl)) with (h_terms := terms) as (mods & Em & _); auto.
  { clear - F. induction F; cbn; constructor; auto. }
  exists Cs, vec, mods, dvrs'. unfold init_state. rewrite E. cbn [bind fst snd].
  destruct (prod (map snd sl)) as [|k] eqn:Ek; [lia|]. cbn [repeat].
  replace (concat (map (fun v : carr => data (mat_T v)) Ws ++ [r1 :: repeat r0 k])) with vec.
  2:{ unfold vec, flat, Cs, first_only. rewrite map_app, map_map. cbn [map data]. now rewrite Ek, Nat.sub_succ, Nat.sub_0_r. }
  change (flat (Cs ++ [first_only sl])) with vec in Em. rewrite Em. cbn [bind]. repeat split; auto; apply PA.
Qed.

(** ** Energy and stationarity *)
Lemma L_Cs' (sl : list (nat * nat)) (Cs : list carr) : Forall2 part_ok (map (fun s => [fst s; snd s]) sl) Cs -> length Cs = length sl.
Proof. revert Cs. induction sl as [|s sl IH]; intros Cs F; inversion F; subst; cbn [length]; auto. Qed.
Lemma braket_ext_r' sh (f g g' : list nat -> C_star) : (forall x, in_range x sh -> g x = g' x) -> braket sh f g = braket sh f g'.
Proof. intros H. unfold braket. apply sumL_ext_in. intros x Hx. apply in_indices in Hx. now rewrite H. Qed.
Section Eigen.
Variables (sl : list (nat * nat)) (Cs : list carr) (A : carr).
Let ns := map fst sl.
Let ms := map snd sl.
Let cs : list cmat := map entries Cs.
Hypothesis HC : Forall2 part_ok (map (fun s => [fst s; snd s]) sl) Cs.
Hypothesis Horth : forall i, i < length ns -> orthonormal (nth i ns 0) (nth i ms 0) (nth i cs no_mat).
Variables (terms : list cterm) (E : C_star).
Hypothesis HE : forall x, in_range x ns -> apply_ham ns terms (psi cs ms (get A)) x = rmul E (psi cs ms (get A) x).
Lemma sumn_real n (f : nat -> C_star) : (forall x, x < n -> exists r, f x = RtoC r /\ (0 <= r)%R) -> exists r, sumn n f = RtoC r /\ (0 <= r)%R /\ forall x, x < n -> r = 0%R -> f x = r0.
Proof.
  induction n as [|n IH]; intros H; [exists 0%R; split; [reflexivity|split; [lra|intros; lia]]|]. destruct IH as (r & Er & Pr & Zr); [intros; apply H; lia|]. destruct (H n ltac:(lia)) as (q & Eq & Pq).
  exists (r + q)%R. rewrite sumn_S, Er, Eq, RtoC_add. split; [reflexivity|]. split; [lra|]. intros x Hx Z. destruct (Nat.eq_dec x n) as [->|N].
  - rewrite Eq. replace q with 0%R by lra. reflexivity.
  - apply Zr; [lia|lra].
Qed.
Lemma frobenius_zero n m (D : cmat) : exists r, frobenius n m D D = RtoC r /\ (0 <= r)%R /\ (r = 0%R -> forall x q, x < n -> q < m -> D x q = r0).
Proof.
  assert (I : forall x, x < n -> exists r, sumn m (fun q => rmul (rconj (D x q)) (D x q)) = RtoC r /\ (0 <= r)%R /\ forall q, q < m -> r = 0%R -> rmul (rconj (D x q)) (D x q) = r0).
  { intros x _. apply sumn_real. intros q _. exists (Cnorm2 (D x q)). rewrite Cmul_conj. split; [reflexivity|]. unfold Cnorm2. pose proof (Rle_0_sqr (fst (D x q))). pose proof (Rle_0_sqr (snd (D x q))). unfold Rsqr in *. lra. }
  destruct (sumn_real n (fun x => sumn m (fun q => rmul (rconj (D x q)) (D x q)))) as (r & Er & Pr & Zr); [intros x Hx; destruct (I x Hx) as (s & Es & Ps & _); exists s; auto|].
  exists r. split; [exact Er|]. split; [exact Pr|]. intros Z x q Hx Hq. destruct (I x Hx) as (s & Es & Ps & Zs). specialize (Zr x Hx Z). rewrite Es in Zr. apply (f_equal fst) in Zr. cbn in Zr.
  specialize (Zs q Hq Zr). rewrite Cmul_conj in Zs. apply (f_equal fst) in Zs. cbn in Zs. unfold Cnorm2 in Zs. apply Ceq; cbn; nra.
Qed.
Lemma braket_self (f : list nat -> C_star) : exists r, braket ns f f = RtoC r /\ (0 <= r)%R.
Proof. destruct (sum_norm2 (indices ns) f) as (r & Er & Pr & _). exists r. auto. Qed.
Lemma stationary e Ds B : (0 < e)%R -> length Ds = length ns -> solves ns ms cs (get A) (RtoC e) terms Ds B ->
  (forall i x q, i < length ns -> x < nth i ns 0 -> q < nth i ms 0 -> nth i Ds no_mat x q = r0) /\ (forall m, in_range m ms -> B m = rmul E (get A m)).
Proof.
  intros He LD (H1 & H2 & H3). assert (Lc : length cs = length ns) by (unfold cs, ns; rewrite !map_length; apply (L_Cs' sl); auto).
  split.
  - intros i x q Hi Hx Hq. specialize (H3 i (nth i Ds no_mat) Hi (H2 i Hi)).
    assert (Z : braket ns (varied ms cs (get A) i (nth i Ds no_mat)) (apply_ham ns terms (state_of ms cs (get A))) = r0).
    { unfold state_of. rewrite (braket_ext_r' ns _ _ (fun x => rmul E (psi cs ms (get A) x))) by auto. unfold braket.
      rewrite (sumL_ext _ _ _ (fun n => rmul E (rmul (rconj (varied ms cs (get A) i (nth i Ds no_mat) n)) (psi cs ms (get A) n)))) by (intros; ring). rewrite sumL_scal_l.
      fold (braket ns (varied ms cs (get A) i (nth i Ds no_mat)) (psi cs ms (get A))). unfold varied, ns, ms. rewrite (zero_axis sl i); auto; [ring|rewrite length_upd; auto|].
      intros p p' Hp Hp'. rewrite nth_upd_eq by lia. rewrite <- (rconj_0 C_star). rewrite <- (H2 i Hi p' p Hp' Hp). unfold sumn. rewrite rconj_sumL. apply sumL_ext. intros y. rewrite rconj_mul, rconj_invol. ring. }
    rewrite Z in H3. destruct (braket_self (varied ms cs (get A) i (nth i Ds no_mat))) as (r & Er & Pr). destruct (frobenius_zero (nth i ns 0) (nth i ms 0) (nth i Ds no_mat)) as (s & Es & Ps & Zs).
    rewrite Er, Es in H3. apply Zs; auto. apply (f_equal fst) in H3. cbn in H3. nra.
  - intros m Hm. rewrite H1 by auto. rewrite (sumL_ext_in _ _ _ (fun n => rmul E (rmul (rconj (kron cs n m)) (psi cs ms (get A) n)))).
    2:{ intros n Hn. apply in_indices in Hn. unfold state_of. rewrite HE by auto. ring. }
    rewrite sumL_scal_l. f_equal. clear H1 H2 H3.
    transitivity (braket ns (psi cs ms (fun m' => if list_eq_dec Nat.eq_dec m' m then r1 else r0)) (psi cs ms (get A))).
    + unfold braket. apply sumL_ext. intros n. f_equal. unfold psi. rewrite (sumL_single _ (indices ms) m).
      * destruct (list_eq_dec Nat.eq_dec m m); [|congruence]. f_equal. ring.
      * apply NoDup_indices.
      * now apply in_indices.
      * intros m' _ Ne. destruct (list_eq_dec Nat.eq_dec m' m); [congruence|ring].
    + unfold ns, cs, ms. rewrite braket_same; auto. unfold braket. rewrite (sumL_single _ (indices (map snd sl)) m).
      * destruct (list_eq_dec Nat.eq_dec m m); [|congruence]. rewrite rconj_1. ring.
      * apply NoDup_indices.
      * now apply in_indices.
      * intros m' _ Ne. destruct (list_eq_dec Nat.eq_dec m' m); [congruence|rewrite rconj_0; ring].
Qed.
End Eigen.

(** ** The product state of [PO_DVR] *)
Lemma outer_length v w : length (outer v w) = length v * length w.
Proof. unfold outer. induction v as [|x v IH]; [reflexivity|]. cbn [flat_map length]. rewrite app_length, map_length, IH. reflexivity. Qed.
Lemma nth_outer : forall v w i j, j < length w -> nth (i * length w + j) (outer v w) r0 = rmul (nth i v r0) (nth j w r0).
Proof.
  unfold outer. induction v as [|x v IH]; intros w i j Hj; [cbn [flat_map]; rewrite !nth_overflow by (cbn [length]; lia); ring|]. cbn [flat_map]. destruct i as [|i].
  - cbn [Nat.mul Nat.add nth]. rewrite app_nth1 by (rewrite map_length; auto). rewrite (nth_map_in _ w j _ r0) by auto. reflexivity.
  - rewrite app_nth2 by (rewrite map_length; cbn [Nat.mul]; lia). rewrite map_length. replace (S i * length w + j - length w) with (i * length w + j) by (cbn [Nat.mul]; lia). now rewrite IH.
Qed.
Lemma fold_outer : forall (vs : list (list C_star)) acc i idx, in_range idx (map (@length C_star) vs) ->
  nth (i * prod (map (@length C_star) vs) + ravel (map (@length C_star) vs) idx) (fold_left outer vs acc) r0 = rmul (nth i acc r0) (times (map (fun v x => nth x v r0) vs) idx).
Proof.
  induction vs as [|v vs IH]; intros acc i idx R; inversion R as [|a n x xs Ha R']; subst.
  - cbn [map times fold_left ravel prod fold_right]. rewrite Nat.mul_1_r, Nat.add_0_r. ring.
  - cbn [map times fold_left ravel]. change (prod (length v :: map (@length C_star) vs)) with (length v * prod (map (@length C_star) vs)).
    transitivity (nth ((i * length v + a) * prod (map (@length C_star) vs) + ravel (map (@length C_star) vs) x) (fold_left outer vs (outer acc v)) r0); [f_equal; ring_simplify; lia|].
    rewrite IH by auto. rewrite nth_outer by auto. ring.
Qed.
Lemma fold_length : forall (vs : list (list C_star)) acc, length (fold_left outer vs acc) = length acc * prod (map (@length C_star) vs).
Proof.
  induction vs as [|v vs IH]; intros acc; [cbn [fold_left map prod fold_right]; lia|]. cbn [fold_left map]. rewrite IH, outer_length. change (prod (length v :: map (@length C_star) vs)) with (length v * prod (map (@length C_star) vs)). lia.
Qed.
Lemma first_rows : forall (Ws : list carr) (sl : list (nat * nat)), Forall2 (fun W s => wf W /\ shape W = [snd s; fst s]) Ws sl -> Forall (fun s => snd s = 1) sl ->
  exists vs, mapM first_row Ws = Ok vs /\ map (@length C_star) vs = map fst sl /\
    forall x, in_range x (map fst sl) -> times (map (fun v a => nth a v r0) vs) x = times (map col (map mat_T Ws)) x.
Proof.
  intros Ws sl F. induction F as [|W (n, m) Ws sl (WW & SW) F IH]; intros Q; [exists []; repeat split; auto|]. inversion Q as [|? ? Em Q']; subst. cbn [snd fst] in *. subst m. destruct (IH Q') as (vs & E & L & V).
  destruct (rows_length W 1 n SW) as (L1 & F1). pose proof (nth_rows W 1 n 0) as N1. destruct (rows W) as [|r rs] eqn:Er; [discriminate L1|]. assert (E1 : first_row W = Ok r) by (unfold first_row; now rewrite Er). cbn [mapM]. rewrite E1. cbn [bind]. rewrite E. cbn [bind].
  exists (r :: vs). inversion F1 as [|? ? Lr _]; subst. split; [reflexivity|]. split; [cbn [map fst]; now rewrite L|]. intros x R. cbn [map fst] in R. inversion R as [|a k y ys Ha R']; subst. cbn [map times]. rewrite V by auto. f_equal.
  cbn [nth] in N1. rewrite (N1 a) by (auto; lia). unfold col. symmetry. apply (get_T W 1 (length r)); auto.
Qed.
Lemma po_init_ok eigsh dvrs sl hs ess : prepared eigsh dvrs sl hs ess -> Forall (fun s => snd s = 1) sl ->
  exists Cs vec dvrs', po_init_state eigsh dvrs = Ok (vec, dvrs') /\ states sl hs ess Cs /\ length vec = prod (map fst sl) /\
    (forall x, in_range x (map fst sl) -> nth (ravel (map fst sl) x) vec r0 = times (map col Cs) x) /\ Forall2 same_dvr dvrs dvrs' /\ Forall2 (fun d h => h_mat d = Ok h) dvrs' hs.
Proof.
  intros Pr Q. destruct (solve_all_ok eigsh _ _ _ _ Pr) as (Ws & dvrs' & E & St & Sw & Sd & Hd). destruct (first_rows Ws sl Sw Q) as (vs & Ev & Lv & Vv).
  exists (map mat_T Ws), (fold_left outer vs [r1]), dvrs'. unfold po_init_state. replace (repeat 1 (length dvrs)) with (map snd sl).
  2:{ clear - Pr Q. induction Pr; cbn [map snd length repeat]; [reflexivity|]. inversion Q as [|? ? Em Q']; subst. cbn [snd] in Em. subst. f_equal; auto. }
  rewrite E. cbn [bind fst snd]. rewrite Ev. cbn [bind]. split; [reflexivity|]. split; [exact St|]. split; [rewrite fold_length, Lv; cbn [length]; lia|]. split; [|auto].
  intros x R. rewrite <- Lv in R. pose proof (fold_outer vs [r1] 0 x R) as X. cbn [Nat.mul Nat.add nth] in X. rewrite Lv in *. rewrite X. rewrite Vv by auto. ring.
Qed.
