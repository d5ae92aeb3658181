(** Many-dimensional representations: the theorems. *)
From Coq Require Import List Arith ZArith Bool Lia Reals Ring.
From Verif Require Import Py Alg ListX NdArray_Model NdArray_Proof Ord PoDvr_Model PoDvr_Spec PoDvr_Proof
  Dvr_Model Dvr_Spec Dvr_Proof Dvr2_Proof Dvr3_Proof Dvr_Prop.
Import ListNotations.
Local Open Scope nat_scope.

(** [subindex] gives back the indices of a flattened position, and only those. *)
Theorem C45_subindex sizes : (forall idx, in_range idx sizes -> subindex sizes (ravel sizes idx) = Ok idx) /\
  (forall N, N < prod sizes -> exists idx, subindex sizes N = Ok idx /\ in_range idx sizes /\ ravel sizes idx = N).
Proof. split; [apply subindex_ravel|apply subindex_ok]. Qed.
Print Assumptions C45_subindex.

(** The coupling is evaluated at the grid point of each position. *)
Theorem C45_diagonal (K : StarRing) {A} sizes (grids : list (list A)) (func : list A -> K) d0 : map (@length A) grids = sizes ->
  exists d, calc_diag sizes grids func = Ok d /\ length d = prod sizes /\
  forall idx, in_range idx sizes -> nth (ravel sizes idx) d r0 = func (map (fun p => nth (snd p) (fst p) d0) (combine grids idx)).
Proof. apply diag_ok. Qed.
Print Assumptions C45_diagonal.

(** With all sizes equal from the second axis on, hence for one and two axes, the product is the
    sum of the one-dimensional operators, each on its own axis, and of the coupling. *)
Theorem C45_product (K : StarRing) (hs : list (@op1 K)) Hs v_rst vec : Forall (fun h => fst h <> 0) hs -> equal_tail (map fst hs) ->
  length vec = prod (map fst hs) -> (forall i h, nth_error hs i = Some h -> acts (fst h) (fst h) (Hs i) (snd h)) ->
  (forall d, v_rst = Some d -> length d = length vec) ->
  exists w, po_matvec hs v_rst vec = Ok w /\ length w = prod (map fst hs) /\
    forall idx, in_range idx (map fst hs) -> nth (ravel (map fst hs) idx) w r0 =
      radd (sumn (length hs) (fun i => on_axis i (nth i (map fst hs) 0) (Hs i) (fun x => nth (ravel (map fst hs) x) vec r0) idx))
        (match v_rst with None => r0 | Some d => rmul (nth (ravel (map fst hs) idx) d r0) (nth (ravel (map fst hs) idx) vec r0) end).
Proof. apply matvec_ok. Qed.
Print Assumptions C45_product.
Theorem C45_two_axes : forall sizes, length sizes <= 2 -> equal_tail sizes.
Proof. intros [|a [|b [|c sizes]]] H; cbn in H; try lia; [exists 0|exists 0|exists b]; repeat constructor. Qed.
Print Assumptions C45_two_axes.

(** In every other case the product is refused, whatever the vector. *)
Theorem C45_unequal_sizes_refuted (K : StarRing) (hs : list (@op1 K)) Hs v_rst vec : Forall (fun h => fst h <> 0) hs -> ~ equal_tail (map fst hs) ->
  length vec = prod (map fst hs) -> (forall i h, nth_error hs i = Some h -> acts (fst h) (fst h) (Hs i) (snd h)) ->
  po_matvec hs v_rst vec = Raise ValueError.
Proof. apply matvec_bad. Qed.
Print Assumptions C45_unequal_sizes_refuted.

(** The fast and the dense one-dimensional operators are among those the product is made of. *)
Theorem C45_one_dimensional a b n hbar m_e v_func dst : sine_transform n dst -> exists H, h_mat a b n hbar m_e v_func = Ok H /\
  acts (K := R_star) n n (fun i k => get H [i; k]) (dot_vec (K := R_star) H) /\
  acts (K := R_star) n n (fun i k => get H [i; k]) (fast_matvec a b n hbar m_e v_func dst).
Proof.
  intros T. destruct (h_square a b n hbar m_e v_func) as (H & E & HS). exists H. split; [exact E|].
  assert (HS' : square n H (fun i k => get H [i; k])) by (destruct HS as (W & S & _); split; [auto|split; auto]).
  split; intros v L; destruct (mat_vec_ok n H _ v HS' L) as (w & Ew & Lw & Vw).
  - exists w. split; [exact Ew|]. split; [exact Lw|exact Vw].
  - destruct (C44_fast a b n hbar m_e v_func dst v T L) as (H' & w' & E' & D' & F'). assert (H' = H) by congruence. subst H'. exists w.
    split; [rewrite F'; f_equal; pose proof (eq_trans (eq_sym D') Ew) as Q; injection Q; auto|]. split; [exact Lw|exact Vw].
Qed.
Print Assumptions C45_one_dimensional.

(** The same on one axis: [MCTDH._partial_transform] multiplies axis [i] by the matrix when the
    sizes after [i] are equal, and otherwise gives an array of the wrong shape. *)
Lemma dot_acts (K : StarRing) (mat : arr K) n m : shape mat = [n; m] -> acts n m (fun i k => get mat [i; k]) (dot_vec mat).
Proof.
  intros E v L. unfold dot_vec. rewrite E, L, Nat.eqb_refl. eexists. split; [reflexivity|]. split; [now rewrite map_length, seq_length|]. intros i Hi.
  rewrite nth_map_seq by auto. reflexivity.
Qed.
Theorem C45_transform (K : StarRing) i (v mat : arr K) n m : wf v -> i < length (shape v) -> shape mat = [n; m] -> m = nth i (shape v) 0 -> m <> 0 ->
  equal_after i (shape v) -> exists w, partial_transform i v mat = Ok w /\ wf w /\ shape w = upd i n (shape v) /\
    forall idx, in_range idx (shape w) -> get w idx = on_axis i m (fun j k => get mat [j; k]) (get v) idx.
Proof.
  intros W Hi Em -> Q EA. unfold partial_transform. rewrite Em. apply axis_good; auto; [|apply shape_right; auto]. apply dot_acts; auto.
Qed.
Print Assumptions C45_transform.
Theorem C45_transform_refuted (K : StarRing) i (v mat : arr K) n m : wf v -> i < length (shape v) -> shape mat = [n; m] -> m = nth i (shape v) 0 -> m <> 0 ->
  ~ equal_after i (shape v) -> exists w, partial_transform i v mat = Ok w /\ shape w <> upd i n (shape v).
Proof.
  intros W Hi Em -> Q EA. unfold partial_transform. rewrite Em. destruct (axis_bad i v n (fun i k => get mat [i; k]) (dot_vec mat)) as (w & E & N & _); auto; [apply dot_acts; auto|intros X; apply EA, shape_right; auto|].
  exists w. auto.
Qed.
Print Assumptions C45_transform_refuted.

(** The dipole operator multiplies each entry by the function of its grid point. *)
Theorem C45_dipole (K : StarRing) {A} sizes (grids : list (list A)) (mu : list A -> K) d0 vec : map (@length A) grids = sizes -> length vec = prod sizes ->
  exists w, mu_matvec sizes grids mu vec = Ok w /\ length w = prod sizes /\
  forall idx, in_range idx sizes -> nth (ravel sizes idx) w r0 = rmul (mu (map (fun p => nth (snd p) (fst p) d0) (combine grids idx))) (nth (ravel sizes idx) vec r0).
Proof.
  intros E L. destruct (diag_ok sizes grids mu d0 E) as (d & Ed & Ld & Vd). unfold mu_matvec. rewrite Ed. cbn [bind]. rewrite Ld, L, Nat.eqb_refl. eexists. split; [reflexivity|].
  split; [now rewrite map_length, seq_length|]. intros idx R. rewrite nth_map_seq by (apply ravel_lt; auto). rewrite Vd by auto. reflexivity.
Qed.
Print Assumptions C45_dipole.

(** The potentials can be set again.  A coupling replaces an earlier one; leaving the coupling out
    does not remove an earlier one. *)
Theorem C61_replaced (K : StarRing) {A} sizes (grids : list (list A)) (st : @po_state K) hs' Hs (f : list A -> K) d0 vec :
  map (@length A) grids = sizes -> map fst hs' = sizes -> Forall (fun h => fst h <> 0) hs' -> equal_tail sizes -> length vec = prod sizes ->
  (forall i h, nth_error hs' i = Some h -> acts (fst h) (fst h) (Hs i) (snd h)) ->
  exists st1 w, set_v_func sizes grids st hs' (Some f) = Ok st1 /\ po_matvec (fst st1) (snd st1) vec = Ok w /\
    forall idx, in_range idx sizes -> nth (ravel sizes idx) w r0 =
      radd (sumn (length hs') (fun i => on_axis i (nth i sizes 0) (Hs i) (fun x => nth (ravel sizes x) vec r0) idx))
        (rmul (f (map (fun p => nth (snd p) (fst p) d0) (combine grids idx))) (nth (ravel sizes idx) vec r0)).
Proof.
  intros EG ES F T L HA. destruct (diag_ok sizes grids f d0 EG) as (d & Ed & Ld & Vd). exists (hs', Some d).
  destruct (matvec_ok hs' Hs (Some d) vec) as (w & Ew & Lw & Vw); rewrite ?ES; auto; [intros d' Hd; injection Hd as <-; congruence|]. rewrite ES in *. exists w.
  split; [unfold set_v_func; rewrite Ed; reflexivity|]. split; [exact Ew|]. intros idx R. rewrite Vw, Vd by auto. reflexivity.
Qed.
Print Assumptions C61_replaced.
Theorem C61_first (K : StarRing) {A} sizes (grids : list (list A)) (hs0 hs' : list (@op1 K)) Hs vec :
  map fst hs' = sizes -> Forall (fun h => fst h <> 0) hs' -> equal_tail sizes -> length vec = prod sizes ->
  (forall i h, nth_error hs' i = Some h -> acts (fst h) (fst h) (Hs i) (snd h)) ->
  exists st1 w, set_v_func sizes grids (hs0, None) hs' (None : option (list A -> K)) = Ok st1 /\ po_matvec (fst st1) (snd st1) vec = Ok w /\
    forall idx, in_range idx sizes -> nth (ravel sizes idx) w r0 =
      sumn (length hs') (fun i => on_axis i (nth i sizes 0) (Hs i) (fun x => nth (ravel sizes x) vec r0) idx).
Proof.
  intros ES F T L HA. exists (hs', None).
  destruct (matvec_ok hs' Hs None vec) as (w & Ew & Lw & Vw); rewrite ?ES; auto; [discriminate|]. rewrite ES in *. exists w.
  split; [reflexivity|]. split; [exact Ew|]. intros idx R. rewrite Vw by auto. pose proof (Radd_comm (r_theory K)) as C. pose proof (Radd_0_l (r_theory K)) as Z. rewrite C. apply Z.
Qed.
Print Assumptions C61_first.
Theorem C61_stale_refuted (K : StarRing) {A} sizes (grids : list (list A)) (st : @po_state K) hs hs' Hs (f : list A -> K) d0 vec :
  map (@length A) grids = sizes -> map fst hs' = sizes -> Forall (fun h => fst h <> 0) hs' -> equal_tail sizes -> length vec = prod sizes ->
  (forall i h, nth_error hs' i = Some h -> acts (fst h) (fst h) (Hs i) (snd h)) ->
  exists st1 st2 w, set_v_func sizes grids st hs (Some f) = Ok st1 /\ set_v_func sizes grids st1 hs' (None : option (list A -> K)) = Ok st2 /\
    po_matvec (fst st2) (snd st2) vec = Ok w /\
    forall idx, in_range idx sizes -> nth (ravel sizes idx) w r0 =
      radd (sumn (length hs') (fun i => on_axis i (nth i sizes 0) (Hs i) (fun x => nth (ravel sizes x) vec r0) idx))
        (rmul (f (map (fun p => nth (snd p) (fst p) d0) (combine grids idx))) (nth (ravel sizes idx) vec r0)).
Proof.
  intros EG ES F T L HA. destruct (diag_ok sizes grids f d0 EG) as (d & Ed & Ld & Vd). exists (hs, Some d), (hs', Some d).
  destruct (matvec_ok hs' Hs (Some d) vec) as (w & Ew & Lw & Vw); rewrite ?ES; auto; [intros d' Hd; injection Hd as <-; congruence|]. rewrite ES in *. exists w. split; [unfold set_v_func; rewrite Ed; reflexivity|]. split; [reflexivity|]. split; [exact Ew|].
  intros idx R. rewrite Vw, Vd by auto. reflexivity.
Qed.
Print Assumptions C61_stale_refuted.

(** ** Examples *)
Example C45_subindex_ex : subindex [3; 4; 5] 33 = Ok [1; 2; 3] /\ ravel [3; 4; 5] [1; 2; 3] = 33.
Proof. split; reflexivity. Qed.
Definition mZ (n m : nat) (l : list Z) : arr Z_star := @mkArr Z_star [n; m] l.
Definition opZ (n : nat) (l : list Z) : @op1 Z_star := (n, dot_vec (mZ n n l)).
Example C45_diagonal_ex : calc_diag (K := Z_star) [2; 3] [[10; 20]; [1; 2; 3]]%Z (fun x => (nth 0 x 0 * nth 1 x 0)%Z) = Ok [10; 20; 30; 20; 40; 60]%Z.
Proof. reflexivity. Qed.
Example C45_product_ex : po_matvec (K := Z_star) [opZ 2 [0; 1; 1; 0]; opZ 3 [1; 0; 0; 0; 2; 0; 0; 0; 3]]%Z (Some [0; 0; 0; 0; 0; 100]%Z) [1; 2; 3; 4; 5; 6]%Z
  = Ok [1 * 1 + 4; 2 * 2 + 5; 3 * 3 + 6; 1 * 4 + 1; 2 * 5 + 2; 3 * 6 + 3 + 600]%Z.
Proof. reflexivity. Qed.
Example C45_product_hyp : exists Hs, forall i h, nth_error [opZ 2 [0; 1; 1; 0]; opZ 3 [1; 0; 0; 0; 2; 0; 0; 0; 3]]%Z i = Some h -> acts (fst h) (fst h) (Hs i) (snd h).
Proof.
  exists (fun i => match i with 0 => fun j k => get (mZ 2 2 [0; 1; 1; 0]%Z) [j; k] | _ => fun j k => get (mZ 3 3 [1; 0; 0; 0; 2; 0; 0; 0; 3]%Z) [j; k] end).
  intros [|[|[|i]]] h E; cbn in E; try discriminate; injection E as <-; apply dot_acts; reflexivity.
Qed.
Example C45_two_axes_ex : equal_tail [7; 3].
Proof. apply C45_two_axes. cbn. lia. Qed.
Example C45_unequal_sizes_refuted_ex : po_matvec (K := Z_star) [opZ 1 [1]; opZ 2 [1; 0; 0; 1]; opZ 3 [1; 0; 0; 0; 1; 0; 0; 0; 1]]%Z None [1; 2; 3; 4; 5; 6]%Z = Raise ValueError
  /\ ~ equal_tail [1; 2; 3].
Proof. split; [reflexivity|]. intros (c & F). cbn in F. inversion F as [|? ? E1 F1]; subst. inversion F1 as [|? ? E2 F2]; subst. discriminate. Qed.
Example C45_one_dimensional_ex : exists H, h_mat 0 1 3 1 1 (fun x => x ^ 2)%R = Ok H /\
  acts (K := R_star) 3 3 (fun i k => get H [i; k]) (fast_matvec 0 1 3 1 1 (fun x => x ^ 2)%R (dst_plain 3)).
Proof. destruct (C45_one_dimensional 0 1 3 1 1 (fun x => x ^ 2)%R (dst_plain 3) (dst_plain_ok 3)) as (H & E & _ & A). exists H. auto. Qed.
Example C45_transform_ex : partial_transform 0 (mZ 2 3 [1; 2; 3; 4; 5; 6]%Z) (mZ 1 2 [1; 10]%Z) = Ok (mZ 1 3 [41; 52; 63]%Z) /\ equal_after 0 [2; 3].
Proof. split; [reflexivity|]. exists 3. repeat constructor. Qed.
Example C45_transform_refuted_ex : partial_transform 0 (@mkArr Z_star [1; 2; 3] [1; 2; 3; 4; 5; 6]%Z) (mZ 1 1 [1]%Z) = Ok (@mkArr Z_star [1; 3; 2] [1; 5; 4; 3; 2; 6]%Z) /\ ~ equal_after 0 [1; 2; 3].
Proof. split; [reflexivity|]. intros (c & F). cbn in F. inversion F as [|? ? E1 F1]; subst. inversion F1 as [|? ? E2 F2]; subst. discriminate. Qed.
Example C45_dipole_ex : mu_matvec (K := Z_star) [2; 2] [[1; 2]; [3; 4]]%Z (fun x => (1 - nth 1 x 0)%Z) [1; 2; 3; 4]%Z = Ok [-2; -6; -6; -12]%Z.
Proof. reflexivity. Qed.
Example C61_replaced_ex : match set_v_func (K := Z_star) [2] [[1; 2]]%Z ([], Some [5; 5]%Z) [opZ 2 [0; 1; 1; 0]%Z] (Some (fun x => nth 0 x 0%Z)) with
  | Ok st => po_matvec (fst st) (snd st) [3; 4]%Z = Ok [4 + 1 * 3; 3 + 2 * 4]%Z | Raise _ => False end.
Proof. reflexivity. Qed.
Example C61_first_ex : match set_v_func (K := Z_star) [2] [[1; 2]]%Z ([], None) [opZ 2 [0; 1; 1; 0]%Z] None with
  | Ok st => po_matvec (fst st) (snd st) [3; 4]%Z = Ok [4; 3]%Z | Raise _ => False end.
Proof. reflexivity. Qed.
Example C61_stale_refuted_ex : match set_v_func (K := Z_star) [2] [[1; 2]]%Z ([], None) [] (Some (fun x => nth 0 x 0%Z)) with
  | Ok st1 => match set_v_func (K := Z_star) [2] [[1; 2]]%Z st1 [opZ 2 [0; 1; 1; 0]%Z] None with
    | Ok st2 => po_matvec (fst st2) (snd st2) [3; 4]%Z = Ok [4 + 1 * 3; 3 + 2 * 4]%Z
    | Raise _ => False end
  | Raise _ => False end.
Proof. reflexivity. Qed.
