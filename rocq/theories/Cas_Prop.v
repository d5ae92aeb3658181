(** C95: matrix representations by integration, and [CasDVR]. *)
From Coq Require Import List Arith Bool Reals Lra Lia.
From Verif Require Import Py Alg ListX Ord NdArray_Model NdArray_Proof Dvr_Model Dvr_Spec Dvr_Proof Discretise_Spec Discretise_Proof Discretise_Prop Cas_Model Cas_Spec Cas_Proof.
Import ListNotations.
Local Open Scope R_scope.

Section Claims.
Variable sym_int : expr -> option (R * R) -> R.
Variable quad : expr -> R -> R -> nat -> R.
Variable basis : list expr.
Variables a b : R.
Variable num_prec : option nat.
Notation n := (length basis).
Notation phi := (at_ basis).
Notation M op := (matrix_repr sym_int quad op basis (Some (a, b)) num_prec).

(** Only the integrals with j <= i are done; the matrix is symmetric whatever the operator is. *)
Theorem C95_repr op : (forall i j, (i < n)%nat -> (j <= i)%nat -> does sym_int quad num_prec (fun x => phi i x * op (phi j) x) a b) ->
  is_matrix (M op) n n /\ forall i j, (i < n)%nat -> (j <= i)%nat ->
    integral (fun x => phi i x * op (phi j) x) a b (get (M op) [i; j]) /\ get (M op) [j; i] = get (M op) [i; j].
Proof.
  intros D. destruct (repr_ok sym_int quad op basis (Some (a, b)) num_prec) as (W & S & G). split; [split; auto|].
  intros i j Hi Hj. rewrite (G i j), (G j i) by lia. rewrite (Nat.max_comm j i), (Nat.min_comm j i). split; [|reflexivity]. rewrite Nat.max_l, Nat.min_r by lia.
  specialize (D i j Hi Hj). unfold does in D. unfold matrix_element. destruct num_prec; exact D.
Qed.

(** For the product with a function this is the whole matrix, with any basis. *)
Theorem C95_position f : a <= b -> (forall i j, (i < n)%nat -> (j <= i)%nat -> does sym_int quad num_prec (fun x => phi i x * prod_op f (phi j) x) a b) ->
  matrix_of a b n (fun i j x => phi i x * (f x * phi j x)) (M (prod_op f)).
Proof.
  intros L D. destruct (C95_repr _ D) as (S & G). split; [exact S|]. intros i j Hi Hj. destruct (le_ge_dec j i) as [H|H].
  - destruct (G i j Hi H) as (I & _). exact I.
  - destruct (G j i Hj H) as (I & ->). apply (integral_same (fun x => phi j x * prod_op f (phi i) x)); auto. intros x _. unfold prod_op. ring.
Qed.

(** For second derivatives it is, if [phi i phi j' - phi i' phi j] is the same at both ends. *)
Theorem C95_kinetic sym_diff phi' phi'' : a <= b -> (forall j, (j < n)%nat -> twice (phi j) (phi' j) (phi'' j)) -> (forall j x, (j < n)%nat -> sym_diff 2%nat (phi j) x = phi'' j x) ->
  (forall i j, (i < n)%nat -> (j < n)%nat -> phi i b * phi' j b - phi' i b * phi j b = phi i a * phi' j a - phi' i a * phi j a) ->
  (forall i j, (i < n)%nat -> (j <= i)%nat -> does sym_int quad num_prec (fun x => phi i x * sym_diff 2%nat (phi j) x) a b) ->
  matrix_of a b n (fun i j x => phi i x * phi'' j x) (M (sym_diff 2%nat)).
Proof.
  intros L T E B D. destruct (C95_repr _ D) as (S & G). split; [exact S|].
  assert (Lo : forall i j, (i < n)%nat -> (j <= i)%nat -> integral (fun x => phi i x * phi'' j x) a b (get (M (sym_diff 2%nat)) [i; j])).
  { intros i j Hi Hj. destruct (G i j Hi Hj) as (I & _). apply (integral_same (fun x => phi i x * sym_diff 2%nat (phi j) x)); auto. intros x _. rewrite E by lia. reflexivity. }
  intros i j Hi Hj. destruct (le_ge_dec j i) as [H|H]; [apply Lo; auto|].
  destruct (G j i Hj H) as (_ & ->). pose proof (Lo j i Hj H) as V.
  destruct (integral_cont (fun x => phi i x * phi'' j x) a b L) as (u & U).
  { intros x _. apply (continuity_pt_mult (phi i) (phi'' j)); [apply (twice_cont _ _ _ x (T i Hi))|apply (twice_cont _ _ _ x (T j Hj))]. }
  pose proof (parts2 _ _ _ _ _ _ a b u _ L (T i Hi) (T j Hj) U V) as Q. rewrite (B i j Hi Hj) in Q. set (g := get (M (sym_diff 2%nat)) [j; i] : R) in *. change (integral (fun x => phi i x * phi'' j x) a b g). replace g with u by lra. exact U.
Qed.

(** For first derivatives of functions that vanish at the ends, all entries above the diagonal
    have the wrong sign. *)
Theorem C95_derivative_refuted sym_diff phi' : a <= b -> (forall j x, (j < n)%nat -> derivable_pt_lim (phi j) x (phi' j x) /\ continuity_pt (phi' j) x) -> (forall j x, (j < n)%nat -> sym_diff 1%nat (phi j) x = phi' j x) ->
  (forall j, (j < n)%nat -> phi j a = 0 /\ phi j b = 0) ->
  (forall i j, (i < n)%nat -> (j <= i)%nat -> does sym_int quad num_prec (fun x => phi i x * sym_diff 1%nat (phi j) x) a b) ->
  forall i j v, (i < j)%nat -> (j < n)%nat -> integral (fun x => phi i x * phi' j x) a b v -> get (M (sym_diff 1%nat)) [i; j] = - v.
Proof.
  intros L T E B D i j v Hij Hj V. destruct (C95_repr _ D) as (S & G). destruct (G j i Hj) as (I & ->); [lia|].
  assert (U : integral (fun x => phi j x * phi' i x) a b (get (M (sym_diff 1%nat)) [j; i])) by (apply (integral_same (fun x => phi j x * sym_diff 1%nat (phi i) x)); auto; intros x _; rewrite E by lia; reflexivity).
  assert (Hi : (i < n)%nat) by lia. pose proof (parts1 (phi i) (phi' i) (phi j) (phi' j) a b v _ L (fun x => T i x Hi) (fun x => T j x Hj) V U) as Q. destruct (B i Hi) as (-> & ->) in Q. destruct (B j Hj) as (-> & ->) in Q.
  change (@eq R (get (M (sym_diff 1%nat)) [j; i]) (- v)). lra.
Qed.

(** The columns of [eigh] are the representation functions: the matrix of [f(x)] is diagonal
    between them, and the grid points are where [f] has these values.  The kinetic energy is the
    matrix of second derivatives in the same functions. *)
Theorem C95_dvr sym_diff eigh trans inv hbar m_e v_func :
  let f := match trans with Some f => f | None => id_op end in
  let Q := cas_q_fbr sym_int quad basis (Some (a, b)) trans num_prec in
  let u := cas_u sym_int quad eigh basis (Some (a, b)) trans num_prec in
  let grid := cas_grid sym_int quad eigh basis (Some (a, b)) trans inv num_prec in
  eigen_decomposition n Q (fst (eigh Q)) (snd (eigh Q)) ->
  Q = M (prod_op f) /\ to_dvr_mat u Q = Ok (np_diag (K := R_star) (fst (eigh Q))) /\ length grid = n /\
  (forall i, (i < n)%nat -> nth i grid 0 = match inv with Some g => g (nth i (fst (eigh Q)) 0) | None => nth i (fst (eigh Q)) 0 end) /\
  exists T H, cas_t_mat sym_int quad sym_diff eigh basis (Some (a, b)) trans num_prec hbar m_e = Ok T /\
    (forall i j, (i < n)%nat -> (j < n)%nat -> get T [i; j] = get T [j; i]) /\
    to_fbr_mat u T = Ok (arr_scale (K := R_star) (- hbar ^ 2 / (2 * m_e)) (M (sym_diff 2%nat))) /\
    cas_h_mat sym_int quad sym_diff eigh basis (Some (a, b)) trans inv num_prec hbar m_e v_func = Ok H /\
    square n H (fun i j => get T [i; j] + (if (i =? j)%nat then v_func (nth i grid 0) else 0)).
Proof.
  intros f Q u grid (MV & LX & EV & CO & RO). split; [reflexivity|].
  set (x := fst (eigh Q)) in *. change (snd (eigh Q)) with u in *.
  assert (SU : square (K := R_star) n u (fun i j => get u [i; j])) by (apply square_self; exact MV).
  destruct (repr_ok sym_int quad (prod_op f) basis (Some (a, b)) num_prec) as (QW & QS & _). fold (M (prod_op f)) in QW, QS. change (M (prod_op f)) with Q in QW, QS.
  assert (SQ : square (K := R_star) n Q (fun i j => get Q [i; j])) by (apply square_self; split; auto).
  set (D := M (sym_diff 2%nat)). pose proof (repr_ok sym_int quad (sym_diff 2%nat) basis (Some (a, b)) num_prec) as SD0. fold D in SD0.
  assert (SymD : forall i j, (i < n)%nat -> (j < n)%nat -> get D [i; j] = get D [j; i]). { destruct SD0 as (_ & _ & G). intros i j Hi Hj. rewrite (G i j), (G j i) by auto. now rewrite Nat.max_comm, Nat.min_comm. }
  assert (SD : square (K := R_star) n D (fun i j => get D [i; j])) by (destruct SD0 as (W & S & _); apply square_self; split; auto).
  assert (Conj : forall A (g : nat -> nat -> R_star), square n A g -> exists T, to_dvr_mat u A = Ok T /\ square n T (fun i j => sumn n (fun p => rmul (get u [p; i]) (sumn n (fun q => rmul (g p q) (get u [q; j])))))).
  { intros A g SA. destruct (square_mul (K := R_star) n A u _ _ SA SU) as (P & EP & SP). destruct (square_mul (K := R_star) n (mat_T u) P _ _ (square_T (K := R_star) n u _ SU) SP) as (T & ET & ST).
    exists T. unfold to_dvr_mat. rewrite EP. cbn [bind]. auto. }
  split.
  { destruct (Conj Q _ SQ) as (T & ET & ST). rewrite ET. f_equal. apply (square_eq (K := R_star) n _ _ _ ST). apply (square_ext (K := R_star) n _ _ _ (square_diag (K := R_star) n x LX)). intros i j Hi Hj.
    rewrite (diagonal R_star n (fun p q => get u [p; q]) CO (fun p q => get Q [p; q]) (fun l => nth l x 0) i j Hi Hj); [|intros p Hp; apply EV; auto].
    unfold delta. destruct (Nat.eqb_spec i j) as [->|]; [reflexivity|]. cbn. rewrite !Rmult_0_l. reflexivity. }
  assert (Lg : length grid = n) by (unfold grid, cas_grid; fold Q x; now rewrite map_length).
  split; [exact Lg|]. split.
  { intros i Hi. unfold grid, cas_grid. fold Q x. rewrite (nth_indep _ 0 ((match inv with Some f => f | None => id_op end) 0)) by (rewrite map_length; lia). rewrite map_nth. destruct inv; reflexivity. }
  destruct (Conj D _ SD) as (T0 & ET & ST). set (c := - hbar ^ 2 / (2 * m_e)). pose proof (square_scale (K := R_star) n _ _ c ST) as SS. set (T := arr_scale (K := R_star) c T0) in *.
  assert (ETm : cas_t_mat sym_int quad sym_diff eigh basis (Some (a, b)) trans num_prec hbar m_e = Ok T) by (unfold cas_t_mat; fold Q u D; rewrite ET; reflexivity).
  destruct (square_add (K := R_star) n _ _ _ _ SS (square_diag (K := R_star) n (map v_func grid) ltac:(now rewrite map_length))) as (H & EH & SH).
  exists T, H. split; [exact ETm|]. split; [|split; [|split]].
  - destruct SS as (_ & _ & G). intros i j Hi Hj. rewrite (G i j), (G j i) by auto. f_equal. apply (sym_conj R_star n (fun p q => get u [p; q]) (fun p q => get D [p; q]) i j Hi Hj SymD).
  - destruct (square_mul (K := R_star) n T (mat_T u) _ _ SS (square_T (K := R_star) n u _ SU)) as (P & EP & SP). destruct (square_mul (K := R_star) n u P _ _ SU SP) as (F & EF & SF). unfold to_fbr_mat. rewrite EP. cbn [bind]. rewrite EF. f_equal.
    apply (square_eq (K := R_star) n _ _ _ SF). apply (square_ext (K := R_star) n _ _ _ (square_scale (K := R_star) n _ _ c SD)). intros i j Hi Hj.
    rewrite <- (back R_star n (fun p q => get u [p; q]) RO (fun p q => @rmul R_star c (get D [p; q])) i j Hi Hj) at 1. apply sumn_ext. intros k Hk. f_equal. apply sumn_ext. intros l Hl. f_equal.
    rewrite <- sumn_scal_l. apply sumn_ext. intros p Hp. rewrite (sumn_ext R_star n _ (fun q => @rmul R_star c (rmul (get D [p; q]) (get u [q; l])))) by (intros; apply Rmult_assoc). rewrite sumn_scal_l. change (@rmul R_star) with Rmult. set (y := sumn n _). clearbody y. match goal with |- @eq _ ?s ?t => change (@eq R s t) end. ring.
  - unfold cas_h_mat. rewrite ETm. cbn [bind]. exact EH.
  - destruct SS as (_ & _ & G). apply (square_ext (K := R_star) n _ _ _ SH). intros i j Hi Hj. rewrite G by auto. apply (f_equal2 Rplus); [reflexivity|]. unfold delta. destruct (Nat.eqb_spec i j) as [->|]; cbn; [rewrite Rmult_1_l|apply Rmult_0_l].
    rewrite (nth_indep _ 0 (v_func 0)) by (rewrite map_length; change (j < @length (car R_star) grid)%nat; rewrite Lg; assumption). rewrite map_nth. reflexivity.
Qed.

(** With an orthonormal basis, going over to functions keeps inner products. *)
Theorem C95_isometry u v w : a <= b -> orthonormal a b n phi -> is_matrix u n n ->
  (forall k l, (k < n)%nat -> (l < n)%nat -> sumn (K := R_star) n (fun i => rmul (get u [i; k]) (get u [i; l])) = delta k l) -> length v = n -> length w = n ->
  exists pv pw, (forall x, cas_dvr2cont u basis v x = Ok (pv x)) /\ (forall x, cas_dvr2cont u basis w x = Ok (pw x)) /\ integral (fun x => pv x * pw x) a b (inner n v w).
Proof.
  intros L O MU CO Lv Lw. assert (SU : square (K := R_star) n u (fun i j => get u [i; j])) by (apply square_self; exact MU).
  assert (Q : forall z, length z = n -> exists f, to_fbr_vec u z = Ok f /\ length f = n /\ (forall i, (i < n)%nat -> nth i f 0 = sumn (K := R_star) n (fun k => rmul (get u [i; k]) (nth k z 0))) /\
    forall x, cas_dvr2cont u basis z x = Ok (sumn (K := R_star) n (fun i => phi i x * nth i f 0))).
  { intros z Lz. destruct (mat_vec_ok (K := R_star) n u _ z SU Lz) as (f & Ef & Lf & Hf). exists f. split; [exact Ef|]. split; [exact Lf|]. split; [exact Hf|]. intros x. unfold cas_dvr2cont, to_fbr_vec. rewrite Ef. cbn [bind].
    unfold cas_fbr2cont. rewrite cont_loop_ok by (intros j Hj; apply in_seq in Hj; change (car R_star) with R in *; lia). f_equal. rewrite Rplus_0_l. reflexivity. }
  destruct (Q v Lv) as (f & _ & _ & Hf & Cf). destruct (Q w Lw) as (g & _ & _ & Hg & Cg).
  exists (fun x => sumn (K := R_star) n (fun i => phi i x * nth i f 0)), (fun x => sumn (K := R_star) n (fun i => phi i x * nth i g 0)). split; [exact Cf|]. split; [exact Cg|].
  replace (inner n v w) with (sumn (K := R_star) n (fun i => nth i f 0 * nth i g 0) : R); [apply integral_pair; auto|].
  unfold inner. rewrite (sumn_ext R_star n _ (fun i => rmul (sumn n (fun k => rmul (get u [i; k]) (nth k v 0))) (sumn n (fun l => rmul (get u [i; l]) (nth l w 0))))) by (intros i Hi; rewrite Hf, Hg by auto; reflexivity).
  apply (vec_cols R_star n (fun p q => get u [p; q]) CO (fun k => nth k v 0) (fun l => nth l w 0)).
Qed.
End Claims.
Print Assumptions C95_repr. Print Assumptions C95_position. Print Assumptions C95_kinetic. Print Assumptions C95_derivative_refuted. Print Assumptions C95_dvr. Print Assumptions C95_isometry.

(** The sine functions are orthonormal, and their second derivatives give the diagonal matrix
    SineDVR starts from. *)
Theorem C95_box sym_int quad sym_diff a b n num_prec :
  let basis := map (fun j => sym_particle_in_box (S j) (b - a) a) (seq 0 n) in
  a < b -> (forall j x, (j < n)%nat -> sym_diff 2%nat (at_ basis j) x = - (INR (S j) * PI / (b - a)) ^ 2 * at_ basis j x) ->
  (forall i j, (i < n)%nat -> (j <= i)%nat -> does sym_int quad num_prec (fun x => at_ basis i x * sym_diff 2%nat (at_ basis j) x) a b) ->
  length basis = n /\ orthonormal a b n (at_ basis) /\ matrix_repr sym_int quad (sym_diff 2%nat) basis (Some (a, b)) num_prec = np_diag (K := R_star) (t_diag a b n).
Proof.
  intros basis L E D. assert (Lb : length basis = n) by (unfold basis; now rewrite map_length, seq_length).
  assert (B : forall j, (j < n)%nat -> at_ basis j = box (b - a) a (S j)).
  { intros j Hj. unfold at_, basis. rewrite (nth_indep _ _ (sym_particle_in_box (S 0) (b - a) a)) by (rewrite map_length, seq_length; auto). rewrite (map_nth (fun j => sym_particle_in_box (S j) (b - a) a)), seq_nth by auto. reflexivity. }
  assert (O : orthonormal a b n (at_ basis)) by (intros i j Hi Hj; rewrite !B by auto; apply (box_orthonormal a b n L); auto).
  split; [exact Lb|]. split; [exact O|].
  destruct (C95_repr sym_int quad basis a b num_prec (sym_diff 2%nat)) as ((W & S) & G); [rewrite Lb; exact D|]. rewrite Lb in S, G.
  assert (Lt : length (t_diag a b n) = n) by (unfold t_diag; now rewrite map_length, seq_length).
  assert (V : forall i j, (i < n)%nat -> (j <= i)%nat -> get (matrix_repr sym_int quad (sym_diff 2%nat) basis (Some (a, b)) num_prec) [i; j] = (if (i =? j)%nat then - (INR (Datatypes.S j) * PI / (b - a)) ^ 2 else 0)).
  { intros i j Hi Hj. destruct (G i j Hi Hj) as (I & _). set (k := - (INR (Datatypes.S j) * PI / (b - a)) ^ 2).
    assert (Hj' : (j < n)%nat) by lia. pose proof (scaled _ k _ _ _ (O i j Hi Hj')) as I2.
    assert (I3 : integral (fun x => at_ basis i x * sym_diff 2%nat (at_ basis j) x) a b (0 + k * (if (i =? j)%nat then 1 else 0))).
    { apply (integral_same (fun x => 0 + k * (at_ basis i x * at_ basis j x))); [lra| |exact I2]. intros x _. rewrite (E j x Hj'). fold k. ring. }
    pose proof (integral_unique _ _ _ _ _ I I3) as Q. change (@eq R (get (matrix_repr sym_int quad (sym_diff 2%nat) basis (Some (a, b)) num_prec) [i; j]) (if (i =? j)%nat then k else 0)). rewrite Q. destruct (i =? j)%nat; ring. }
  assert (NT : forall i, (i < n)%nat -> nth i (t_diag a b n) 0 = - (INR (Datatypes.S i) * PI / (b - a)) ^ 2).
  { intros i Hi. unfold t_diag, len. rewrite (nth_indep _ 0 ((fun j => - (INR j * PI / (b - a)) ^ 2) 0%nat)) by (rewrite map_length, seq_length; auto). rewrite (map_nth (fun j => - (INR j * PI / (b - a)) ^ 2)), seq_nth by auto. reflexivity. }
  refine (square_eq (K := R_star) n _ _ _ _ (square_diag (K := R_star) n (t_diag a b n) Lt)). split; [exact W|]. split; [exact S|].
  intros i j Hi Hj. change (@eq R (get (matrix_repr sym_int quad (sym_diff 2%nat) basis (Some (a, b)) num_prec) [i; j]) (@delta R_star i j * nth i (t_diag a b n) 0)).
  rewrite NT by auto. destruct (le_ge_dec j i) as [H|H]; [rewrite (V i j Hi H)|destruct (G j i Hj H) as (_ & ->); rewrite (V j i Hj H), (Nat.eqb_sym j i)];
  unfold delta; destruct (Nat.eqb_spec i j) as [->|]; cbn; ring.
Qed.
Print Assumptions C95_box.

(** A basis that does not vanish at the ends: x and x^2 between 0 and 1.  The integral of
    x (x^2)'' is one, the entry is zero. *)
Theorem C95_kinetic_refuted sym_int quad sym_diff num_prec :
  let basis := [fun x => x; fun x => x ^ 2] in
  (forall x, sym_diff 2%nat (at_ basis 0) x = 0) -> (forall x, sym_diff 2%nat (at_ basis 1) x = 2) ->
  (forall i j, (i < 2)%nat -> (j <= i)%nat -> does sym_int quad num_prec (fun x => at_ basis i x * sym_diff 2%nat (at_ basis j) x) 0 1) ->
  integral (fun x => at_ basis 0 x * sym_diff 2%nat (at_ basis 1) x) 0 1 1 /\ get (matrix_repr sym_int quad (sym_diff 2%nat) basis (Some (0, 1)) num_prec) [0; 1]%nat = 0.
Proof.
  intros basis E0 E1 D. destruct (C95_repr sym_int quad basis 0 1 num_prec (sym_diff 2%nat) D) as (_ & G). split.
  - apply (integral_same (fun x => 2 * x)); [lra|intros x _; rewrite E1; cbn; ring|]. replace 1 with (1 ^ 2 - 0 ^ 2) at 2 by ring. apply (integral_primitive (fun x => x ^ 2)); [lra| |intros; reg].
    intros x. replace (2 * x) with (INR 2 * x ^ Nat.pred 2) by (cbn; ring). apply derivable_pt_lim_pow.
  - destruct (G 1 0)%nat as (I & ->); [cbn; lia|lia|]. apply (integral_unique _ _ _ _ _ I). apply (integral_same (fun _ => 0)); [lra|intros x _; rewrite E0; ring|]. pose proof (integral_const 0 0 1) as C. rewrite Rmult_0_l in C. exact C.
Qed.
Print Assumptions C95_kinetic_refuted.

(** Integration by Simpson's rule and differentiation by differences, exact for these: the
    functions x and x^2. *)
Definition ex_int (f : expr) (c : option (R * R)) : R := match c with Some (a, b) => simpson f a b | None => 0 end.
Definition ex_diff (n : nat) (f : expr) : expr := fun x => f (x + 1) - 2 * f x + f (x - 1).
Lemma simpson_cubic p q r s a b : a <= b -> integral (fun x => p + q * x + r * x ^ 2 + s * x ^ 3) a b (simpson (fun x => p + q * x + r * x ^ 2 + s * x ^ 3) a b).
Proof.
  intros L. set (F := fun x => p * x + q / 2 * x ^ 2 + r / 3 * x ^ 3 + s / 4 * x ^ 4). replace (simpson _ a b) with (F b - F a) by (unfold F, simpson; field).
  apply (integral_primitive F); [exact L| |intros; reg]. intros x.
  replace (p + q * x + r * x ^ 2 + s * x ^ 3) with (p * 1 + q / 2 * (INR 2 * x ^ Nat.pred 2) + r / 3 * (INR 3 * x ^ Nat.pred 3) + s / 4 * (INR 4 * x ^ Nat.pred 4)) by (cbn; field).
  unfold F. apply (derivable_pt_lim_plus (fun x => p * x + q / 2 * x ^ 2 + r / 3 * x ^ 3) (fun x => s / 4 * x ^ 4)); [|apply (derivable_pt_lim_scal (fun x => x ^ 4)), derivable_pt_lim_pow].
  apply (derivable_pt_lim_plus (fun x => p * x + q / 2 * x ^ 2) (fun x => r / 3 * x ^ 3)); [|apply (derivable_pt_lim_scal (fun x => x ^ 3)), derivable_pt_lim_pow].
  apply (derivable_pt_lim_plus (fun x => p * x) (fun x => q / 2 * x ^ 2)); [apply (derivable_pt_lim_scal (fun x => x)), derivable_pt_lim_id|apply (derivable_pt_lim_scal (fun x => x ^ 2)), derivable_pt_lim_pow].
Qed.
Lemma simpson_poly p q r s f a b : a <= b -> (forall x, f x = p + q * x + r * x ^ 2 + s * x ^ 3) -> integral f a b (simpson f a b).
Proof.
  intros L E. replace (simpson f a b) with (simpson (fun x => p + q * x + r * x ^ 2 + s * x ^ 3) a b) by (unfold simpson; now rewrite !E).
  apply (integral_same (fun x => p + q * x + r * x ^ 2 + s * x ^ 3)); auto. apply simpson_cubic, L.
Qed.
Example C95_example : get (matrix_repr ex_int (fun f a b _ => simpson f a b) (ex_diff 2) [fun x => x; fun x => x ^ 2] (Some (0, 1)) (Some 50%nat)) [0; 1]%nat = 0 /\
  exists M, M = matrix_repr ex_int (fun f a b _ => simpson f a b) (prod_op (fun x => x)) [fun _ => 1; fun x => x] (Some (0, 1)) None /\ matrix_of 0 1 2 (fun i j x => at_ [fun _ => 1; fun x => x] i x * (x * at_ [fun _ => 1; fun x => x] j x)) M /\
  get M [0; 1]%nat = 1 / 3.
Proof.
  split.
  - apply C95_kinetic_refuted; [intros; unfold ex_diff, at_; cbn; ring..|]. intros i j Hi Hj. cbn [does].
    destruct i as [|[|i]]; [| |lia].
    + destruct j; [|lia]. apply (simpson_poly 0 0 0 0); [lra|intros; unfold at_, ex_diff; cbn; ring].
    + destruct j as [|[|j]]; [| |lia]; [apply (simpson_poly 0 0 0 0)|apply (simpson_poly 0 0 2 0)]; try lra; intros; unfold at_, ex_diff; cbn; ring.
  - eexists. split; [reflexivity|].
    assert (D : forall i j, (i < 2)%nat -> (j <= i)%nat -> does ex_int (fun f a b _ => simpson f a b) None (fun x => at_ [fun _ => 1; fun x => x] i x * prod_op (fun x => x) (at_ [fun _ => 1; fun x => x] j) x) 0 1).
    { intros i j Hi Hj. cbn [does ex_int]. destruct i as [|[|i]]; [| |lia].
      - destruct j; [|lia]. apply (simpson_poly 0 1 0 0); [lra|intros; unfold at_, prod_op; cbn; ring].
      - destruct j as [|[|j]]; [| |lia]; [apply (simpson_poly 0 0 1 0)|apply (simpson_poly 0 0 0 1)]; try lra; intros; unfold at_, prod_op; cbn; ring. }
    split; [apply (C95_position ex_int _ [fun _ => 1; fun x => x] 0 1 None (fun x => x)); [lra|exact D]|].
    destruct (C95_repr ex_int _ [fun _ => 1; fun x => x] 0 1 None _ D) as (_ & G). destruct (G 1 0)%nat as (I & ->); [cbn; lia|lia|].
    apply (integral_unique _ _ _ _ _ I). replace (1 / 3) with (simpson (fun x => x * (x * 1)) 0 1) by (unfold simpson; field). apply (simpson_poly 0 0 1 0); [lra|intros; ring].
Qed.

(** Two Legendre polynomials between 0 and 1: the grid points are those of Gauss' rule. *)
Definition ex_basis : list expr := [fun _ => 1; fun x => sqrt 3 * (2 * x - 1)].
Definition ex_u : arr R_star := mkArr (K := R_star) [2; 2]%nat [/ sqrt 2; / sqrt 2; - / sqrt 2; / sqrt 2].
Definition ex_eigh (_ : arr R_star) : rvec * arr R_star := ([1 / 2 - sqrt 3 / 6; 1 / 2 + sqrt 3 / 6], ex_u).
Example C95_gauss : let Q := cas_q_fbr ex_int (fun f a b _ => simpson f a b) ex_basis (Some (0, 1)) None None in
  orthonormal 0 1 2 (at_ ex_basis) /\ eigen_decomposition 2 Q (fst (ex_eigh Q)) (snd (ex_eigh Q)) /\
  cas_grid ex_int (fun f a b _ => simpson f a b) ex_eigh ex_basis (Some (0, 1)) None None None = [1 / 2 - sqrt 3 / 6; 1 / 2 + sqrt 3 / 6].
Proof.
  intros Q. assert (S3 : sqrt 3 * sqrt 3 = 3) by (apply sqrt_sqrt; lra). assert (P2 : 0 < sqrt 2) by (apply sqrt_lt_R0; lra). assert (S2 : / sqrt 2 * / sqrt 2 = / 2) by (rewrite <- Rinv_mult, sqrt_sqrt by lra; reflexivity).
  split; [|split; [|reflexivity]].
  - assert (V : forall f v p q r, (forall x, f x = p + q * x + r * x ^ 2 + 0 * x ^ 3) -> simpson f 0 1 = v -> integral f 0 1 v) by (intros f v p q r E <-; apply (simpson_poly p q r 0); [lra|exact E]).
    intros i j Hi Hj. destruct i as [|[|i]]; [| |lia]; (destruct j as [|[|j]]; [| |lia]); cbn [Nat.eqb].
    + apply (V _ _ 1 0 0); [intros; unfold at_; cbn; ring|unfold simpson, at_; cbn; field].
    + apply (V _ _ (- sqrt 3) (2 * sqrt 3) 0); [intros; unfold at_; cbn; ring|unfold simpson, at_; cbn; field].
    + apply (V _ _ (- sqrt 3) (2 * sqrt 3) 0); [intros; unfold at_; cbn; ring|unfold simpson, at_; cbn; field].
    + apply (V _ _ 3 (- 12) 12); [intros; unfold at_; cbn; match goal with |- ?l = _ => replace l with (sqrt 3 * sqrt 3 * ((2 * x - 1) * (2 * x - 1))) by ring end; rewrite S3; ring|].
      unfold simpson, at_. cbn. match goal with |- ?l = _ => replace l with (/ 6 * (sqrt 3 * sqrt 3 * 2)) by field end. rewrite S3. field.
  - destruct (repr_ok ex_int (fun f a b _ => simpson f a b) (prod_op id_op) ex_basis (Some (0, 1)) None) as (_ & _ & G).
    change (matrix_repr ex_int (fun f a b _ => simpson f a b) (prod_op id_op) ex_basis (Some (0, 1)) None) with Q in G.
    assert (Q00 : get Q [0; 0]%nat = 1 / 2) by (rewrite G by (cbn; lia); cbn; unfold simpson, at_, prod_op, id_op; cbn; field).
    assert (Q10 : get Q [1; 0]%nat = sqrt 3 / 6) by (rewrite G by (cbn; lia); cbn; unfold simpson, at_, prod_op, id_op; cbn; field).
    assert (Q01 : get Q [0; 1]%nat = sqrt 3 / 6) by (rewrite G by (cbn; lia); cbn; unfold simpson, at_, prod_op, id_op; cbn; field).
    assert (Q11 : get Q [1; 1]%nat = 1 / 2).
    { rewrite G by (cbn; lia). cbn. unfold simpson, at_, prod_op, id_op. cbn. match goal with |- ?l = _ => replace l with (sqrt 3 * sqrt 3 / 6) by field end. rewrite S3. field. }
    set (c := / sqrt 2) in *.
    split; [split; reflexivity|]. split; [reflexivity|]. split; [|split].
    + intros i k Hi Hk. destruct i as [|[|i]]; [| |lia]; (destruct k as [|[|k]]; [| |lia]); cbn [sumn sumL seq map sum_list]; rewrite ?Q00, ?Q01, ?Q10, ?Q11; cbn; fold c; match goal with |- @eq _ ?s ?t => change (@eq R s t) end; field.
    + intros i k Hi Hk. destruct i as [|[|i]]; [| |lia]; (destruct k as [|[|k]]; [| |lia]); cbn; fold c; match goal with |- @eq _ ?s ?t => change (@eq R s t) end; lra.
    + intros i k Hi Hk. destruct i as [|[|i]]; [| |lia]; (destruct k as [|[|k]]; [| |lia]); cbn; fold c; match goal with |- @eq _ ?s ?t => change (@eq R s t) end; lra.
Qed.
