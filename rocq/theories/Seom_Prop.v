(** Property C80: the terms of seom.py. *)
From Coq Require Import List Arith Bool ZArith Lia Ring Reals Lra.
From Verif Require Import Py Alg ListX NdArray_Model NdArray_Proof Contract_Model Heom_Model Heom_Spec Heom_Proof HeomThm_Proof Heom_Prop Cplx
  Seom_Spec Seom_Proof SeomRate_Proof.
From Verif Require Seom_Model.
Import ListNotations.
Local Open Scope nat_scope.

(** ** C80 *)

(** The terms, applied to any extended wave function, give on every tier the equations of
    Seom_Spec.v, with the decay constants that pass for zero left out. *)
Theorem C80_equations :
  forall (K : StarRing) (im hj : K) (sq : nat -> K) close0 dims d (ex : arr K) (symm asymm : list K) (h op : arr K),
    shape h = [d; d] -> shape op = [d; d] -> ndim ex = 1 -> length (data ex) = length dims ->
    length symm = length dims -> length asymm = length dims -> close0 r0 = true -> sq 0 = r0 ->
    exists terms, Seom_Model.diff K im hj sq close0 dims ex symm asymm h op = Ok terms /\
    forall a, extended dims d a ->
    exists b, apply_terms terms a = Ok b /\ extended dims d b /\
    forall n q p, in_range n dims -> q < d -> p < d ->
      get b (n ++ [q; p]) =
      wave_rhs hj sq d (length dims) (mat h) (mat op)
        (fun k => if close0 (nth k (data ex) r0) then r0 else nth k (data ex) r0)
        (fun k => nth k symm r0 + im * nth k asymm r0)%S (tiers dims a) n q p.
Proof. intros. apply seom_ok; auto. Qed.
Print Assumptions C80_equations.

(** [exp_coeff] with another number of axes: a local variable is read before it is set. *)
Theorem C80_other_coefficients :
  forall (K : StarRing) (im hj : K) (sq : nat -> K) close0 dims (ex : arr K) (symm asymm : list K) (h op : arr K),
    ndim ex <> 1 -> dims <> [] -> Seom_Model.diff K im hj sq close0 dims ex symm asymm h op = Raise UnboundLocalError.
Proof.
  intros K im hj sq close0 dims ex symm asymm h op N D. unfold Seom_Model.diff, Seom_Model.diff_n, k_max.
  destruct dims as [|d0 dims]; [congruence|]. cbn [length seq list_prod map app map_res Seom_Model.diff_n_pair]. unfold Seom_Model.gamma_entry.
  apply Nat.eqb_neq in N. rewrite N. reflexivity.
Qed.
Print Assumptions C80_other_coefficients.

(** [v] is the product of a wave function with what the terms make of it.  For Hermitian
    matrices, real decay constants and coefficients 1, its imaginary part is the norm weighted
    with [sum n_k gamma_k]. *)
Theorem C80_imaginary_part :
  forall (K : StarRing) (im hj : K) (sq : nat -> K) close0 dims d (ex : arr K) (symm asymm : list K) (h op : arr K),
    shape h = [d; d] -> shape op = [d; d] -> ndim ex = 1 -> length (data ex) = length dims ->
    length symm = length dims -> length asymm = length dims -> close0 r0 = true -> sq 0 = r0 ->
    (forall n, rconj (sq n) = sq n) -> rconj hj = (- hj)%S ->
    (forall x y, x < d -> y < d -> rconj (get h [x; y]) = get h [y; x]) ->
    (forall x y, x < d -> y < d -> rconj (get op [x; y]) = get op [y; x]) ->
    (forall k, k < length dims -> rconj (nth k (data ex) r0) = nth k (data ex) r0) ->
    (forall k, k < length dims -> nth k symm r0 + im * nth k asymm r0 = r1)%S ->
    exists terms, Seom_Model.diff K im hj sq close0 dims ex symm asymm h op = Ok terms /\
    forall a, extended dims d a ->
    exists b, apply_terms terms a = Ok b /\
      let v := overlap dims d (tiers dims a) (tiers dims b) in
      (v - rconj v = (hj + hj) * weight dims d (fun k => if close0 (nth k (data ex) r0) then r0 else nth k (data ex) r0) (tiers dims a))%S.
Proof.
  intros K im hj sq close0 dims d ex symm asymm h op Hh Hop Ng Lg Ls La C0 S0 Rs Rh HH HX Rg C1.
  destruct (seom_ok K im hj sq close0 dims d ex symm asymm h op Hh Hop Lg Ng Ls La C0 S0) as (l & E & X). exists l. split; auto.
  intros a Ra. destruct (X a Ra) as (b & Eb & Rb & Gb). exists b. split; auto. cbn zeta.
  set (ga := fun k => if close0 (nth k (data ex) r0) then r0 else nth k (data ex) r0) in *.
  rewrite <- (norm_rate K dims d a sq (mat h) (mat op) ga hj); auto.
  2:{ intros k Hk. unfold ga. cbv beta. destruct (close0 (nth k (data ex) r0)); [apply rconj_0|auto]. }
  assert (Ev : overlap dims d (tiers dims a) (tiers dims b) = overlap dims d (tiers dims a) (wave_rhs hj sq d (length dims) (mat h) (mat op) ga (fun _ => r1) (tiers dims a))).
  { unfold overlap. apply sumL_ext_in. intros n Hn. apply in_indices in Hn. apply sumn_ext. intros q Hq. apply sumn_ext. intros p Hp. f_equal.
    rewrite (tiers_in K dims) by auto. rewrite Gb by auto. unfold wave_rhs. f_equal. apply sumn_ext. intros k Hk. rewrite C1 by auto. reflexivity. }
  rewrite Ev. reflexivity.
Qed.
Print Assumptions C80_imaginary_part.

(** Taken as [i hbar dc/dt = (terms) c], this makes the norm grow, not decay: twice
    the real part of the product of [c] with [dc/dt] is [w >= 0]. *)
Theorem C80_norm_grows :
  forall (hbar : R) (sq : nat -> C_star) close0 dims d (gamma : list R) (symm asymm : list C_star) (h op : arr C_star),
    let ex : arr C_star := mkArr [length dims] (map RtoC gamma) in
    (0 < hbar)%R -> length gamma = length dims -> Forall (fun g => (0 <= g)%R) gamma ->
    shape h = [d; d] -> shape op = [d; d] ->
    length symm = length dims -> length asymm = length dims -> close0 r0 = true -> sq 0 = r0 -> (forall n, rconj (sq n) = sq n) ->
    (forall x y, x < d -> y < d -> rconj (get h [x; y]) = get h [y; x]) ->
    (forall x y, x < d -> y < d -> rconj (get op [x; y]) = get op [y; x]) ->
    (forall k, k < length dims -> nth k symm r0 + C_i * nth k asymm r0 = r1)%S ->
    exists terms, Seom_Model.diff C_star C_i (0, hbar / 2)%R sq close0 dims ex symm asymm h op = Ok terms /\
    forall a, extended dims d a ->
    exists b w, apply_terms terms a = Ok b /\
      RtoC w = weight dims d (fun k => if close0 (nth k (data ex) r0) then r0 else nth k (data ex) r0) (tiers dims a) /\ (0 <= w)%R /\
      (2 * fst (rmul ((0, - / hbar)%R : C_star) (overlap dims d (tiers dims a) (tiers dims b))) = w)%R.
Proof.
  intros hbar sq close0 dims d gamma symm asymm h op ex Hb Lg Pg Hh Hop Ls La C0 S0 Rs HH HX C1.
  assert (Ng : forall k, nth k (data ex) r0 = RtoC (nth k gamma 0%R)).
  { intros k. unfold ex. cbn [data]. change (r0 : C_star) with (RtoC 0). apply map_nth. }
  destruct (C80_imaginary_part C_star C_i (0, hbar / 2)%R sq close0 dims d ex symm asymm h op) as (l & E & X); auto.
  - unfold ex. cbn [data]. rewrite map_length. auto.
  - apply Ceq; cbn; lra.
  - intros k Hk. rewrite Ng. apply RtoC_conj.
  - exists l. split; auto. intros a Ra. destruct (X a Ra) as (b & Eb & V). cbn zeta in V.
    set (ga := fun k => if close0 (nth k (data ex) r0) then r0 else nth k (data ex) r0) in *.
    assert (Rsum : forall (A : Type) (ll : list A) (f : A -> C_star), (forall x, In x ll -> exists r, f x = RtoC r /\ (0 <= r)%R) -> exists r, sumL ll f = RtoC r /\ (0 <= r)%R).
    { intros A ll f. induction ll as [|x ll IH]; intros F; [exists 0%R; split; [reflexivity|lra]|]. rewrite sumL_cons.
      destruct (F x (or_introl eq_refl)) as (r1 & E1 & P1). destruct (IH (fun y Hy => F y (or_intror Hy))) as (r2 & E2 & P2).
      exists (r1 + r2)%R. rewrite E1, E2, RtoC_add. split; auto. lra. }
    assert (W : exists w, weight dims d ga (tiers dims a) = RtoC w /\ (0 <= w)%R).
    { unfold weight. apply Rsum. intros n Hn.
      assert (M : forall x y : C_star, (exists r, x = RtoC r /\ (0 <= r)%R) -> (exists r, y = RtoC r /\ (0 <= r)%R) -> exists r, rmul x y = RtoC r /\ (0 <= r)%R).
      { intros x y (rx & -> & Px) (ry & -> & Py). exists (rx * ry)%R. rewrite RtoC_mul. split; auto. apply Rmult_le_pos; auto. }
      apply M.
      - apply Rsum. intros k Hk. apply in_seq in Hk. apply M.
        + generalize (occ n k). intros x. induction x as [|x (r & IH & P)]; [exists 0%R; split; [reflexivity|lra]|]. cbn [num]. rewrite IH.
          exists (r + 1)%R. rewrite RtoC_add. split; [reflexivity|lra].
        + unfold ga. cbv beta. destruct (close0 (nth k (data ex) r0)); [exists 0%R; split; [reflexivity|lra]|]. rewrite Ng. eexists. split; [reflexivity|].
          rewrite Forall_forall in Pg. apply Pg. apply nth_In. lia.
      - apply Rsum. intros q _. apply Rsum. intros p _. destruct (tiers dims a n q p) as (x, y). exists (x * x + y * y)%R. split; [apply Ceq; cbn; ring|nra]. }
    destruct W as (w & Ew & Pw). exists b, w. split; auto. split; auto. split; auto. rewrite Ew in V.
    set (v := overlap dims d (tiers dims a) (tiers dims b)) in *. apply (f_equal snd) in V. destruct v as (vr, vi). cbn in V |- *. field_simplify; [|lra].
    apply (Rmult_eq_reg_r hbar); [|lra]. field_simplify; [|lra..]. lra.
Qed.
Print Assumptions C80_norm_grows.

(** A spin with two modes over the Gaussian integers, [hbar = 2]. *)
Definition wv_terms := Seom_Model.diff G_star gI gI gsq is0 [2; 2] (garr [2] [(3, 0); (5, 0)]%Z) [g 2 0; g 1 0] [g 1 0; g 4 0] pauli_y pauli_x.
Definition wv_rhs (a : arr G_star) := wave_rhs gI gsq 2 2 (mat pauli_y) (mat pauli_x) (fun k => nth k [g 3 0; g 5 0] r0) (fun k => nth k [g 2 1; g 1 4] r0) (tiers [2; 2] a).
Example C80_example :
  is0 r0 = true /\ gsq 0 = r0 /\ extended [2; 2] 2 ex_a /\
  match wv_terms with
  | Ok l => length l = 7 /\ match apply_terms l ex_a with
            | Ok b => map (fun n => get b (n ++ [0; 1])) [[0; 0]; [1; 0]; [0; 1]; [1; 1]] = map (fun n => wv_rhs ex_a n 0 1) [[0; 0]; [1; 0]; [0; 1]; [1; 1]] /\
                      get b [1; 1; 0; 1] <> r0
            | Raise _ => False end
  | Raise _ => False end.
Proof. split; [reflexivity|]. split; [reflexivity|]. split; [split; reflexivity|]. vm_compute. repeat split; discriminate. Qed.
Example C80_example_unbound :
  Seom_Model.diff G_star gI gI gsq is0 [2; 2] (garr [2; 2] [(3, 0); (0, 0); (0, 0); (5, 0)]%Z) [g 2 0; g 1 0] [g 1 0; g 4 0] pauli_y pauli_x = Raise UnboundLocalError.
Proof. reflexivity. Qed.
(** One mode with coefficient 1: the overlap has imaginary part 3 times the norm of tier 1. *)
Example C80_example_growth :
  (forall x y, x < 2 -> y < 2 -> rconj (get pauli_y [x; y]) = get pauli_y [y; x]) /\
  match Seom_Model.diff G_star gI gI gsq is0 [2] (garr [1] [(3, 0)]%Z) [g 1 0] [g 0 0] pauli_y pauli_x with
  | Ok l => let a := garr [2; 2; 2] [(1, 0); (0, 1); (2, 0); (0, 0); (1, 1); (0, 0); (0, 2); (1, 0)]%Z in
      match apply_terms l a with
      | Ok b => overlap [2] 2 (tiers [2] a) (tiers [2] b) = g 4 21 /\ weight [2] 2 (fun _ => g 3 0) (tiers [2] a) = g 21 0
      | Raise _ => False end
  | Raise _ => False end.
Proof. split; [intros [|[|x]] [|[|y]] Hx Hy; try lia; reflexivity|]. vm_compute. auto. Qed.
