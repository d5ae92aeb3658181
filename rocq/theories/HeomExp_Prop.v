(** Property C102. *)
From Coq Require Import String List Arith ZArith Bool Lia Reals Lra.
From Verif Require Import Py Alg ListX NdArray_Model Contract_Model Net_Model Net_Spec Env_Spec Link_Spec
  Cache_Model Cache_Spec Cache_Proof Cplx Eom_Spec Eom_Model Expect_Model Expect_Spec Expect_Proof Cache_Prop Eom_Prop Expect_Prop
  HeomExp_Model HeomExp_Spec.
Import ListNotations.
Local Open Scope nat_scope.
Local Open Scope list_scope.

(** ** C102: the expectation value of heom/propagate.py *)
(** For any network, well formed or not: ml.py answers what heom/propagate.py answers, checked,
    and both leave the same state behind. *)
Theorem C102_ml_is_checked :
  forall T (sys : system C_star T) fuel (normalized : bool) op time s (close : R -> bool),
    result (ml_expection close sys fuel normalized op time s) = checked close (result (heom_expection sys fuel normalized op time s)) /\
    (forall x s', ml_expection close sys fuel normalized op time s = Ok (x, s') ->
       exists y, heom_expection sys fuel normalized op time s = Ok ((x, y), s') /\ close y = true).
Proof.
  intros T sys fuel normalized op time s close. unfold ml_expection, heom_expection.
  destruct (sum_terms C_star fuel (expection fuel) (visited C_star T sys op time) s) as [(ans, s1)|e]; cbn [bind]; [|split; [reflexivity|discriminate]].
  destruct normalized; cbn [bind].
  - destruct (global_square fuel (sheap C_star s1) (sroot C_star s1)) as [(v, h)|e]; cbn [bind]; [|split; [reflexivity|discriminate]].
    destruct (rmul ans (Cinv (value_of C_star v))) as (re, im). cbn [fst snd result checked].
    destruct (close im) eqn:Ec; split; try reflexivity; try discriminate. intros x s' X. injection X as <- <-. eauto.
  - destruct ans as (re, im). cbn [fst snd result checked].
    destruct (close im) eqn:Ec; split; try reflexivity; try discriminate. intros x s' X. injection X as <- <-. eauto.
Qed.
Print Assumptions C102_ml_is_checked.

Lemma close_only (x y : R) (z : res C_star) :
  (forall close : R -> bool, checked close z = if close y then Ok x else Raise AssertionError) -> z = Ok ((x, y) : C_star).
Proof.
  intros H. destruct z as [(re, im)|e].
  - pose proof (H (fun _ => true)) as A. cbn in A. injection A as ->.
    pose proof (H (fun u => if Req_EM_T u y then true else false)) as B. cbn in B.
    destruct (Req_EM_T y y) as [_|F]; [|destruct (F eq_refl)]. destruct (Req_EM_T im y) as [->|_]; [reflexivity|discriminate B].
  - pose proof (H (fun _ => true)) as A. discriminate A.
Qed.

(** On a network it is the sum of the matrix elements of the terms, over the square [n] of the
    norm if asked; whatever the terms are, it does not raise. *)
Theorem C102_value :
  forall T (sys : system C_star T) fuel (s : state C_star) ks A (normalized : bool) op time,
    let r := sroot C_star s in let R0 := Nd r ks in let terms := terms_at (h_list C_star T sys) (f_list C_star T sys) op time in
    hangs (sheap C_star s) None R0 -> no_self_slot (sheap C_star s) -> oaxis (hget (sheap C_star s) r) = None -> height R0 <= fuel ->
    fits A None 0 R0 -> (forall n, In n (nids R0) -> oarr (hget (sheap C_star s) n) = Some (A n)) ->
    Forall (suits (sheap C_star s) R0 A) terms ->
    exists (z : C_star) (n : R), result (heom_expection sys fuel normalized op time s) = Ok z /\
      sumL (indices (ldims A None 0 R0)) (fun v => rmul (dense A R0 v) (rconj (dense A R0 v))) = RtoC n /\
      (n <> 0%R -> rmul z (if normalized then RtoC n else r1) = sumL terms (element A (fun n => arr_conj (A n)) R0)).
Proof.
  intros T sys fuel s ks A normalized op time r R0 terms. assert (Vt := visited_terms C_star T sys op time : terms = _). clearbody terms. subst terms.
  set (terms := visited C_star T sys op time). intros H NS Ax Hh F N Su.
  set (E := sumL terms (element A (fun n => arr_conj (A n)) R0)).
  destruct (expection_value T sys fuel s ks A H NS Ax Hh F N (fun _ => true) normalized op time Su) as (n & Pn & En & _).
  set (E' := if normalized then rmul E (Cinv (RtoC n)) else E : C_star).
  exists E', n. split; [|split; [exact En|]].
  - rewrite (surjective_pairing E'). apply close_only. intros close.
    rewrite <- (proj1 (C102_ml_is_checked T sys fuel normalized op time s close)).
    destruct (expection_value T sys fuel s ks A H NS Ax Hh F N close normalized op time Su) as (n' & Pn' & En' & Er).
    assert (n' = n) as ->. { rewrite En in En'. injection En'. auto. }
    exact Er.
  - intros Hn. unfold E'. destruct normalized.
    + rewrite Cinv_R by auto. destruct E as (a, b). apply Ceq; cbn; field; auto.
    + destruct E as (a, b). apply Ceq; cbn; ring.
Qed.
Print Assumptions C102_value.

(** Anti-Hermitian terms, as the equation of motion of real time needs them (C67): a purely
    imaginary number is returned where ml.py raises (C68). *)
Theorem C102_antihermitian_imaginary :
  forall T (sys : system C_star T) fuel (s : state C_star) ks A (normalized : bool) op time,
    let r := sroot C_star s in let R0 := Nd r ks in let terms := terms_at (h_list C_star T sys) (f_list C_star T sys) op time in
    hangs (sheap C_star s) None R0 -> no_self_slot (sheap C_star s) -> oaxis (hget (sheap C_star s) r) = None -> height R0 <= fuel ->
    fits A None 0 R0 -> (forall n, In n (nids R0) -> oarr (hget (sheap C_star s) n) = Some (A n)) ->
    Forall (suits (sheap C_star s) R0 A) terms -> adjoint_to (ropp r1) terms A R0 ->
    exists q n : R, rmul C_i (sumL terms (element A (fun n => arr_conj (A n)) R0)) = RtoC q /\
      sumL (indices (ldims A None 0 R0)) (fun v => rmul (dense A R0 v) (rconj (dense A R0 v))) = RtoC n /\
      (n <> 0%R -> result (heom_expection sys fuel normalized op time s) = Ok ((0, if normalized then - (q / n) else - q)%R : C_star)).
Proof.
  intros T sys fuel s ks A normalized op time r R0 terms H NS Ax Hh F N Su Ad.
  destruct (C68_antihermitian_raises T sys fuel s ks A (fun _ => true) normalized op time H NS Ax Hh F N Su Ad) as (q & n & Eq & En & _).
  exists q, n. split; [exact Eq|]. split; [exact En|]. intros Hn. apply close_only. intros close.
  rewrite <- (proj1 (C102_ml_is_checked T sys fuel normalized op time s close)).
  destruct (C68_antihermitian_raises T sys fuel s ks A close normalized op time H NS Ax Hh F N Su Ad) as (q' & n' & Eq' & En' & Er).
  assert (q' = q) as ->. { apply (f_equal fst) in Eq, Eq'. exact (eq_trans (eq_sym Eq') Eq). }
  assert (n' = n) as ->. { apply (f_equal fst) in En, En'. exact (eq_trans (eq_sym En') En). }
  exact (Er Hn).
Qed.
Print Assumptions C102_antihermitian_imaginary.

(** The tensor of C67 with [-i H]: ml.py raises (C68), this returns [-i]. *)
Example C102_example :
  forall nz, result (heom_expection (one_sys (ropp C_i)) 3 nz None 0%R one_s) = Ok ((0, -1)%R : C_star) /\
    result (ml_expection close7 (one_sys (ropp C_i)) 3 nz None 0%R one_s) = Raise AssertionError.
Proof.
  intros nz. assert (M : result (ml_expection close7 (one_sys (ropp C_i)) 3 nz None 0%R one_s) = Raise AssertionError).
  { destruct C68_example as (_ & _ & X & Y). destruct nz; assumption. }
  split; [|exact M].
  assert (NS : no_self_slot one_h).
  { intros n i. destruct n as [|[|n]]; cbn; [intros [X|[]]; discriminate X|intros [X|[]]; discriminate X|]. destruct n; cbn; intros []. }
  assert (Hh : height (Nd 0 one_ks) <= 3) by (cbn; lia).
  destruct (one_standing (ropp C_i) 0%R) as (A & _ & B & _ & C & _ & D).
  destruct (C102_antihermitian_imaginary R (one_sys (ropp C_i)) 3 one_s one_ks one_a nz None 0%R A NS eq_refl Hh B C D
    (one_adjoint (ropp r1) (ropp C_i) 0%R ltac:(apply Ceq; cbn; ring))) as (q & n & Eq & En & Er).
  assert (q = 1%R) as ->. { apply (f_equal fst) in Eq. unfold element, factor, terms_at in Eq. cbn in Eq. lra. }
  assert (n = 1%R) as ->. { apply (f_equal fst) in En. cbn in En. lra. }
  rewrite Er by lra. destruct nz; f_equal; f_equal; field.
Qed.
