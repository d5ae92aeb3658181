(** Property C68. *)
From Coq Require Import String List Arith ZArith Bool Lia Reals Lra.
From Verif Require Import Py Alg ListX NdArray_Model Contract_Model Net_Model Net_Spec Env_Spec Link_Spec
  Cache_Model Cache_Spec Cache_Proof Cplx Eom_Spec Eom_Model Expect_Model Expect_Spec Expect_Proof Cache_Prop Eom_Prop.
Import ListNotations.
Local Open Scope nat_scope.
Local Open Scope list_scope.

(** ** C68: expectation values of a sum of terms *)
Lemma visited_terms (K : StarRing) T (sys : system K T) op time : terms_at (h_list K T sys) (f_list K T sys) op time = visited K T sys op time.
Proof.
  destruct op; [reflexivity|]. unfold terms_at, visited, all_terms. destruct (f_list K T sys) as [f|]; [|symmetry; apply app_nil_r].
  f_equal. apply map_ext. intros term. apply map_ext. intros (l & m). reflexivity.
Qed.

(** [matrix_element] adds up the matrix elements of the terms, between the arrays [A] and
    the arrays [B] kept in [aux]; the first index of each matrix belongs to [A]. *)
Theorem C68_matrix_element :
  forall (K : StarRing) T (sys : system K T) fuel (s : state K) R A B op time,
    hangs (sheap K s) None R -> top R = sroot K s -> no_self_slot (sheap K s) -> oaxis (hget (sheap K s) (top R)) = None -> height R <= fuel ->
    fits A None 0 R -> fits B None 0 R -> ldims B None 0 R = ldims A None 0 R ->
    (forall n, In n (nids R) -> oarr (hget (sheap K s) n) = Some (A n) /\ oaux (hget (sheap K s) n) = Some (B n)) ->
    let terms := terms_at (h_list K T sys) (f_list K T sys) op time in
    Forall (suits (sheap K s) R A) terms ->
    result (ml_matrix_element K T sys fuel op time s) = Ok (sumL terms (element A B R)).
Proof.
  intros K T sys fuel s R A B op time H Et NS Ax Hh FA FB EB N terms Su. subst terms. rewrite visited_terms in *.
  destruct (sum_values K fuel R (sheap K s) (matrix_element fuel) (fun h => forall n, In n (nids R) -> oaux (hget h n) = Some (B n)) (element A B R) H Hh
    ltac:(intros h h' X Y n Hn; rewrite X; auto)
    (suits (sheap K s) R A) ltac:(intros term (X & _); exact X)) with (terms := visited K T sys op time) (s := s) as (s' & E1 & _); auto.
  - intros h term C Se Aux S. apply (matrix_element_term K fuel R (sheap K s) A); auto. intros n Hn. apply N; auto.
  - apply core_refl.
  - intros n Hn. apply N; auto.
  - unfold ml_matrix_element. rewrite E1. reflexivity.
Qed.
Print Assumptions C68_matrix_element.

(** [expection] of Hermitian operators; [n] is the square of the norm of the state. *)
Theorem C68_hermitian :
  forall T (sys : system C_star T) fuel (s : state C_star) ks A (close : R -> bool) (normalized : bool) op time,
    let r := sroot C_star s in let R0 := Nd r ks in let terms := terms_at (h_list C_star T sys) (f_list C_star T sys) op time in
    hangs (sheap C_star s) None R0 -> no_self_slot (sheap C_star s) -> oaxis (hget (sheap C_star s) r) = None -> height R0 <= fuel ->
    fits A None 0 R0 -> (forall n, In n (nids R0) -> oarr (hget (sheap C_star s) n) = Some (A n)) ->
    Forall (suits (sheap C_star s) R0 A) terms -> adjoint_to r1 terms A R0 -> close 0%R = true ->
    exists q n : R, sumL terms (element A (fun n => arr_conj (A n)) R0) = RtoC q /\
      sumL (indices (ldims A None 0 R0)) (fun v => rmul (dense A R0 v) (rconj (dense A R0 v))) = RtoC n /\
      (n <> 0%R -> result (ml_expection close sys fuel normalized op time s) = Ok (if normalized then q / n else q)%R).
Proof.
  intros T sys fuel s ks A close normalized op time r R0 terms. assert (Vt := visited_terms C_star T sys op time : terms = _). clearbody terms. subst terms. set (terms := visited C_star T sys op time). intros H NS Ax Hh F N Su Ad Cl.
  destruct (expection_value T sys fuel s ks A H NS Ax Hh F N close normalized op time Su) as (n & Pn & En & Er).
  pose proof (self_adjoint C_star r1 A r ks terms Ad) as X. cbv zeta in X. fold R0 in X. cbv zeta in Er. fold r R0 terms in En, Er.
  set (E := sumL terms (element A (fun n => arr_conj (A n)) R0)) in *.
  assert (Eq : E = RtoC (fst E)). { apply (f_equal snd) in X. cbn in X. apply Ceq; cbn; lra. }
  exists (fst E), n. split; auto. split; auto. intros Hn. rewrite Er. destruct normalized.
  - rewrite Eq. rewrite Cinv_R by auto. rewrite <- RtoC_mul. cbn [RtoC fst snd]. rewrite Cl. reflexivity.
  - rewrite Eq. cbn [RtoC fst snd]. rewrite Cl. reflexivity.
Qed.
Print Assumptions C68_hermitian.

(** [expection] of anti-Hermitian operators, the ones that real time needs (C67): it raises
    unless the expectation value is close to zero. *)
Theorem C68_antihermitian_raises :
  forall T (sys : system C_star T) fuel (s : state C_star) ks A (close : R -> bool) (normalized : bool) op time,
    let r := sroot C_star s in let R0 := Nd r ks in let terms := terms_at (h_list C_star T sys) (f_list C_star T sys) op time in
    hangs (sheap C_star s) None R0 -> no_self_slot (sheap C_star s) -> oaxis (hget (sheap C_star s) r) = None -> height R0 <= fuel ->
    fits A None 0 R0 -> (forall n, In n (nids R0) -> oarr (hget (sheap C_star s) n) = Some (A n)) ->
    Forall (suits (sheap C_star s) R0 A) terms -> adjoint_to (ropp r1) terms A R0 ->
    exists q n : R, rmul C_i (sumL terms (element A (fun n => arr_conj (A n)) R0)) = RtoC q /\
      sumL (indices (ldims A None 0 R0)) (fun v => rmul (dense A R0 v) (rconj (dense A R0 v))) = RtoC n /\
      (n <> 0%R -> let x := if normalized then (- (q / n))%R else (- q)%R in
         result (ml_expection close sys fuel normalized op time s) = if close x then Ok 0%R else Raise AssertionError).
Proof.
  intros T sys fuel s ks A close normalized op time r R0 terms. assert (Vt := visited_terms C_star T sys op time : terms = _). clearbody terms. subst terms. set (terms := visited C_star T sys op time). intros H NS Ax Hh F N Su Ad.
  destruct (expection_value T sys fuel s ks A H NS Ax Hh F N close normalized op time Su) as (n & Pn & En & Er).
  pose proof (self_adjoint C_star (ropp r1) A r ks terms Ad) as X. cbv zeta in X. fold R0 in X. cbv zeta in Er. fold r R0 terms in En, Er.
  set (E := sumL terms (element A (fun n => arr_conj (A n)) R0)) in *.
  assert (E0 : fst E = 0%R). { apply (f_equal fst) in X. cbn in X. lra. }
  exists (- snd E)%R, n. split; [apply Ceq; cbn; rewrite E0; ring|]. split; auto. intros Hn x. rewrite Er. destruct normalized.
  - rewrite Cinv_R by auto. cbn [rmul C_star Cmul RtoC fst snd]. rewrite E0.
    replace (0 * 0 + snd E * / n)%R with x by (unfold x; field; auto). replace (0 * / n - snd E * 0)%R with 0%R by ring. reflexivity.
  - replace (snd E) with x by (unfold x; ring). rewrite E0. reflexivity.
Qed.
Print Assumptions C68_antihermitian_raises.

(** The tensor of C67: [H] gives 1, [-i H] raises. *)
Definition close7 (x : R) : bool := if Rlt_dec (Rabs x) (15 / 100000000) then true else false.
Lemma close7_0 : close7 0 = true.
Proof. unfold close7. rewrite Rabs_R0. destruct (Rlt_dec 0 (15 / 100000000)); [auto|lra]. Qed.
Example C68_example :
  let run u normalized := result (ml_expection close7 (one_sys u) 3 normalized None 0%R one_s) in
  run r1 false = Ok 1%R /\ run r1 true = Ok 1%R /\ run (ropp C_i) false = Raise AssertionError /\ run (ropp C_i) true = Raise AssertionError.
Proof.
  intros run.
  assert (NS : no_self_slot one_h).
  { intros n i. destruct n as [|[|n]]; cbn; [intros [X|[]]; discriminate X|intros [X|[]]; discriminate X|]. destruct n; cbn; intros []. }
  assert (Hh : height (Nd 0 one_ks) <= 3) by (cbn; lia).
  assert (P : forall u, hangs one_h None (Nd 0 one_ks) /\ fits one_a None 0 (Nd 0 one_ks) /\ (forall n, In n (nids (Nd 0 one_ks)) -> oarr (hget one_h n) = Some (one_a n)) /\ Forall (suits one_h (Nd 0 one_ks) one_a) (all_terms C_star R (one_sys u) 0%R)).
  { intros u. destruct (one_standing u 0%R) as (A & _ & B & _ & C & _ & D). tauto. }
  assert (Q : forall nz, run r1 nz = Ok 1%R).
  { intros nz. destruct (P r1) as (A & B & C & D). unfold run.
    destruct (C68_hermitian R (one_sys r1) 3 one_s one_ks one_a close7 nz None 0%R A NS eq_refl Hh B C D
      (one_adjoint r1 r1 0%R ltac:(apply Ceq; cbn; ring)) close7_0) as (q & n & Eq & En & Er).
    assert (q = 1%R) as ->. { apply (f_equal fst) in Eq. unfold element, factor, terms_at in Eq. cbn in Eq. lra. }
    assert (n = 1%R) as ->. { apply (f_equal fst) in En. cbn in En. lra. }
    rewrite Er by lra. destruct nz; f_equal; field. }
  assert (Q' : forall nz, run (ropp C_i) nz = Raise AssertionError).
  { intros nz. destruct (P (ropp C_i)) as (A & B & C & D). unfold run.
    destruct (C68_antihermitian_raises R (one_sys (ropp C_i)) 3 one_s one_ks one_a close7 nz None 0%R A NS eq_refl Hh B C D
      (one_adjoint (ropp r1) (ropp C_i) 0%R ltac:(apply Ceq; cbn; ring))) as (q & n & Eq & En & Er).
    assert (q = 1%R) as ->. { apply (f_equal fst) in Eq. unfold element, factor, terms_at in Eq. cbn in Eq. lra. }
    assert (n = 1%R) as ->. { apply (f_equal fst) in En. cbn in En. lra. }
    rewrite Er by lra. cbv zeta. replace (if nz then (- (1 / 1))%R else (- (1))%R) with (-1)%R by (destruct nz; field).
    unfold close7. rewrite Rabs_left by lra. destruct (Rlt_dec (- (-1)) (15 / 100000000)); [lra|reflexivity]. }
  auto.
Qed.
