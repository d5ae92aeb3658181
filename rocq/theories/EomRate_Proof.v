(** How the norm and the expectation value change along the derivative of the root. *)
From Coq Require Import String List Arith ZArith Bool Lia Reals Lra.
From Verif Require Import Py Alg ListX NdArray_Model NdArray_Proof Contract_Model Net_Model Net_Spec Env_Spec
  EnvThm_Proof Cache_Model Cache_Spec Cplx Eom_Model Eom_Spec Eom_Proof.
Import ListNotations.
Local Open Scope nat_scope.
Local Open Scope list_scope.

Section Rate.
Variable K : StarRing.
Add Ring Kr : (r_theory K).
Implicit Types A : id -> arr K.

Lemma nth_map2 (f : K -> K -> K) (x y : list K) k : f r0 r0 = r0 -> length x = length y ->
  nth k (map (fun p => f (fst p) (snd p)) (combine x y)) r0 = f (nth k x r0) (nth k y r0).
Proof.
  intros F L. revert y L k. induction x as [|a x IH]; intros [|b y] L [|k]; try discriminate; cbn [combine map nth]; auto.
Qed.
Lemma get_map2 (f : K -> K -> K) sh (x y : list K) i : f r0 r0 = r0 -> length x = length y ->
  get (mkArr sh (map (fun p => f (fst p) (snd p)) (combine x y))) i = f (get (mkArr sh x) i) (get (mkArr sh y) i).
Proof. intros F L. unfold get. cbn [shape data]. apply nth_map2; auto. Qed.
Lemma get_map1 (f : K -> K) sh (x : list K) i : f r0 = r0 -> get (mkArr sh (map f x)) i = f (get (mkArr sh x) i).
Proof. intros F. unfold get. cbn [shape data]. rewrite <- F at 1. apply map_nth. Qed.

Lemma pairing_inner (x y : arr K) : pairing (arr_conj x) y = inner x y.
Proof. unfold pairing, inner. apply sumL_ext. intros i. now rewrite get_conj. Qed.
Lemma inner_conj (x y : arr K) : shape x = shape y -> rconj (inner x y) = inner y x.
Proof. intros E. unfold inner. rewrite rconj_sumL, E. apply sumL_ext. intros i. rewrite rconj_mul, rconj_invol. ring. Qed.
Lemma advanced_get sh (y : list K) eps d i : length y = length d ->
  get (mkArr sh (advanced y eps d)) i = (get (mkArr sh y) i + eps * get (mkArr sh d) i)%S.
Proof. intros L. unfold advanced. apply (get_map2 (fun a b => (a + eps * b)%S)); auto. ring. Qed.
Lemma advanced_length (y : list K) eps d : length y = length d -> length (advanced y eps d) = length y.
Proof. intros L. unfold advanced. rewrite map_length, combine_length. lia. Qed.
Lemma inner_advanced_l sh (y d : list K) eps z : length y = length d -> rconj eps = eps ->
  inner (mkArr sh (advanced y eps d)) z = (inner (mkArr sh y) z + eps * inner (mkArr sh d) z)%S.
Proof.
  intros L E. unfold inner. rewrite <- sumL_scal_l, <- sumL_add. apply sumL_ext. intros i.
  rewrite advanced_get, rconj_add, rconj_mul, E by auto. ring.
Qed.
Lemma inner_advanced_r sh (y d : list K) eps z : length y = length d -> rconj eps = eps ->
  inner z (mkArr sh (advanced y eps d)) = (inner z (mkArr sh y) + eps * inner z (mkArr sh d))%S.
Proof.
  intros L E. unfold inner. cbn [shape]. rewrite <- sumL_scal_l, <- sumL_add. apply sumL_ext. intros i.
  rewrite advanced_get by auto. ring.
Qed.
(** N(y + eps d) = N(y) + eps (<y,d> + conj) + eps^2 N(d) *)
Lemma norm_advanced sh (y d : list K) eps : length y = length d -> rconj eps = eps ->
  let Y := mkArr sh y in let D := mkArr sh d in let S := mkArr sh (advanced y eps d) in
  inner S S = (inner Y Y + eps * (inner Y D + rconj (inner Y D)) + eps * eps * inner D D)%S.
Proof.
  intros L E Y D N. unfold N. rewrite inner_advanced_l, !inner_advanced_r by auto. fold Y D. rewrite (inner_conj Y D) by reflexivity. ring.
Qed.

(** The bilinear form of the terms. *)
Definition form A r t terms (y z : arr K) : K := sumL terms (element (exchanged A r y) (varied A r (arr_conj z)) t).
Lemma form_total A r ks terms (y z : arr K) : shape y = shape (A r) -> shape z = shape (A r) ->
  form A r (Nd r ks) terms y z =
  sumL (indices (ldims A None 0 (Nd r ks))) (fun v => sumL (indices (ldims A None 0 (Nd r ks))) (fun w =>
    (dense (exchanged A r y) (Nd r ks) v * rconj (dense (exchanged A r z) (Nd r ks) w) * total terms (Nd r ks) v w)%S)).
Proof.
  intros Ey Ez. set (R := Nd r ks). unfold form, element.
  assert (E1 : ldims (exchanged A r y) None 0 R = ldims A None 0 R) by (apply exchanged_ldims; auto).
  assert (E2 : ldims (varied A r (arr_conj z)) None 0 R = ldims A None 0 R).
  { apply ldims_agree. intros n _. unfold varied. destruct (n =? r) eqn:E; [apply Nat.eqb_eq in E; subst n|]; unfold arr_conj; cbn [shape]; auto. }
  rewrite (sumL_ext K terms _ (fun term => sumL (indices (ldims A None 0 R)) (fun v => sumL (indices (ldims A None 0 R)) (fun w =>
    (dense (exchanged A r y) R v * rconj (dense (exchanged A r z) R w) * prodL (lids R) (fun l => factor term l (asg (lids R) v l) (asg (lids R) w l)))%S)))).
  2:{ intros term. rewrite E1, E2. apply sumL_ext. intros v. apply sumL_ext. intros w. f_equal. f_equal.
      unfold dense. rewrite <- amp_conj. apply amp_arrays. intros n. unfold varied, exchanged. destruct (n =? r); reflexivity. }
  rewrite sumL_swap. apply sumL_ext. intros v. rewrite sumL_swap. apply sumL_ext. intros w.
  rewrite sumL_scal_l. reflexivity.
Qed.
Lemma form_adjoint sg A r ks terms (y z : arr K) : shape y = shape (A r) -> shape z = shape (A r) ->
  adjoint_to sg terms A (Nd r ks) -> form A r (Nd r ks) terms y z = (sg * rconj (form A r (Nd r ks) terms z y))%S.
Proof.
  intros Ey Ez H. rewrite !form_total by auto. rewrite rconj_sumL, <- sumL_scal_l.
  rewrite (sumL_ext K _ (fun x => (sg * rconj _)%S) (fun x => sumL (indices (ldims A None 0 (Nd r ks))) (fun w => sg * rconj (dense (exchanged A r z) (Nd r ks) x * rconj (dense (exchanged A r y) (Nd r ks) w) * total terms (Nd r ks) x w))%S)).
  2:{ intros v. rewrite rconj_sumL, <- sumL_scal_l. reflexivity. }
  rewrite sumL_swap. apply sumL_ext_in. intros w Hw. apply sumL_ext_in. intros v Hv.
  rewrite (H v w) by auto. rewrite !rconj_mul, !rconj_invol. ring.
Qed.

Section Run.
Variable T : Type.
Variable sys : system K T.
Variable fuel : nat.
Variables (s : state K) (ks : list (nat * tree * nat)) (A : id -> arr K) (time : T).
Let r := sroot K s.
Let R := Nd r ks.
Let sh := shape (A r).
Let terms := all_terms K T sys time.
Hypothesis St : standing fuel (sheap K s) r ks A terms.

Lemma deriv y : length y = prod sh -> exists g, result (diff K T sys fuel r false time y (forget s)) = Ok g /\ length g = length y /\
  forall z, length z = prod sh -> inner (mkArr sh z) (mkArr sh g) = form A r R terms (mkArr sh y) (mkArr sh z).
Proof.
  destruct St as (H & ND & F & Hf & N & U & S). intros L.
  destruct (diff_sem K T sys fuel s ks A time y H ND F Hf N U S L) as (g & E & Lg & P). exists g. split; auto. split; auto.
  intros z Lz. rewrite <- pairing_inner. apply P; [|reflexivity]. unfold wf, arr_conj. cbn [shape data]. rewrite map_length. auto.
Qed.
Lemma deriv_expected y g : length y = prod sh -> result (diff K T sys fuel r false time y (forget s)) = Ok g ->
  inner (mkArr sh y) (mkArr sh g) = expected A r R terms (mkArr sh y).
Proof. intros L E. destruct (deriv y L) as (g' & E' & _ & P). rewrite E in E'. injection E' as <-. rewrite P by auto. reflexivity. Qed.

Lemma expected_adjoint sg y : shape y = sh -> adjoint_to sg terms A R -> expected A r R terms y = (sg * rconj (expected A r R terms y))%S.
Proof. intros E H. apply form_adjoint; auto. Qed.

(** The expectation value at [y + eps d]. *)
Lemma expected_advanced sg y g d eps : length y = prod sh -> length d = prod sh -> rconj eps = eps -> rconj sg = sg -> (sg * sg = r1)%S ->
  adjoint_to sg terms A R -> result (diff K T sys fuel r false time y (forget s)) = Ok g ->
  expected A r R terms (mkArr sh (advanced y eps d)) =
  (expected A r R terms (mkArr sh y) + eps * (inner (mkArr sh d) (mkArr sh g) + sg * rconj (inner (mkArr sh d) (mkArr sh g)))
   + eps * eps * expected A r R terms (mkArr sh d))%S.
Proof.
  intros Ly Ld Ee Es S2 H Eg. set (a := advanced y eps d). assert (La : length a = prod sh) by (unfold a; rewrite advanced_length; congruence).
  destruct (deriv y Ly) as (g' & Eg' & _ & Py). rewrite Eg in Eg'. injection Eg' as <-.
  destruct (deriv d Ld) as (gd & _ & _ & Pd). destruct (deriv a La) as (ga & _ & _ & Pa).
  change (expected A r R terms) with (fun x => form A r R terms x x). cbv beta.
  assert (Sw : forall x z, length x = prod sh -> length z = prod sh -> form A r R terms (mkArr sh x) (mkArr sh z) = (sg * rconj (form A r R terms (mkArr sh z) (mkArr sh x)))%S)
    by (intros; apply form_adjoint; auto).
  rewrite <- (Pa a La). unfold a at 1. rewrite inner_advanced_l by congruence. rewrite !Pa by auto.
  rewrite (Sw a y), (Sw a d) by auto. rewrite <- (Py a La), <- (Pd a La). unfold a. rewrite !inner_advanced_l by congruence.
  rewrite (Py y Ly), (Pd d Ld), (Py d Ld), (Pd y Ly), !rconj_add, !rconj_mul, Ee.
  assert (Q1 := Sw y y Ly Ly). assert (Q2 := Sw d d Ld Ld). assert (Q3 := Sw y d Ly Ld).
  transitivity (sg * rconj (form A r R terms (mkArr sh y) (mkArr sh y)) + eps * (sg * rconj (form A r R terms (mkArr sh d) (mkArr sh y)) + sg * rconj (form A r R terms (mkArr sh y) (mkArr sh d))) + eps * eps * (sg * rconj (form A r R terms (mkArr sh d) (mkArr sh d))))%S; [ring|].
  rewrite <- Q1, <- Q2, <- Q3. reflexivity.
Qed.
End Run.
End Rate.

(** ** Complex numbers *)
Section Complex.
Add Ring Cring2 : (r_theory C_star).
Notation CC := C_star.
Variables (sys : system CC R) (fuel : nat) (s : state CC) (ks : list (nat * tree * nat)) (A : id -> arr CC).
Variables (coef : option R -> CC) (imaginary : bool) (time : R).
Let tm : option R := if imaginary then None else Some time.
Let r := sroot CC s.
Let R0 := Nd r ks.
Let sh := shape (A r).
Let terms := all_terms CC R sys (time_of tm).
Hypothesis St : standing fuel (sheap CC s) r ks A terms.
Let kappa := Cinv (coef tm).
Let e_of (e : option R) : CC := match e with None => r0 | Some x => RtoC x end.

Lemma split_diff_ok e0 y : length y = prod sh -> exists g d,
  result (diff CC R sys fuel r false (time_of tm) y (forget s)) = Ok g /\
  result (split_diff coef sys fuel imaginary e0 r false time y (forget s)) = Ok d /\ length g = prod sh /\ length d = prod sh /\
  forall i, get (mkArr sh d) i = rmul (rsub (get (mkArr sh g) i) (rmul (e_of e0) (get (mkArr sh y) i))) kappa.
Proof.
  intros L. destruct (deriv CC _ sys fuel s ks A (time_of tm) St y L) as (g & E & Lg & _).
  fold r in E. unfold split_diff. fold tm. unfold result in E |- *. destruct (diff CC R sys fuel r false (time_of tm) y (forget s)) as [(g', s')|x]; [|discriminate E].
  cbn [fst] in E. injection E as ->. cbn [bind fst]. eexists g, _. split; [reflexivity|]. split; [reflexivity|]. split; [congruence|].
  fold kappa. destruct e0 as [e|].
  - split; [rewrite !map_length, combine_length; lia|]. intros i.
    rewrite (get_map1 CC (fun x => rmul x kappa)) by ring.
    rewrite (get_map2 CC (fun a b => rsub a (rmul (RtoC e) b))); auto. ring.
  - split; [rewrite map_length; congruence|]. intros i. rewrite (get_map1 CC (fun x => rmul x kappa)) by ring. cbn [e_of]. ring.
Qed.
Lemma inner_scaled (x g y d : arr CC) (e k : CC) : shape y = shape g -> shape d = shape g ->
  (forall i, get d i = rmul (rsub (get g i) (rmul e (get y i))) k) ->
  inner x d = rmul (rsub (inner x g) (rmul e (inner x y))) k.
Proof.
  intros Ey Ed H. unfold inner. rewrite Ey, Ed. rewrite <- sumL_scal_l, <- sumL_sub, <- sumL_scal_r. apply sumL_ext. intros i. rewrite H. ring.
Qed.

(** Expectation values of Hermitian and anti-Hermitian operators. *)
Lemma expected_real y : shape y = sh -> adjoint_to r1 terms A R0 -> exists q : R, expected A r R0 terms y = RtoC q.
Proof.
  intros E H. pose proof (expected_adjoint CC _ sys s ks A (time_of tm) r1 y E H) as X. fold r R0 terms in X. set (z := expected A r R0 terms y) in *.
  exists (fst z). assert (X' : z = rconj z) by (rewrite X at 1; ring). apply Ceq; [reflexivity|]. apply (f_equal snd) in X'. cbn in X' |- *. lra.
Qed.
Lemma expected_imag y : shape y = sh -> adjoint_to (ropp r1) terms A R0 -> exists q : R, rmul C_i (expected A r R0 terms y) = RtoC q.
Proof.
  intros E H. pose proof (expected_adjoint CC _ sys s ks A (time_of tm) (ropp r1) y E H) as X. fold r R0 terms in X. set (z := expected A r R0 terms y) in *.
  exists (- snd z)%R. assert (X' : z = ropp (rconj z)) by (rewrite X at 1; ring). apply (f_equal fst) in X'. cbn in X'.
  apply Ceq; cbn; lra.
Qed.
Lemma norm2_real (y : arr CC) : exists q : R, inner y y = RtoC q /\ (0 <= q)%R.
Proof. unfold inner. destruct (sum_norm2 (indices (shape y)) (fun i => get y i)) as (q & E & P & _). eauto. Qed.

Let er (e : option R) : R := match e with None => 0%R | Some x => x end.
Lemma e_of_er e : e_of e = RtoC (er e).
Proof. destruct e; reflexivity. Qed.
Lemma rates sg u e0 y (eps a b : R) : length y = prod sh -> kappa = ((a, b) : CC) -> adjoint_to sg terms A R0 ->
  sg = r1 /\ u = r1 \/ sg = ropp r1 /\ u = C_i ->
  exists g d ny qy nd qd ng,
  result (diff CC R sys fuel r false (time_of tm) y (forget s)) = Ok g /\
  result (split_diff coef sys fuel imaginary e0 r false time y (forget s)) = Ok d /\ length d = length y /\
  observed RtoC u A r R0 terms y ny qy /\ observed RtoC u A r R0 terms d nd qd /\ inner (mkArr sh g) (mkArr sh g) = RtoC ng /\ (0 <= ng)%R /\
  ((u = r1 /\ observed RtoC u A r R0 terms (advanced y (RtoC eps) d) (ny + eps * (2 * a * (qy - er e0 * ny)) + eps * eps * nd)%R
                                                                (qy + eps * (2 * a * (ng - er e0 * qy)) + eps * eps * qd)%R) \/
   (u = C_i /\ observed RtoC u A r R0 terms (advanced y (RtoC eps) d) (ny + eps * (2 * (b * qy - a * er e0 * ny)) + eps * eps * nd)%R
                                                                (qy + eps * (2 * (b * ng - a * er e0 * qy)) + eps * eps * qd)%R)).
Proof.
  intros L Ek Ad Cases. destruct (split_diff_ok e0 y L) as (g & d & Eg & Ed & Lg & Ld & Gd).
  set (Y := mkArr sh y). set (D := mkArr sh d). set (G := mkArr sh g). set (N := mkArr sh (advanced y (RtoC eps) d)).
  assert (Er : rconj (RtoC eps) = RtoC eps) by apply RtoC_conj.
  assert (Es : rconj sg = sg) by (destruct Cases as [(-> & _)|(-> & _)]; apply Ceq; cbn; ring).
  assert (S2 : rmul sg sg = r1) by (destruct Cases as [(-> & _)|(-> & _)]; apply Ceq; cbn; ring).
  assert (Eyg : inner Y G = expected A r R0 terms Y) by exact (deriv_expected CC _ sys fuel s ks A (time_of tm) St y g L Eg).
  assert (Eyd : inner Y D = rmul (rsub (expected A r R0 terms Y) (rmul (e_of e0) (inner Y Y))) kappa).
  { rewrite (inner_scaled Y G Y D (e_of e0) kappa); [|reflexivity|reflexivity|exact Gd]. now rewrite Eyg. }
  assert (Edg : inner D G = rmul (rconj kappa) (rsub (inner G G) (rmul (e_of e0) (expected A r R0 terms Y)))).
  { rewrite <- (inner_conj CC G D) by reflexivity. rewrite (inner_scaled G G Y D (e_of e0) kappa); [|reflexivity|reflexivity|exact Gd].
    rewrite rconj_mul, rconj_sub, rconj_mul, (inner_conj CC G G), (inner_conj CC G Y), Eyg by reflexivity.
    rewrite e_of_er, RtoC_conj. ring. }
  assert (Nn : inner N N = radd (radd (inner Y Y) (rmul (RtoC eps) (radd (inner Y D) (rconj (inner Y D))))) (rmul (rmul (RtoC eps) (RtoC eps)) (inner D D)))
    by (apply norm_advanced; auto; congruence).
  assert (Ne : expected A r R0 terms N = radd (radd (expected A r R0 terms Y) (rmul (RtoC eps) (radd (inner D G) (rmul sg (rconj (inner D G)))))) (rmul (rmul (RtoC eps) (RtoC eps)) (expected A r R0 terms D)))
    by exact (expected_advanced CC _ sys fuel s ks A (time_of tm) St sg y g d (RtoC eps) L Ld Er Es S2 Ad Eg).
  rewrite Eyd, e_of_er, Ek in Nn. rewrite Edg, e_of_er, Ek in Ne.
  destruct (norm2_real Y) as (ny & Eny & _). destruct (norm2_real D) as (nd & End_ & _). destruct (norm2_real G) as (ng & Eng & Png).
  rewrite Eny, End_ in Nn. rewrite Eng in Ne.
  assert (Q : exists qy qd, rmul u (expected A r R0 terms Y) = RtoC qy /\ rmul u (expected A r R0 terms D) = RtoC qd).
  { destruct Cases as [(-> & ->)|(-> & ->)].
    - destruct (expected_real Y eq_refl Ad) as (qy & Eq). destruct (expected_real D eq_refl Ad) as (qd & Eqd). exists qy, qd. rewrite Eq, Eqd. split; ring.
    - destruct (expected_imag Y eq_refl Ad) as (qy & Eq). destruct (expected_imag D eq_refl Ad) as (qd & Eqd). exists qy, qd. auto. }
  destruct Q as (qy & qd & Eq & Eqd). exists g, d, ny, qy, nd, qd, ng.
  split; auto. split; auto. split; [congruence|]. split; [split; auto|]. split; [split; auto|]. split; auto. split; auto.
  unfold observed. change (mkArr (shape (A r)) (advanced y (RtoC eps) d)) with N. rewrite Nn, Ne. destruct Cases as [(-> & ->)|(-> & ->)]; [left|right]; (split; [reflexivity|]).
  - assert (E1 : expected A r R0 terms Y = RtoC qy) by (rewrite <- Eq; ring). assert (E2 : expected A r R0 terms D = RtoC qd) by (rewrite <- Eqd; ring).
    rewrite E1, E2. split; apply Ceq; cbn; ring.
  - assert (E1 : expected A r R0 terms Y = rmul (ropp C_i) (RtoC qy)) by (rewrite <- Eq; apply Ceq; cbn; ring).
    assert (E2 : expected A r R0 terms D = rmul (ropp C_i) (RtoC qd)) by (rewrite <- Eqd; apply Ceq; cbn; ring).
    rewrite E1, E2. split; apply Ceq; cbn; ring.
Qed.
End Complex.
