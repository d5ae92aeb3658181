(** Ends of the generators, spectra, the products of MCTDH vectors. *)
From Coq Require Import List Arith ZArith Bool Lia Ring Reals Lra.
From Verif Require Import Py Alg ListX NdArray_Model NdArray_Proof Cplx PoDvr_Spec PoDvr_Model PoDvr_Proof Mctdh_Model Mctdh_Spec Kron_Proof Mctdh_Proof Mctdh_Prop
  March_Spec March_Model MarchLin_Proof March_Proof.
Import ListNotations.
Local Open Scope nat_scope.
Local Open Scope list_scope.
Add Ring Cr2 : (r_theory C_star).
Notation at_ v := (fun k : nat => nth k v (r0 : C_star)).

(** ** The first coefficients of a step *)
Lemma nth_padd : forall p q k, nth k (p_add p q) r0 = radd (nth k p r0) (nth k q r0).
Proof. induction p as [|a p IH]; intros [|b q] [|k]; cbn [p_add nth]; try ring. apply IH. Qed.
Lemma nth_scalp c (p : list C_star) k : nth k (map (rmul c) p) r0 = rmul c (nth k p r0).
Proof. exact (nth_scale c p k). Qed.
Section Consist.
Variable f : R.
Notation rate := (ropp (rmul C_i (RtoC f)) : C_star).
Definition first_ok (k : list C_star) := nth 0 k r0 = r0 /\ nth 1 k r0 = rate.
Lemma psum_0 h : forall cs ks, Forall first_ok ks -> nth 0 (p_sum h cs ks) r0 = r0.
Proof. induction cs as [|c cs IH]; intros [|k ks] F; try reflexivity. inversion F as [|? ? (A & B) F']; subst. cbn [p_sum]. rewrite nth_padd, nth_scalp, A, IH by auto. ring. Qed.
Lemma psum_1 h : forall cs ks, Forall first_ok ks -> length cs <= length ks -> nth 1 (p_sum h cs ks) r0 = rmul (RtoC (h * total cs)) rate.
Proof.
  induction cs as [|c cs IH]; intros [|k ks] F L; try (cbn in L; lia); cbn [p_sum nth total fold_right]; try (rewrite Rmult_0_r; change (RtoC 0) with (r0 : C_star); ring).
  inversion F as [|? ? (A & B) F']; subst. apply le_S_n in L. rewrite nth_padd, nth_scalp, B, (IH ks F' L). unfold total. rewrite Rmult_plus_distr_l, RtoC_add. ring.
Qed.
Lemma stages_first h : forall rs ks, Forall first_ok ks -> Forall first_ok (p_stages f h rs ks) /\ length (p_stages f h rs ks) = length ks + length rs.
Proof.
  induction rs as [|r rs IH]; intros ks F; [cbn; split; auto; lia|]. cbn [p_stages]. destruct (IH (ks ++ [p_rate f (p_add [r1] (p_sum h r ks))])) as (A & B).
  - apply Forall_app. split; auto. constructor; [|constructor]. unfold first_ok, p_rate. cbn [nth]. split; [reflexivity|]. rewrite nth_scalp, nth_padd, psum_0 by auto. cbn [nth]. ring.
  - split; auto. rewrite B, app_length. cbn [length]. lia.
Qed.
Lemma consistent rows weights h : length weights <= S (length rows) ->
  nth 0 (step_poly f rows weights h) r0 = r1 /\ nth 1 (step_poly f rows weights h) r0 = rmul (RtoC (h * total weights)) rate.
Proof.
  intros L. destruct (stages_first h rows [p_rate f [r1]]) as (F & Lk). { constructor; [|constructor]. unfold first_ok, p_rate. cbn [map nth]. split; [reflexivity|ring]. }
  unfold step_poly. rewrite !nth_padd, psum_0, psum_1 by (auto; rewrite Lk; cbn [length]; lia). cbn [nth]. split; ring.
Qed.
End Consist.

(** ** The ends of the generators *)
Section Ends.
Context {env : Type}.
Variables (rows : list (list R)) (weights : list R) (size : R -> cvec -> cvec -> option R) (stop : R).
Variables (h : env -> cvec -> res cvec) (factor : R) (energy : env -> cvec -> res C_star) (e0 : C_star) (ce : option R).
Variables (updater : solver -> env -> res env) (normalizer : option (env -> cvec -> res cvec)) (dot : env -> cvec -> cvec -> res C_star).
Notation drain_ b := (drain_from rows weights size stop h factor energy e0 ce updater normalizer b).
Notation auto_ b := (auto_from rows weights size stop h factor energy e0 ce updater normalizer b dot).
Notation spec_ b := (spectrum rows weights size stop h factor energy e0 ce updater normalizer b dot).
Notation after_ := (after rows weights size stop h factor energy e0 ce updater normalizer).
Lemma drain_never : forall fuel ev l, drain_ true fuel ev <> Some (Ok l).
Proof.
  induction fuel as [|fuel IH]; intros [a (s, e)| |x] l; cbn [drain_from ended]; try discriminate. destruct (drain_ true fuel _) as [[l'|x]|] eqn:E; try discriminate. now apply IH in E.
Qed.
Lemma auto_never : forall fuel t_2 ev l, auto_ true fuel t_2 ev <> Some (Ok l).
Proof.
  induction fuel as [|fuel IH]; intros t_2 [(tau, y) (s, e)| |x] l; cbn [auto_from auto_ended]; try discriminate; destruct (Rlt_dec tau t_2); try discriminate; destruct (auto_value dot e y); try discriminate.
  destruct (auto_ true fuel t_2 _) as [[l'|x]|] eqn:E; try discriminate. now apply IH in E.
Qed.
Lemma spectrum_never fuel ifft w len ev r : spec_ true fuel ifft w len ev <> Some (Ok r).
Proof. unfold spectrum. destruct (auto_ true fuel _ ev) as [[l|x]|] eqn:E; try discriminate. now apply auto_never in E. Qed.
(** [next] after [next] *)
Lemma after_next : forall k ev, after_ (S k) ev = match ev with Yields _ (s, e) => after_ k (resume rows weights size stop h factor energy e0 ce updater normalizer s e) | x => x end.
Proof.
  induction k as [|k IH]; intros ev; [destruct ev as [a (s, e)| |]; reflexivity|]. change (after_ (S (S k)) ev) with (match after_ (S k) ev with Yields _ (s, e) => resume rows weights size stop h factor energy e0 ce updater normalizer s e | x => x end). rewrite IH.
  destruct ev as [a (s, e)| |]; reflexivity.
Qed.
Lemma drain_all : forall fuel ev l, drain_ false fuel ev = Some (Ok l) ->
  (forall k d, k < length l -> exists st, after_ k ev = Yields (nth k l d) st) /\ after_ (length l) ev = Stops.
Proof.
  induction fuel as [|fuel IH]; intros [a (s, e)| |x] l; cbn [drain_from ended]; try discriminate; try (intros E; injection E as <-; split; [intros k d Hk; cbn in Hk; lia|reflexivity]).
  destruct (drain_ false fuel _) as [[l'|x]|] eqn:E; try discriminate. intros E'. injection E' as <-. destruct (IH _ _ E) as (A & B). split.
  - intros [|k] d Hk; [exists (s, e); reflexivity|]. rewrite after_next. apply A. cbn [length] in Hk. lia.
  - cbn [length]. rewrite after_next. exact B.
Qed.
Lemma auto_all : forall fuel t_2 ev l, auto_ false fuel t_2 ev = Some (Ok l) ->
  (forall k d, k < length l -> exists t y s e v, after_ k ev = Yields (t, y) (s, e) /\ (t < t_2)%R /\ auto_value dot e y = Ok v /\ nth k l d = ((t * 2)%R, v)) /\
  (after_ (length l) ev = Stops \/ exists t y st, after_ (length l) ev = Yields (t, y) st /\ (t_2 <= t)%R).
Proof.
  induction fuel as [|fuel IH]; intros t_2 [(tau, y) (s, e)| |x] l; cbn [auto_from auto_ended]; try discriminate; try (intros E; injection E as <-; split; [intros k d Hk; cbn in Hk; lia|now left]).
  - destruct (Rlt_dec tau t_2) as [Ht|Ht]; [destruct (auto_value dot e y); discriminate|]. intros E. injection E as <-. split; [intros k d Hk; cbn in Hk; lia|]. right. exists tau, y, (s, e). split; [reflexivity|lra].
  - destruct (Rlt_dec tau t_2) as [Ht|Ht].
    + destruct (auto_value dot e y) as [v|] eqn:Ev; try discriminate. destruct (auto_ false fuel t_2 _) as [[l'|x]|] eqn:E; try discriminate. intros E'. injection E' as <-. destruct (IH _ _ _ E) as (A & B). split.
      * intros [|k] d Hk; [exists tau, y, s, e, v; repeat split; auto|]. rewrite after_next. destruct (A k d) as (t & y' & s' & e' & v' & X); [cbn [length] in Hk; lia|]. exists t, y', s', e', v'. exact X.
      * cbn [length]. rewrite after_next. exact B.
    + intros E. injection E as <-. split; [intros k d Hk; cbn in Hk; lia|]. right. exists tau, y, (s, e). split; [reflexivity|lra].
Qed.
End Ends.

(** ** The spectrum *)
Definition windowed (window : option (R -> C_star)) (l : list (R * C_star)) : cvec := match window with None => map snd l | Some w => map (fun p : R * C_star => rmul (snd p) (w (fst p))) l end.
Lemma spectrum_eq ifft window l : spectrum_of ifft window l = match l with [] => Raise ValueError | [_] => Raise ZeroDivisionError | _ =>
  let tau := ((fst (last l (0%R, r0)) - fst (hd (0%R, r0) l)) / INR (length l - 1))%R in
  if forallb (fun p : nat * (R * C_star) => if Rlt_dec (Rabs (fst (snd p) - INR (fst p) * tau)) (1 / 10 ^ 8) then true else false) (combine (seq 0 (length l)) l)
  then Ok (map (fun k => INR k * (2 * PI / INR (length l) / tau))%R (seq 0 (length l)), ifft (windowed window l))
  else Raise NotImplementedError end.
Proof. destruct l as [|(t0, a0) [|p1 l]]; reflexivity. Qed.
Lemma spectrum_ok ifft window l freq sigma : inverse_dft ifft -> spectrum_of ifft window l = Ok (freq, sigma) ->
  2 <= length l /\ exists tau, tau = ((fst (last l (0%R, r0)) - fst (hd (0%R, r0) l)) / INR (length l - 1))%R /\
    (forall j, j < length l -> (Rabs (fst (nth j l (0%R, r0)) - INR j * tau) < 1 / 10 ^ 8)%R) /\ length freq = length l /\ length sigma = length l /\
    (tau <> 0%R -> forall k, k < length l -> nth k freq 0%R = (2 * PI * INR k / (INR (length l) * tau))%R /\
       nth k sigma r0 = rmul (RtoC (/ INR (length l))) (sumn (length l) (fun j => rmul (rmul (snd (nth j l (0%R, r0))) (match window with None => r1 | Some w => w (fst (nth j l (0%R, r0))) end)) (Cexp (0, nth k freq 0 * (INR j * tau))%R)))).
Proof.
  intros D E. rewrite spectrum_eq in E. assert (L2 : 2 <= length l) by (destruct l as [|p0 [|p1 l]]; [discriminate|discriminate|cbn [length]; lia]). split; [exact L2|].
  set (tau := ((fst (last l (0%R, r0)) - fst (hd (0%R, r0) l)) / INR (length l - 1))%R). exists tau. split; [reflexivity|].
  assert (E' : (if forallb (fun p : nat * (R * C_star) => if Rlt_dec (Rabs (fst (snd p) - INR (fst p) * tau)) (1 / 10 ^ 8) then true else false) (combine (seq 0 (length l)) l)
  then Ok (map (fun k => INR k * (2 * PI / INR (length l) / tau))%R (seq 0 (length l)), ifft (windowed window l)) else Raise NotImplementedError) = Ok (freq, sigma)) by (destruct l as [|p0 [|p1 l]]; [discriminate|discriminate|exact E]). clear E. rename E' into E.
  match type of E with (if forallb ?g ?x then _ else _) = _ => destruct (forallb g x) eqn:U; [|discriminate] end. apply (f_equal (fun r => match r with Ok p => p | _ => ([], []) end)) in E. pose proof (f_equal fst E) as E1. pose proof (f_equal snd E) as E2. cbn [fst snd] in E1, E2. subst freq sigma. clear E. rewrite forallb_forall in U.
  set (au := windowed window l). assert (La : length au = length l) by (unfold au, windowed; destruct window; apply map_length).
  split; [|split; [now rewrite map_length, seq_length|split; [destruct (D au 0) as (X & _); congruence|]]].
  - intros j Hj. specialize (U (j, nth j l (0%R, r0))). cbn [fst snd] in U. destruct (Rlt_dec _ _) as [X|X] in U; [exact X|]. assert (false = true); [|discriminate]. apply U.
    replace (j, nth j l (0%R, r0)) with (nth j (combine (seq 0 (length l)) l) (0, (0%R, r0 : C_star))) by (rewrite combine_nth by apply seq_length; now rewrite seq_nth by auto). apply nth_In. rewrite combine_length, seq_length. lia.
  - intros T k Hk. assert (N : INR (length l) <> 0%R) by (apply not_0_INR; lia).
    assert (F : nth k (map (fun k0 => INR k0 * (2 * PI / INR (length l) / tau))%R (seq 0 (length l))) 0%R = (2 * PI * INR k / (INR (length l) * tau))%R).
    { set (g := fun k0 : nat => (INR k0 * (2 * PI / INR (length l) / tau))%R). rewrite (nth_indep _ 0%R (g 0)) by (rewrite map_length, seq_length; auto). rewrite (map_nth g), seq_nth by auto. unfold g. cbn [Nat.add]. field. auto. }
    split; [exact F|]. rewrite F. destruct (D au k) as (_ & V). rewrite V by lia. rewrite La. f_equal. apply sumn_ext. intros j Hj. f_equal.
    + unfold au, windowed. destruct window as [w|].
      * rewrite (nth_indep _ r0 ((fun p : R * C_star => rmul (snd p) (w (fst p))) (0%R, r0))) by (rewrite map_length; auto). rewrite (map_nth (fun p : R * C_star => rmul (snd p) (w (fst p)))). reflexivity.
      * rewrite (nth_indep _ r0 (snd (0%R, r0 : C_star))) by (rewrite map_length; auto). rewrite map_nth. ring.
    + f_equal. f_equal. field. auto.
Qed.
