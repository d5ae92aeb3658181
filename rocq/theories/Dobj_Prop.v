(** C99: what a DVR object answers after any calls. *)
From Coq Require Import List Arith Bool ZArith Lia Reals Lra Ring.
From Verif Require Import Py Alg Ord Cplx ListX NdArray_Model NdArray_Proof Dvr_Model Dvr_Spec Dvr_Proof Dobj_Model Dobj_Spec.
Import ListNotations.
Local Open Scope nat_scope.
Add Ring CrD : (r_theory C_star).

(** The potential set last, and whether [solve] has been called since *)
Fixpoint last_set (cs : list call) (f : option (R -> R)) : option (R -> R) :=
  match cs with [] => f | c_set g :: cs => last_set cs (Some g) | _ :: cs => last_set cs f end.
Fixpoint solved_since (cs : list call) (b : bool) : bool :=
  match cs with [] => b | c_set _ :: cs => solved_since cs false | c_solve _ :: cs => solved_since cs true | _ :: cs => solved_since cs b end.

Section Object.
Variables (n : nat) (T : arr R_star) (grid : list R) (eigsh : arr R_star -> Z -> res (rvec * arr R_star)).
Hypothesis HT : symmetric n T.
Hypothesis Hg : length grid = n.
Notation run cs s := (fold_left (fun s c => after (Ok T) grid n eigsh c s) cs s).
Notation hist := (history (Ok T) grid n eigsh).

Lemma made f : exists H, arr_add T (np_diag (K := R_star) (map f grid)) = Ok H /\ hamiltonian n T grid f H.
Proof.
  destruct HT as (M & _). destruct (square_add (K := R_star) n T _ _ _ (square_self (K := R_star) n T M) (square_diag (K := R_star) n (map f grid) ltac:(rewrite map_length; exact Hg))) as (P & E & W & S & G).
  exists P. split; [exact E|]. split; [split; auto|]. intros i j Hi Hj. rewrite G by auto. unfold delta. destruct (Nat.eqb_spec i j) as [<-|N].
  - change (r0 : R_star) with 0%R. change (car R_star) with R. rewrite (nth_indep _ 0%R (f 0%R)) by (rewrite map_length, Hg; auto). rewrite map_nth. match goal with |- @eq _ ?a ?b => change (@eq R a b) end. cbn. ring.
  - match goal with |- @eq _ ?a ?b => change (@eq R a b) end. cbn. ring.
Qed.
(** the invariant *)
Definition sound (s : dvr) : Prop := match d_h s with None => True | Some h => exists f, d_v s = Some f /\ arr_add T (np_diag (K := R_star) (map f grid)) = Ok h end.
Lemma get_h_sound s : sound s -> get_h (Ok T) grid s = match d_v s with None => Raise TypeError | Some f => arr_add T (np_diag (K := R_star) (map f grid)) end.
Proof. unfold sound, get_h. destruct (d_h s) as [h|]; [intros (f & -> & E); auto|reflexivity]. Qed.
Lemma solve_state k s : sound s -> d_v (snd (solve (Ok T) grid n eigsh k s)) = d_v s /\ sound (snd (solve (Ok T) grid n eigsh k s)) /\
  (d_h (snd (solve (Ok T) grid n eigsh k s)) = None <-> d_v s = None).
Proof.
  intros S. unfold solve. pose proof (get_h_sound s S) as E. destruct (get_h (Ok T) grid s) as [h|e] eqn:Eg.
  - assert (Q : exists f, d_v s = Some f /\ arr_add T (np_diag (K := R_star) (map f grid)) = Ok h) by (destruct (d_v s) as [f|]; [exists f; auto|discriminate]).
    assert (N : d_v s <> None) by (destruct Q as (f & -> & _); discriminate).
    destruct (eigsh h _) as [(en, v)|e]; [destruct (flip (columns v))|]; cbn; (split; [reflexivity|]; split; [exact Q|]); split; intros; try discriminate; contradiction.
  - cbn. split; auto. split; auto. destruct (d_v s) as [f|] eqn:Ev; [destruct (made f) as (H & E2 & _); pose proof (eq_trans E E2); discriminate|].
    split; auto. intros _. unfold sound in S. destruct (d_h s); auto. destruct S as (f & E2 & _). congruence.
Qed.
Lemma run_sound cs : forall s, sound s -> sound (run cs s) /\ d_v (run cs s) = last_set cs (d_v s) /\
  (forall b, (d_h s = None <-> b = false \/ d_v s = None) -> (d_h (run cs s) = None <-> solved_since cs b = false \/ last_set cs (d_v s) = None)).
Proof.
  induction cs as [|c cs IH]; intros s S; cbn [fold_left last_set solved_since]; [repeat split; auto; apply H|].
  destruct c as [f| |k|v]; cbn [after].
  - destruct (IH (set_v_func f s) I) as (A & B & C). split; [exact A|]. split; [exact B|]. intros b _. apply (C false). cbn. tauto.
  - apply IH, S.
  - destruct (solve_state k s S) as (E & S' & N). destruct (IH _ S') as (A & B & C). rewrite E in B, C. split; [exact A|]. split; [exact B|]. intros b _. apply (C true). rewrite N. split; [auto|]. intros [H|H]; [discriminate|exact H].
  - apply IH, S.
Qed.
Lemma hist_facts cs : sound (hist cs) /\ d_v (hist cs) = last_set cs None /\ (d_h (hist cs) = None <-> solved_since cs false = false \/ last_set cs None = None).
Proof. destruct (run_sound cs fresh I) as (A & B & C). split; [exact A|]. split; [exact B|]. apply (C false). cbn. tauto. Qed.

(** After any calls [h_mat] is the Hamiltonian with the potential set last, whatever is stored;
    without a potential it is a TypeError. *)
Theorem C99_h_mat cs : match last_set cs None with None => get_h (Ok T) grid (hist cs) = Raise TypeError | Some f => exists H, get_h (Ok T) grid (hist cs) = Ok H /\ hamiltonian n T grid f H end.
Proof. destruct (hist_facts cs) as (A & B & _). rewrite (get_h_sound _ A), B. destruct (last_set cs None) as [f|]; [apply made|reflexivity]. Qed.

Lemma toC_entry (H : arr R_star) idx : get (toC H) idx = RtoC (get H idx).
Proof. unfold get, toC. cbn [shape data]. exact (map_nth RtoC (data H) 0%R _). Qed.
Lemma toC_square (H : arr R_star) : is_matrix H n n -> square n (toC H) (fun i j => RtoC (get H [i; j])).
Proof. intros (W & S). split; [unfold wf, toC in *; cbn [shape data]; rewrite map_length; exact W|]. split; [exact S|]. intros. apply toC_entry. Qed.
Lemma pair_sum : forall (v w : list C_star), length v = length w -> sum_list (map (fun p => rmul (rconj (fst p)) (snd p)) (combine v w)) = sumn (length v) (fun i => rmul (rconj (nth i v r0)) (nth i w r0)).
Proof.
  induction v as [|x v IH]; intros [|y w] L; try discriminate; [reflexivity|]. cbn [combine map sum_list length]. rewrite IH by (injection L; auto). unfold sumn. cbn [seq]. rewrite sumL_cons, <- seq_shift. unfold sumL. rewrite map_map. reflexivity.
Qed.
(** [energy_expection] needs a [solve] since the potential was set, and then is the mean of that
    Hamiltonian, a real number; before, it is an AttributeError. *)
Theorem C99_expectation cs v : length v = n ->
  match last_set cs None, solved_since cs false with
  | Some f, true => exists H e, hamiltonian n T grid f H /\ energy_expection (hist cs) v = Ok (RtoC e) /\ RtoC e = mean n H v
  | _, _ => energy_expection (hist cs) v = Raise AttributeError
  end.
Proof.
  intros L. destruct (hist_facts cs) as (A & B & C). unfold energy_expection. destruct (d_h (hist cs)) as [h|] eqn:E.
  - assert (N : ~ (solved_since cs false = false \/ last_set cs None = None)) by (intros Q; apply C in Q; discriminate).
    destruct (last_set cs None) as [f|]; [|exfalso; apply N; auto]. destruct (solved_since cs false); [|exfalso; apply N; auto].
    unfold sound in A. rewrite E in A. destruct A as (g & E1 & E2). rewrite B in E1. injection E1 as <-. destruct (made f) as (H & E3 & HH). pose proof (eq_trans (eq_sym E3) E2) as E4. injection E4 as <-.
    destruct (mat_vec_ok (K := C_star) n _ _ v (toC_square H (proj1 HH)) L) as (w & Ew & Lw & Gw). rewrite Ew. cbn [bind].
    assert (M : sum_list (map (fun p => rmul (rconj (fst p)) (snd p)) (combine v w)) = mean n H v).
    { rewrite pair_sum by lia. rewrite L. unfold mean. apply sumn_ext. intros i Hi. rewrite (Gw i Hi), <- sumn_scal_l. reflexivity. }
    assert (Sy : forall i j, i < n -> j < n -> get H [i; j] = get H [j; i]). { intros i j Hi Hj. rewrite !(proj2 HH) by auto. rewrite (proj2 HT i j Hi Hj), (Nat.eqb_sym j i). destruct (Nat.eqb_spec i j) as [->|]; reflexivity. }
    assert (Re : rconj (mean n H v) = mean n H v).
    { unfold mean. transitivity (sumn n (fun i => sumn n (fun j => rmul (rconj (nth j v r0)) (rmul (RtoC (get H [j; i])) (nth i v r0))))); [|apply sumn_swap]. rewrite rconj_sumn.
      apply sumn_ext. intros i Hi. rewrite rconj_sumn. apply sumn_ext. intros j Hj. rewrite !rconj_mul, rconj_invol, RtoC_conj, (Sy i j Hi Hj). ring. }
    exists H, (fst (mean n H v)). rewrite M. assert (Q : RtoC (fst (mean n H v)) = mean n H v). { apply Ceq; [reflexivity|]. cbn [RtoC snd]. assert (Z : snd (rconj (mean n H v)) = snd (mean n H v)) by now rewrite Re. cbn in Z. change (0 = snd (mean n H v))%R. change (- snd (mean n H v) = snd (mean n H v))%R in Z. lra. }
    rewrite Q. auto.
  - destruct (proj1 C eq_refl) as [Q|Q]; [rewrite Q; destruct (last_set cs None); reflexivity|rewrite Q; reflexivity].
Qed.

(** [eigsh] is exact for this matrix and number. *)
Definition exact_pairs (H : arr R_star) (k : nat) (E : rvec) (V : arr R_star) : Prop :=
  length E = k /\ is_matrix V n k /\ forall c, c < k -> eigenpair n H (nth c E 0%R) (map (fun i => get V [i; c]) (seq 0 n)).
Lemma eigen_opp H e v : eigenpair n H e v -> eigenpair n H e (map Ropp v).
Proof.
  intros (L & A & B). assert (N : forall i, nth i (map Ropp v) 0%R = (- nth i v 0)%R) by (intros i; rewrite <- Ropp_0 at 1; apply map_nth). split; [now rewrite map_length|]. split.
  - intros i Hi. rewrite N. rewrite (sumn_ext R_star n _ (fun j => rmul (s := R_star) (-1)%R ((get H [i; j] : R) * nth j v 0)%R)) by (intros; rewrite N; match goal with |- @eq _ ?a ?b => change (@eq R a b) end; cbn; ring). rewrite sumn_scal_l, A by auto. match goal with |- @eq _ ?a ?b => change (@eq R a b) end. cbn. ring.
  - rewrite <- B. apply sumn_ext. intros. rewrite N. match goal with |- @eq _ ?a ?b => change (@eq R a b) end. ring.
Qed.
Lemma flip_ok H : forall l (E : rvec), 0 < n -> length l = length E -> (forall c, c < length l -> eigenpair n H (nth c E 0%R) (nth c l [])) ->
  exists es, flip l = Ok es /\ length es = length l /\ forall c, c < length l -> eigenpair n H (nth c E 0%R) (nth c es []) /\ (0 <= nth 0 (nth c es []) 0)%R.
Proof.
  induction l as [|v l IH]; intros E Pn L P; [exists []; repeat split; auto; cbn in *; lia|]. destruct E as [|e E]; [discriminate|].
  destruct (IH E Pn) as (es & E1 & E2 & E3); [injection L; auto|intros c Hc; apply (P (S c)); cbn; lia|]. pose proof (P 0 ltac:(cbn; lia)) as P0. cbn [nth] in P0. pose proof (proj1 P0) as Lv. destruct v as [|x v]; [cbn in Lv; lia|].
  cbn [flip]. rewrite E1. cbn [bind]. eexists. split; [reflexivity|]. split; [exact (f_equal S E2)|]. intros [|c] Hc; [|apply (E3 c); cbn in Hc; lia]. cbn [nth].
  destruct (Rle_dec 0 x) as [Hx|Hx]; [split; [exact P0|exact Hx]|]. split; [apply eigen_opp; exact P0|]. cbn. lra.
Qed.
Lemma exact_columns H k E V : exact_pairs H k E V -> length (columns V) = k /\ forall c, c < k -> eigenpair n H (nth c E 0%R) (nth c (columns V) []).
Proof.
  intros (L & (_ & S) & P). unfold columns. rewrite S. cbn [nth]. split; [now rewrite map_length, seq_length|]. intros c Hc.
  set (g := fun c => map (fun i => get V [i; c]) (seq 0 n)). rewrite (nth_indep _ [] (g 0)) by (rewrite map_length, seq_length; auto). rewrite map_nth, seq_nth by auto. apply P, Hc.
Qed.
(** The mean of an eigenvector is its eigenvalue. *)
Lemma mean_eigen H e v : eigenpair n H e v -> mean n H (map RtoC v) = RtoC e.
Proof.
  intros (L & A & B). assert (N : forall i, nth i (map RtoC v) r0 = RtoC (nth i v 0%R)) by (intros i; exact (map_nth RtoC v 0%R i)).
  assert (S : forall (g : nat -> R), sumn n (fun i => RtoC (g i)) = RtoC (sumn (K := R_star) n g)).
  { intros g. unfold sumn, sumL. induction (seq 0 n) as [|i l IH]; [reflexivity|]. cbn [map sum_list]. rewrite IH. symmetry. apply RtoC_add. }
  unfold mean. rewrite (sumn_ext C_star n _ (fun i => RtoC (e * (nth i v 0 * nth i v 0))%R)).
  - rewrite S. f_equal. rewrite (sumn_scal_l R_star n e). rewrite B. match goal with |- @eq _ ?a ?b => change (@eq R a b) end. cbn. ring.
  - intros i Hi. rewrite N, RtoC_conj. rewrite (sumn_ext C_star n _ (fun j => rmul (RtoC (nth i v 0%R)) (RtoC ((get H [i; j] : R) * nth j v 0)%R))) by (intros; rewrite N, RtoC_mul; reflexivity).
    rewrite sumn_scal_l, S, A by auto. rewrite <- RtoC_mul. f_equal. ring.
Qed.
(** With exact eigenpairs [solve] returns and stores normalised eigenvectors of the Hamiltonian with the
    potential set last, the first component of each not negative, and [energy_expection] of
    each is its energy. *)
Theorem C99_solve cs f n_state k E V : 0 < n -> last_set cs None = Some f -> match n_state with None => Z.of_nat n - 1 | Some k => k end%Z = Z.of_nat k ->
  (forall H, hamiltonian n T grid f H -> eigsh H (Z.of_nat k) = Ok (E, V) /\ exact_pairs H k E V) ->
  exists H S s, hamiltonian n T grid f H /\ solve (Ok T) grid n eigsh n_state (hist cs) = (Ok (E, S), s) /\ d_energy s = Some E /\ d_states s = Some S /\ length S = k /\
    forall c, c < k -> eigenpair n H (nth c E 0%R) (nth c S []) /\ (0 <= nth 0 (nth c S []) 0)%R /\ energy_expection s (map RtoC (nth c S [])) = Ok (RtoC (nth c E 0%R)).
Proof.
  intros Pn Lf Ek X. pose proof (C99_h_mat cs) as Q. rewrite Lf in Q. destruct Q as (H & Eh & HH). destruct (X H HH) as (E1 & E2). destruct (exact_columns _ _ _ _ E2) as (LC & C). pose proof (proj1 E2) as LE.
  destruct (flip_ok H (columns V) E Pn) as (es & F1 & F2 & F3); [exact (eq_trans LC (eq_sym LE))|intros c Hc; apply C; rewrite <- LC; exact Hc|].
  exists H, es, (mkDvr (d_v (hist cs)) (Some H) (Some E) (Some es)). split; [exact HH|]. split.
  - unfold solve. rewrite Ek, Eh, E1. cbn [d_v d_h d_energy d_states]. rewrite F1. reflexivity.
  - split; [reflexivity|]. split; [reflexivity|]. split; [exact (eq_trans F2 LC)|]. intros c Hc. destruct (F3 c (eq_ind_r (fun m => c < m) Hc LC)) as (G1 & G2). split; [exact G1|]. split; [exact G2|].
    unfold energy_expection. cbn [d_h]. assert (Lv : length (map RtoC (nth c es [])) = n) by (rewrite map_length; apply G1).
    destruct (mat_vec_ok (K := C_star) n _ _ _ (toC_square H (proj1 HH)) Lv) as (w & Ew & Lw & Gw). change (list R_star) with (list R) in *. rewrite Ew. cbn [bind]. f_equal. rewrite <- (mean_eigen H _ _ G1). rewrite pair_sum by congruence. rewrite Lv. unfold mean. apply sumn_ext. intros i Hi. rewrite (Gw i Hi), <- sumn_scal_l. reflexivity.
Qed.

(** Energies and eigenstates are not reset with the potential: they stay those of the old one. *)
Theorem C99_stale cs f : let s := hist (cs ++ [c_set f]) in d_energy s = d_energy (hist cs) /\ d_states s = d_states (hist cs) /\ exists H, get_h (Ok T) grid s = Ok H /\ hamiltonian n T grid f H.
Proof.
  cbn zeta. split; [|split].
  - unfold history. rewrite fold_left_app. reflexivity.
  - unfold history. rewrite fold_left_app. reflexivity.
  - pose proof (C99_h_mat (cs ++ [c_set f])) as Q. assert (E : forall o, last_set (cs ++ [c_set f]) o = Some f) by (clear; induction cs as [|c l IH]; intros o; [reflexivity|]; destruct c; cbn; apply IH). rewrite E in Q. exact Q.
Qed.
End Object.
Print Assumptions C99_h_mat.
Print Assumptions C99_expectation.
Print Assumptions C99_solve.
Print Assumptions C99_stale.

(** Two points at 0 and 1 without kinetic energy, the potential x: the lowest state is the first
    point; then the potential x + 1, for which the stored energy 0 is not an eigenvalue. *)
Definition T99 : arr R_star := build (K := R_star) [2; 2] (fun _ => 0%R).
Definition V99 : arr R_star := build (K := R_star) [2; 1] (fun x => match nth 0 x 0 with 0 => (-1)%R | _ => 0%R end).
Definition eigsh99 (h : arr R_star) (k : Z) : res (rvec * arr R_star) := Ok ([0%R], V99).
Example C99_example : symmetric 2 T99 /\ (forall H, hamiltonian 2 T99 [0; 1]%R (fun x => x) H -> eigsh99 H 1 = Ok ([0%R], V99) /\ exact_pairs 2 H 1 [0%R] V99) /\
  d_energy (history (Ok T99) [0; 1]%R 2 eigsh99 [c_set (fun x => x); c_solve None; c_set (fun x => x + 1)%R]) = Some [0%R] /\
  (forall H v, hamiltonian 2 T99 [0; 1]%R (fun x => x + 1)%R H -> ~ eigenpair 2 H 0 v).
Proof.
  split; [|split; [|split]].
  - split; [split; [apply wf_build|reflexivity]|]. intros i j Hi Hj. unfold T99. rewrite !get_build by (apply in_range2; auto). reflexivity.
  - intros H (HM & HH). split; [reflexivity|]. split; [reflexivity|]. split; [split; [apply wf_build|reflexivity]|]. intros [|c] Hc; [|lia].
    assert (G : forall i j, i < 2 -> j < 2 -> get H [i; j] = (if (i =? j) then nth i [0; 1]%R 0 else 0)%R) by (intros i j Hi Hj; rewrite HH by auto; unfold T99; rewrite get_build by (apply in_range2; auto); match goal with |- @eq _ ?a ?b => change (@eq R a b) end; cbn; ring).
    split; [reflexivity|]. split.
    + intros i Hi. unfold sumn, sumL. cbn [seq map sum_list nth]. rewrite !G by lia. destruct i as [|[|i]]; try lia; match goal with |- @eq _ ?a ?b => change (@eq R a b) end; cbn; ring.
    + unfold sumn, sumL. cbn [seq map sum_list nth]. match goal with |- @eq _ ?a ?b => change (@eq R a b) end; cbn; ring.
  - unfold history. cbn [fold_left after]. unfold solve. cbn [get_h set_v_func d_h d_v]. destruct (made 2 T99 [0; 1]%R) with (f := fun x : R => x) as (H & E & _); [split; [split; [apply wf_build|reflexivity]|]; intros i j Hi Hj; unfold T99; rewrite !get_build by (apply in_range2; auto); reflexivity|reflexivity|].
    cbn [bind]. match goal with |- context [arr_add ?a ?b] => destruct (arr_add a b) eqn:E' end; [|pose proof (eq_trans (eq_sym E) E'); discriminate]. unfold eigsh99. destruct (flip (columns V99)); reflexivity.
  - intros H v (HM & HH) (L & A & B).
    assert (G : forall i j, i < 2 -> j < 2 -> get H [i; j] = (if (i =? j) then nth i [0; 1]%R 0 + 1 else 0)%R) by (intros i j Hi Hj; rewrite HH by auto; unfold T99; rewrite get_build by (apply in_range2; auto); match goal with |- @eq _ ?a ?b => change (@eq R a b) end; cbn; ring).
    pose proof (A 0 ltac:(lia)) as A0. pose proof (A 1 ltac:(lia)) as A1. unfold sumn, sumL in A0, A1, B. cbn [seq map sum_list] in A0, A1, B. rewrite !G in A0, A1 by lia.
    match type of A0 with @eq _ ?a ?b => change (@eq R a b) in A0 end. match type of A1 with @eq _ ?a ?b => change (@eq R a b) in A1 end. match type of B with @eq _ ?a ?b => change (@eq R a b) in B end. cbn [radd R_star r0 Nat.eqb nth] in A0, A1, B. nra.
Qed.

(** So the stored energies need not be eigenvalues of the Hamiltonian that [h_mat] returns, even if
    [eigsh] is exact. *)
Theorem C99_stale_refuted : ~ (forall n T grid eigsh f g k E V, symmetric n T -> length grid = n ->
  (forall H, hamiltonian n T grid f H -> eigsh H (Z.of_nat k) = Ok (E, V) /\ exact_pairs n H k E V) ->
  let s := history (Ok T) grid n eigsh [c_set f; c_solve (Some (Z.of_nat k)); c_set g] in
  forall H E', get_h (Ok T) grid s = Ok H -> d_energy s = Some E' -> forall c, c < k -> exists v, eigenpair n H (nth c E' 0%R) v).
Proof.
  intros Q. destruct C99_example as (S & X & D & N).
  pose proof (C99_stale 2 T99 [0; 1]%R eigsh99 S eq_refl [c_set (fun x => x); c_solve (Some 1%Z)] (fun x => x + 1)%R) as (_ & _ & H & EH & HH).
  destruct (Q 2 T99 [0; 1]%R eigsh99 (fun x => x) (fun x => x + 1)%R 1 [0%R] V99 S eq_refl X H [0%R] EH D 0 ltac:(lia)) as (v & P). exact (N H v HH P).
Qed.
Print Assumptions C99_stale_refuted.
