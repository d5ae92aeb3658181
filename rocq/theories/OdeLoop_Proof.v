(** The rounds of the solver. *)
From Coq Require Import String List Arith Bool Lia Reals.
From Verif Require Import Py Alg ListX NdArray_Model NdArray_Proof Contract_Model Contract_Spec Net_Model Net_Spec Sweep_Spec Trav_Proof Acyc_Proof Contraction_Proof
  Link_Spec Link_Proof Env_Spec TEnv_Proof EnvThm_Proof Reroot_Proof State_Spec State_Proof Cache_Model Cache_Spec Cache_Proof CacheExact_Proof Eom_Spec Eom_Proof Direct_Model Direct_Spec
  DirectAlg_Proof DirectSem_Proof DirectGrad_Proof DirectRun_Proof DirectThm_Proof Rk4_Spec Rk4_Model Rk4_Proof Rk4Thm_Proof Cplx Normalize_Model Normalize_Spec Normalize_Prop
  Propagate_Model Ode_Spec Ode_Model Vec_Spec Vec_Proof Ode_Proof OdeThm_Proof OdeUpd_Proof.
Import ListNotations.
Local Open Scope nat_scope.
Local Open Scope list_scope.

Lemma answered_ext {V T X} (P : X -> Prop) n (f g : list V -> list V) tell : (forall y, length y = n -> f y = g y /\ length (f y) = n) ->
  forall (p : plan V T X) c, sized P n p -> answered f tell p c = answered g tell p c.
Proof.
  intros E. induction p as [x|t y go IH]; intros c Sz; cbn [answered sized] in *; auto. destruct Sz as (Ly & Sz). destruct (E y Ly) as (<- & L). apply IH. auto.
Qed.

Section Still.
Variable K : StarRing.
Definition still (s s' : state K) : Prop := sroot K s' = sroot K s /\
  forall x, oleaf (hget (sheap K s') x) = oleaf (hget (sheap K s) x) /\ oaxis (hget (sheap K s') x) = oaxis (hget (sheap K s) x) /\
    onorm (hget (sheap K s') x) = onorm (hget (sheap K s) x) /\ oacc (hget (sheap K s') x) = oacc (hget (sheap K s) x).
Lemma frame_still s s' : frame K s s' -> still s s'.
Proof. intros (_ & _ & E & F). split; auto. Qed.
Lemma core_still s s' : core K (sheap K s) (sheap K s') -> sroot K s' = sroot K s -> still s s'.
Proof. intros (L & C) E. split; auto. intros x. destruct (C x) as (_ & P1 & P2 & P3 & P4 & _). auto. Qed.
Lemma still_trans a b c : still a b -> still b c -> still a c.
Proof. intros (A3 & A4) (B3 & B4). split; [congruence|]. intros x. destruct (A4 x) as (P1 & P2 & P3 & P4), (B4 x) as (Q1 & Q2 & Q3 & Q4). repeat split; congruence. Qed.

Lemma oriented_still s s' : still s s' -> forall t up, oriented (sheap K s) up t -> oriented (sheap K s') up t.
Proof.
  intros (_ & Fr). induction t as [n|n kk IH] using tree_ind'; intros up Ot; [constructor|].
  inversion Ot as [|? ? ? Ea Fo]; subst. constructor; [destruct (Fr n) as (_ & -> & _); auto|]. rewrite Forall_forall in IH, Fo |- *. auto.
Qed.
Lemma canonical_moved fuel s s' r ks A A' terms : canonical fuel (sheap K s) r ks A terms -> still s s' ->
  (forall t, In t (nids (Nd r ks)) -> oarr (hget (sheap K s') t) = Some (A' t) /\ wf (A' t) /\ shape (A' t) = shape (A t)) ->
  (forall t, In t (nids (Nd r ks)) -> t <> r -> unit_along (A' t) (oaxis (hget (sheap K s) t))) ->
  canonical fuel (sheap K s') r ks A' terms.
Proof.
  intros ((C1 & C2 & C3 & C4 & C5 & C6 & C7) & C8 & C9 & C10 & C11) St Ar U. pose proof St as (_ & Fr).
  split; [|split; [|split; [eapply oriented_still; eauto|split]]].
  - split. { apply (TEnv_Proof.hangs_same K (sheap K s)); auto. intros n. destruct (Fr n) as (P1 & _ & _ & P2); auto. }
    split; auto. split. { apply (fits_shapes K A); auto. intros n Hn. apply Ar; auto. }
    split; auto. split. { intros n Hn. apply Ar; auto. }
    split. { intros n Hn Nn _. destruct (Fr n) as (_ & -> & _). auto. }
    rewrite Forall_forall in C7 |- *. intros term Ht. destruct (C7 term Ht) as (S1 & S2). split; [intros l m Hl; destruct (Fr l) as (-> & _); eauto|].
    rewrite (ldims_agree K A A'); auto. intros n Hn. apply Ar; auto.
  - intros n. destruct (Fr n) as (_ & _ & _ & ->). auto.
  - intros l Hl. destruct (Fr l) as (_ & -> & _). auto.
  - intros n Hn Nn. destruct (Fr n) as (_ & -> & _). auto.
Qed.
End Still.

Section Loop.
Variables T X : Type.
Variable sys : system C_star T.
Variable fuel : nat.
Variable invert : option (arr C_star) -> nat -> res (arr C_star).
Variable imaginary : bool.
Variable icoef : C_star.
Variable e0 : option C_star.
Variable zero : T.
Variable make : T -> list C_star -> T -> plan C_star T X.
Variable running : X -> bool.
Variable next_step : X -> plan C_star T X.
Variable current : X -> list C_star.
Variable later : T -> T.
Variables cmf limit : nat.
Notation K := C_star.
Notation terms_at := (fun c => all_terms K T sys (time_at T zero c)).
Notation tell := (fun t : T => if imaginary then None else Some t).
Variable r : id.
Variable ks0 : list (nat * tree * nat).
Notation R := (Nd r ks0).
Variable axes : id -> option nat.
Variable A0 : id -> arr K.
Notation N := (total (asize A0) (nids R)).
Variable Q : X -> Prop.
Hypothesis Inv : forall n rho, is_matrix rho n n -> exists m, invert (Some rho) n = Ok m /\ is_matrix m n n.
Hypothesis Ne : forall time, all_terms K T sys time <> [].
Hypothesis Qmake : forall t y t1, length y = N -> sized Q N (make t y t1).
Hypothesis Qstep : forall x, Q x -> length (current x) = N /\ sized Q N (next_step x).
Hypothesis Cmf : cmf <> 0.

Notation moment := (moment T X).
Notation renewed := (@renewed T X invert axes R cmf limit).
Notation solved := (@solved T X R terms_at icoef e0 next_step tell).
Notation goes := (@goes T X invert axes R terms_at icoef e0 running next_step current tell cmf limit).
Notation reach := (@reach T X invert axes R terms_at icoef e0 running next_step current tell cmf limit).
Notation steady := (@steady T X invert axes R terms_at icoef e0 running next_step current tell cmf limit).

(** What belongs to the network. *)
Definition network (s : state K) (A : id -> arr K) : Prop :=
  sroot K s = r /\ (forall time, canonical fuel (sheap K s) r ks0 A (all_terms K T sys time)) /\ (forall t, oaxis (hget (sheap K s) t) = axes t) /\
  (forall t, In t (nids R) -> onorm (hget (sheap K s) t) = true) /\ (forall t, In t (nids R) -> shape (A t) = shape (A0 t)).
(** The cached mean fields are those of the arrays [B] at the time [c]. *)
Definition serves (iv : inverses K) (e : envs K) (B : id -> arr K) (c : option T) (axis : id -> option (nat * arr K)) : Prop :=
  (forall t, In t (nids R) -> shape (B t) = shape (A0 t)) /\
  exists mss, (forall time, ready K T sys iv e r ks0 axes (fun t => shape (B t)) mss time) /\
    forall y, length y = N -> answer K iv r ks0 axes B mss icoef e0 y = flow icoef e0 B R (terms_at c) axis y.
Definition holds (w : scene K T X) (m : moment) : Prop :=
  exists iv s, w = (Some (object m), (clock m, iv, s)) /\ network s (arrays m) /\ serves iv (senv K s) (source m) (since m) (axis_in m) /\ Q (object m).

Lemma size_same (B : id -> arr K) : (forall t, In t (nids R) -> shape (B t) = shape (A0 t)) -> total (asize B) (nids R) = N.
Proof. intros E. apply total_ext. intros n Hn. unfold asize. rewrite E; auto. Qed.

Lemma placed_sh sh sh' time h Y : (forall t, In t (nids R) -> sh t = sh' t) -> placed K T sys r ks0 axes sh time h Y -> placed K T sys r ks0 axes sh' time h Y.
Proof. intros E [P1 P2 P3 P4 P5 P6 P7 P8]. constructor; auto; intros t Ht; rewrite <- E by auto; auto. Qed.
Lemma network_placed s A time : network s A -> placed K T sys r ks0 axes (fun t => shape (A0 t)) time (sheap K s) A.
Proof.
  intros (Er & Can & Ax & Fl & Sh). destruct (can_parts K (sheap K s) r ks0 A fuel _ (Can time)) as (H & ND & F & Hf & DO & Or & Ar & Lx & U & Su).
  constructor; auto.
  - intros t Ht. split; auto. eapply fits_wf; eauto.
  - intros t Ht. rewrite <- Sh by auto. assert (Net : exists ks, same_net K (sheap K s) R (Nd t ks)) by (apply (reroot_at K); auto).
    destruct Net as (ks & Sn). apply (net_kids K (sheap K s) r ks0 A H F t ks Sn).
  - intros term (l, m) H1 H2. rewrite Forall_forall in Su. destruct (Su term H1) as (S1 & _). cbn [fst]. eauto.
Qed.
Lemma network_moved s s' A A' : network s A -> still K s s' -> (forall t, In t (nids R) -> oarr (hget (sheap K s') t) = Some (A' t) /\ wf (A' t) /\ shape (A' t) = shape (A t)) ->
  (forall t, In t (nids R) -> t <> r -> unit_along (A' t) (axes t)) -> network s' A'.
Proof.
  intros (Er & Can & Ax & Fl & Sh) St Ar U. pose proof St as (Er' & Fr). split; [congruence|]. split; [|split; [|split]].
  - intros time. eapply canonical_moved; eauto. intros t Ht Nt. rewrite Ax. auto.
  - intros t. destruct (Fr t) as (_ & -> & _). auto.
  - intros t Ht. destruct (Fr t) as (_ & _ & -> & _). auto.
  - intros t Ht. destruct (Ar t Ht) as (_ & _ & ->). auto.
Qed.
Lemma network_same s s' A time : network s A -> still K s s' -> placed K T sys r ks0 axes (fun t => shape (A0 t)) time (sheap K s') A -> network s' A.
Proof.
  intros Nw St P. pose proof Nw as (Er & Can & Ax & Fl & Sh). eapply network_moved; eauto.
  - intros t Ht. split; [apply P; auto|]. split; auto. apply (pl_sh _ _ _ _ _ _ _ _ _ _ P t Ht).
  - intros t Ht Nt. destruct (can_parts K (sheap K s) r ks0 A fuel _ (Can time)) as (_ & _ & _ & _ & _ & _ & _ & _ & U & _). rewrite <- Ax. auto.
Qed.

Lemma reform_run c iv s A : network s A -> exists iv' s' axis, reformer K T sys fuel invert zero (c, iv, s) = Ok (c, iv', s') /\ network s' A /\
  inverse_axes invert axes A R axis /\ serves iv' (senv K s') A c axis.
Proof.
  intros Nw. pose proof Nw as (Er & Can & Ax & Fl & Sh).
  assert (Can' : canonical fuel (sheap K s) (sroot K s) ks0 A (all_terms K T sys (time_at T zero c))) by (rewrite Er; auto).
  assert (Rn : Nd (sroot K s) ks0 = R) by (rewrite Er; auto).
  destruct (formed K T sys fuel invert (time_at T zero c) s ks0 A Can') with (ax := axes) as (s1 & iv' & s2 & E1 & E2 & F); auto.
  2: rewrite Rn, Er in F; destruct F as (Rd & P & Er2 & Co & IA & An).
  { intros t a rho Ht Ea (De & _). destruct (Inv _ _ De) as (m & Em & Mm). eauto. }
  exists iv', s2, (axis_of K iv' axes). unfold reformer. rewrite E1. cbn [bind]. rewrite E2. cbn [bind]. split; auto. split; [|split; [auto|]].
  - eapply (network_same s s2 A); eauto; [apply core_still; auto; congruence|]. eapply placed_sh; [|exact P]. auto.
  - split; auto. eexists. split; [intros time; eapply (ready_time K T sys); exact Rd|]. intros y Ly. apply An. rewrite Ly. symmetry. apply size_same; auto.
Qed.

Lemma solver_run (p : plan K T X) c iv s A B c0 axis : network s A -> serves iv (senv K s) B c0 axis -> sized Q N p ->
  exists x c' s', answered (flow icoef e0 B R (terms_at c0) axis) tell p c = (x, c') /\ Q x /\
    consult K T X sys fuel imaginary icoef e0 zero p (c, iv, s) = Ok (x, (c', iv, s')) /\ network s' A /\ senv K s' = senv K s.
Proof.
  intros Nw (Sb & mss & Rd & An) Sz. pose proof Nw as (Er & Can & Ax & Fl & Sh). set (time := time_at T zero c).
  destruct (can_parts K (sheap K s) r ks0 A fuel _ (Can time)) as (H & ND & F & Hf & _).
  destruct (consult_run K T sys fuel iv (senv K s) r ks0 axes B mss time (Rd _) ND Hf (Ne _) X imaginary icoef e0 zero Q p c s A) as (x & c' & s' & Ea & Qx & Ec & Fr & P); auto.
  - eapply placed_sh; [|apply network_placed; auto]. intros t Ht. rewrite Sb; auto.
  - rewrite size_same; auto.
  - exists x, c', s'. split; [|split; [auto|split; [auto|split]]].
    + rewrite <- Ea. symmetry. apply (answered_ext Q N); auto. intros y Ly. split; [auto|]. rewrite answer_len. apply size_same; auto.
    + apply (network_same s s' A time Nw); [apply frame_still; auto|]. eapply placed_sh; [|exact P]. auto.
    + apply Fr.
Qed.

Lemma update_all c iv s A y : network s A -> length y = N -> (forall t, In t (nids R) -> regular (axes t) (part A R y t)) ->
  exists s' A', updater K T fuel vnorm Csqrt Cinv y (c, iv, s) = Ok (c, iv, s') /\ network s' A' /\ senv K s' = senv K s /\
    forall t, In t (nids R) -> made_unit (axes t) (part A R y t) (A' t).
Proof.
  intros Nw Ly Rg. pose proof Nw as (Er & Can & Ax & Fl & Sh). set (time := time_at T zero c).
  destruct (can_parts K (sheap K s) r ks0 A fuel _ (Can time)) as (H & ND & F & Hf & DO & Or & Ar & Lx & U & Su).
  assert (Hx : forall t, In t (nids R) -> match axes t with Some i => i < length (shape (A0 t)) | None => True end).
  { intros t Ht. rewrite <- Ax, <- Sh by auto. destruct (oaxis (hget (sheap K s) t)) as [a|] eqn:Ea; auto.
    assert (Nt : t <> r) by (intros ->; rewrite (r_axis K (sheap K s) r ks0 Or) in Ea; discriminate).
    destruct (view_exists K (sheap K s) r ks0 A H F DO Or t Ht Nt) as (k1 & k & k2 & (_ & Ek & _ & _ & _ & _ & Hi & _)). assert (a = k_i k) by congruence. subst a. exact Hi. }
  destruct (update_run K T sys fuel vnorm Csqrt Cinv r ks0 axes (fun t => shape (A0 t)) time ND Hf (fun _ => true) (fun t a => regular (axes t) a) (fun t a b => made_unit (axes t) a b))
    with (c := c) (iv := iv) (s := s) (Y := A) (y := y) as (s' & A' & E & Fr & P & G); auto.
  - intros t h a Ht Lt Ea Ex En W Sa Ra. specialize (Hx t Ht).
    destruct (flagged_one h t a (axes t)) as (v & up & b & E & Hu & Eb & Wb & Sb & Mb); auto.
    + rewrite Sa, <- Sh by auto. eapply fits_positive; eauto.
    + unfold ndim. rewrite Sa. auto.
    + exists v, up, b. rewrite <- Sa. auto 10.
  - apply network_placed. auto.
  - rewrite Ly. symmetry. apply size_same; auto.
  - exists s', A'. split; auto. split; [|split; [apply Fr|auto]]. apply (network_moved s s' A A' Nw); [apply frame_still; auto| |].
    + intros t Ht. split; [apply P; auto|]. destruct (pl_sh _ _ _ _ _ _ _ _ _ _ P t Ht) as (W & Sy). split; auto. rewrite Sy, Sh; auto.
    + intros t Ht Nt. specialize (G t Ht). destruct (axes t) as [i|] eqn:Ei; [eapply unit_isometric; eauto|]. exfalso.
      destruct (view_exists K (sheap K s) r ks0 A H F DO Or t Ht Nt) as (k1 & k & k2 & (_ & Ek & _)). rewrite Ax in Ek. congruence.
Qed.

Lemma reach_trans m1 m2 m3 : reach m1 m2 -> reach m2 m3 -> reach m1 m3.
Proof. intros H G. induction G as [|m m' G IH S1]; auto. eapply further; eauto. Qed.

(** One round. *)
Lemma round_run w m : holds w m -> running (object m) = true -> steady m -> (count m mod cmf = 0 -> count m < limit) ->
  exists m' w1, goes m m' /\ holds w1 m' /\
    let step := next (scene K T X) (acting K T X (solver_step K T X sys fuel imaginary icoef e0 zero next_step)) (acting K T X (solver_update K T X fuel vnorm Csqrt Cinv current)) in
    if count m mod cmf =? 0 then exists w', acting K T X (solver_reform K T X sys fuel invert zero) w = (w', None) /\ step w' = (w1, None)
    else step w = (w1, None).
Proof.
  intros (iv & s & -> & Nw & Sv & Qx) Run St Lim.
  assert (exists iv1 s1 src snc axs, network s1 (arrays m) /\ serves iv1 (senv K s1) src snc axs /\
    (forall x c A, renewed m (mkMoment (S (count m)) x c A src snc axs)) /\
    if count m mod cmf =? 0 then acting K T X (solver_reform K T X sys fuel invert zero) (Some (object m), (clock m, iv, s)) = ((Some (object m), (clock m, iv1, s1)), None)
    else (iv1, s1) = (iv, s)) as (iv1 & s1 & src & snc & axs & Nw1 & Sv1 & Rn & Rf).
  { destruct (count m mod cmf =? 0) eqn:Ec.
    - destruct (reform_run (clock m) iv s (arrays m) Nw) as (iv1 & s1 & axs & E & Nw1 & IA & Sv1).
      exists iv1, s1, (arrays m), (clock m), axs. split; auto. split; auto. split.
      + intros x c A. unfold Ode_Spec.renewed. rewrite Ec. cbn [source since axis_in]. split; auto. apply Lim. apply Nat.eqb_eq. auto.
      + unfold acting, solver_reform. rewrite E. reflexivity.
    - exists iv, s, (source m), (since m), (axis_in m). split; auto. split; auto. split; auto. intros x c A. unfold Ode_Spec.renewed. rewrite Ec. auto. }
  destruct (Qstep _ Qx) as (_ & Sz).
  destruct (solver_run (next_step (object m)) (clock m) iv1 s1 (arrays m) src snc axs Nw1 Sv1 Sz) as (x & c' & s2 & Ea & Qx' & Ec & Nw2 & Ee2).
  destruct (Qstep _ Qx') as (Lx & _).
  assert (Rg : forall t, In t (nids R) -> regular (axes t) (part (arrays m) R (current x) t)).
  { apply (St (mkMoment (S (count m)) x c' (arrays m) src snc axs)); auto. }
  destruct (update_all c' iv1 s2 (arrays m) (current x) Nw2 Lx Rg) as (s3 & A' & Eu & Nw3 & Ee3 & Mu).
  exists (mkMoment (S (count m)) x c' A' src snc axs), (Some x, (c', iv1, s3)). split; [|split].
  - split; auto. split; auto.
  - exists iv1, s3. cbn [object clock arrays source since axis_in]. split; auto. split; auto. split; auto. rewrite Ee3, Ee2. auto.
  - assert (Step : next (scene K T X) (acting K T X (solver_step K T X sys fuel imaginary icoef e0 zero next_step)) (acting K T X (solver_update K T X fuel vnorm Csqrt Cinv current))
      (Some (object m), (clock m, iv1, s1)) = (Some x, (c', iv1, s3), None)).
    { unfold next, acting at 1, solver_step. rewrite Ec. cbn [bind]. unfold acting, solver_update. rewrite Eu. reflexivity. }
    cbv zeta. destruct (count m mod cmf =? 0); [eauto|]. injection Rf as <- <-. auto.
Qed.

Definition ended (m : moment) (rounds : nat) (m' : moment) (o : outcome) : Prop :=
  match o with
  | Finished => running (object m') = false
  | Unfinished => count m' = count m + rounds
  | Raised e => e = RuntimeWarning /\ running (object m') = true /\ count m' mod cmf = 0 /\ limit <= count m'
  end.
Lemma loop_run : forall rounds w m, holds w m -> (forall m1, reach m m1 -> steady m1) ->
  exists ev w' o m', ode_loop (scene K T X) (solver_running K T X running) (acting K T X (solver_step K T X sys fuel imaginary icoef e0 zero next_step))
      (acting K T X (solver_update K T X fuel vnorm Csqrt Cinv current)) (Some (acting K T X (solver_reform K T X sys fuel invert zero))) cmf limit rounds (count m) w = (ev, (w', o)) /\
    reach m m' /\ holds w' m' /\ ended m rounds m' o.
Proof.
  induction rounds as [|rounds IH]; intros w m Hw St; cbn [ode_loop].
  { exists [], w, Unfinished, m. split; auto. split; [constructor|]. split; auto. cbn [ended]. lia. }
  destruct (Nat.eqb_spec cmf 0) as [|_]; [contradiction|].
  assert (Rw : solver_running K T X running w = running (object m)) by (destruct Hw as (iv & s & -> & _); reflexivity). rewrite Rw.
  destruct (running (object m)) eqn:Run; cbn [negb]. 2:{ exists [], w, Finished, m. split; auto. split; [constructor|]. split; auto. }
  destruct (Nat.eqb_spec (count m mod cmf) 0) as [Ec|Ec].
  - destruct (Nat.leb_spec limit (count m)) as [Ll|Ll].
    { exists [], w, (Raised RuntimeWarning), m. split; auto. split; [constructor|]. split; auto. split; auto. }
    destruct (round_run w m Hw Run (St m (here _ _ _ _ _ _ _ _ _ _ _ _ _ _ _)) (fun _ => Ll)) as (m1 & w1 & G & Hw1 & Ex).
    apply Nat.eqb_eq in Ec. rewrite Ec in Ex. destruct Ex as (w' & E1 & E2). rewrite E1, E2.
    destruct (IH w1 m1 Hw1) as (ev & w2 & o & m2 & E & Re & Hw2 & En).
    { intros m2 Re. apply St. eapply reach_trans; [|exact Re]. eapply further; [constructor|exact G]. }
    pose proof G as (_ & _ & _ & Cn & _). rewrite <- Cn, E. exists (Reforming (count m) :: Stepping (count m) :: ev), w2, o, m2. split; auto.
    split; [eapply reach_trans; [eapply further; [constructor|exact G]|exact Re]|]. split; auto. destruct o; auto. cbn [ended] in *. lia.
  - destruct (round_run w m Hw Run (St m (here _ _ _ _ _ _ _ _ _ _ _ _ _ _ _)) (fun Z => False_ind _ (Ec Z))) as (m1 & w1 & G & Hw1 & Ex).
    apply Nat.eqb_neq in Ec. rewrite Ec in Ex. rewrite Ex.
    destruct (IH w1 m1 Hw1) as (ev & w2 & o & m2 & E & Re & Hw2 & En).
    { intros m2 Re. apply St. eapply reach_trans; [|exact Re]. eapply further; [constructor|exact G]. }
    pose proof G as (_ & _ & _ & Cn & _). rewrite <- Cn, E. exists (Stepping (count m) :: ev), w2, o, m2. split; auto.
    split; [eapply reach_trans; [eapply further; [constructor|exact G]|exact Re]|]. split; auto. destruct o; auto. cbn [ended] in *. lia.
Qed.

Lemma step_run rounds c iv s : network s A0 ->
  (forall m0 m1, begins invert axes R terms_at icoef e0 tell make later zero A0 c m0 -> reach m0 m1 -> steady m1) ->
  exists ev w' o m0 m', ode_step K T X sys fuel invert vnorm Csqrt Cinv imaginary icoef e0 zero make running next_step current later cmf limit rounds (c, iv, s) = Ok (ev, (w', o)) /\
    begins invert axes R terms_at icoef e0 tell make later zero A0 c m0 /\ reach m0 m' /\ holds w' m' /\ ended m0 rounds m' o.
Proof.
  intros Nw St. unfold ode_step. destruct (reform_run c iv s A0 Nw) as (iv1 & s1 & axs & E & Nw1 & IA & Sv1). rewrite E. cbn [bind].
  pose proof Nw1 as (Er & Can & Ax & Fl & Sh). destruct (can_parts K (sheap K s1) r ks0 A0 fuel _ (Can (time_at T zero c))) as (H & ND & F & Hf & DO & Or & Ar & Lx & U & Su).
  rewrite Er. change (vectorize fuel (sheap K s1) r) with (vectorize fuel (sheap K s1) (top R)).
  rewrite (vectorize_ok K (sheap K s1) R fuel A0 false H (r_axis K (sheap K s1) r ks0 Or) (heights r ks0 fuel Hf)) by auto. cbn [bind]. fold (vector A0 R).
  assert (Lv : length (vector A0 R) = N) by (apply vector_len; eapply fits_wf; eauto).
  destruct (solver_run (make (time_at T zero c) (vector A0 R) (later (time_at T zero c))) c iv1 s1 A0 A0 c axs Nw1 Sv1 (Qmake _ _ _ Lv)) as (x & c' & s2 & Ea & Qx & Ec & Nw2 & Ee).
  set (m0 := mkMoment 1 x c' A0 A0 c axs).
  assert (B : begins invert axes R terms_at icoef e0 tell make later zero A0 c m0) by (repeat split; auto).
  destruct (loop_run rounds (Some x, (c', iv1, s2)) m0) as (ev & w' & o & m' & El & Re & Hw & En).
  - exists iv1, s2. split; auto. split; auto. split; auto. cbn [m0 source since axis_in]. rewrite Ee. auto.
  - intros m1. apply St. auto.
  - exists ev, w', o, m0, m'. split; auto. f_equal. unfold solve_ode. unfold acting at 1, make_solver. rewrite Ec. cbn [bind]. exact El.
Qed.
End Loop.
