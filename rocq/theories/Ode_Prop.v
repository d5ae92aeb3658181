(** Property C78. *)
From Coq Require Import String List Arith ZArith QArith Qcanon Bool Lia Reals Lra.
From Verif Require Import Py Alg ListX NdArray_Model NdArray_Proof Contract_Model Contract_Spec Net_Model Net_Spec Sweep_Spec Trav_Proof Acyc_Proof Contraction_Proof
  Link_Spec Link_Proof Env_Spec TEnv_Proof EnvThm_Proof Reroot_Proof State_Spec State_Proof Cache_Model Cache_Spec Cache_Proof CacheExact_Proof Eom_Spec Eom_Proof Direct_Model Direct_Spec
  DirectAlg_Proof DirectSem_Proof DirectGrad_Proof DirectRun_Proof DirectThm_Proof Rk4_Spec Rk4_Model Rk4_Proof Rk4Thm_Proof Rk4_Prop Cplx Normalize_Model Normalize_Spec Normalize_Prop
  Propagate_Model Ode_Spec Ode_Model Vec_Spec Vec_Proof Ode_Proof OdeThm_Proof OdeUpd_Proof OdeLoop_Proof.
Import ListNotations.
Local Open Scope nat_scope.
Local Open Scope list_scope.

(** ** C78: the step of the direct scheme with a solver of differential equations *)

(** With the mean fields of the arrays [A], any computation of the solver that asks for derivatives
    of vectors of the right length gets those of [flow], whatever the times, and the arrays are
    as before afterwards; only the time of the last question is noted, unless it is imaginary. *)
Theorem C78_solver :
  forall (K : StarRing) T X (sys : system K T) fuel invert (imaginary : bool) icoef e0 zero c iv0 (s : state K) ks A,
    let h := sheap K s in let r := sroot K s in let R := Nd r ks in let axes := fun t => oaxis (hget h t) in
    let time := match c with None => zero | Some t => t end in let terms := all_terms K T sys time in
    canonical fuel h r ks A terms -> terms <> [] -> yields invert h A R ->
    exists iv s1 axis, reformer K T sys fuel invert zero (c, iv0, s) = Ok (c, iv, s1) /\ inverse_axes invert axes A R axis /\
      forall (p : plan K T X) P, sized P (total (asize A) (nids R)) p ->
        exists x c' s2, consult K T X sys fuel imaginary icoef e0 zero p (c, iv, s1) = Ok (x, (c', iv, s2)) /\ P x /\
          answered (flow icoef e0 A R terms axis) (fun t => if imaginary then None else Some t) p c = (x, c') /\
          sroot K s2 = r /\ hangs (sheap K s2) None R /\ oriented (sheap K s2) None R /\
          forall n, In n (nids R) -> oarr (hget (sheap K s2) n) = Some (A n).
Proof.
  intros K T X sys fuel invert imaginary icoef e0 zero c iv0 s ks A h r R axes time terms Can Ne Yi.
  destruct (formed K T sys fuel invert time s ks A Can Yi axes (fun t => eq_refl)) as (s1 & iv & s2 & E1 & E2 & Rd & P & Er & Co & IA & An).
  destruct (can_parts K _ _ ks A fuel terms Can) as (H & ND & F & Hf & _).
  exists iv, s2, (axis_of K iv axes). unfold reformer, time_at. fold time. rewrite E1. cbn [bind]. rewrite E2. cbn [bind]. split; auto. split; auto.
  intros p Q Sz. destruct (consult_run K T sys fuel iv (senv K s2) r ks axes A _ time Rd ND Hf Ne X imaginary icoef e0 zero Q p c s2 A P Er eq_refl Sz) as (x & c' & s3 & Ea & Qx & Ec & Fr & P3).
  exists x, c', s3. split; auto. split; auto. split.
  { rewrite <- Ea. symmetry. apply (answered_ext Q (total (asize A) (nids R))); auto. intros y Ly. split; [apply An; auto|apply answer_len]. }
  split; [destruct Fr as (_ & _ & -> & _); auto|]. split; [apply P3|]. split; [apply P3|]. apply P3.
Qed.
Print Assumptions C78_solver.

(** In particular [diff]. *)
Theorem C78_derivative :
  forall (K : StarRing) T (sys : system K T) fuel invert (imaginary : bool) icoef e0 zero c iv0 (s : state K) ks A,
    let h := sheap K s in let r := sroot K s in let R := Nd r ks in let axes := fun t => oaxis (hget h t) in
    let time := match c with None => zero | Some t => t end in let terms := all_terms K T sys time in
    canonical fuel h r ks A terms -> terms <> [] -> yields invert h A R ->
    exists iv s1 axis, reformer K T sys fuel invert zero (c, iv0, s) = Ok (c, iv, s1) /\ inverse_axes invert axes A R axis /\
      forall t y, length y = total (asize A) (nids R) ->
        exists s2, direct_diff K T sys fuel imaginary icoef e0 zero t y (c, iv, s1)
          = Ok (flow icoef e0 A R terms axis y, (if imaginary then None else Some t, iv, s2)) /\
          forall n, In n (nids R) -> oarr (hget (sheap K s2) n) = Some (A n).
Proof.
  intros K T sys fuel invert imaginary icoef e0 zero c iv0 s ks A h r R axes time terms Can Ne Yi.
  destruct (C78_solver K T (list K) sys fuel invert imaginary icoef e0 zero c iv0 s ks A Can Ne Yi) as (iv & s1 & axis & E & IA & G).
  exists iv, s1, axis. split; auto. split; auto. intros t y Ly. destruct (G (Ask t y Done) (fun _ => True)) as (x & c' & s2 & Ec & _ & Ea & _ & _ & _ & Ar); [split; cbn; auto|].
  cbn [consult answered] in Ec, Ea. injection Ea as <- <-. exists s2. split; auto.
  destruct (direct_diff K T sys fuel imaginary icoef e0 zero t y (c, iv, s1)) as [(a, w)|]; [|discriminate]. cbn [bind consult] in Ec. injection Ec as -> ->. reflexivity.
Qed.
Print Assumptions C78_derivative.

(** Without the flag [normalized], which is off by default, the vector of the solver is only stored. *)
Theorem C78_unflagged :
  forall (K : StarRing) T fuel nrm sqrtf inv (zero : T) (c : option T) iv (s : state K) ks A y,
    let h := sheap K s in let r := sroot K s in let R := Nd r ks in
    standing fuel h r ks A [] -> dicts_ok h -> oriented h None R -> (forall n, In n (nids R) -> onorm (hget h n) = false) ->
    length y = total (asize A) (nids R) ->
    exists s', updater K T fuel nrm sqrtf inv y (c, iv, s) = Ok (c, iv, s') /\ sroot K s' = r /\ senv K s' = senv K s /\
      hangs (sheap K s') None R /\ oriented (sheap K s') None R /\
      forall n, In n (nids R) -> oarr (hget (sheap K s') n) = Some (part A R y n).
Proof.
  intros K T fuel nrm sqrtf inv zero c iv s ks A y h r R (H & ND & F & Hf & Ar & _ & _) DO Or Fl Ly.
  assert (P : forall time, placed K T (mkSystem K T [] None) r ks (fun t => oaxis (hget h t)) (fun t => shape (A t)) time h A).
  { intros time. constructor; auto.
    - intros t Ht. split; auto. eapply fits_wf; eauto.
    - intros t Ht. destruct (reroot_at K h R t DO H Ht) as (kt & Sn). apply (net_kids K h r ks A H F t kt Sn). }
  destruct (update_run K T (mkSystem K T [] None) fuel nrm sqrtf inv r ks (fun t => oaxis (hget h t)) (fun t => shape (A t)) zero ND Hf (fun _ => false) (fun _ _ => True) (fun _ a b => b = a))
    with (c := c) (iv := iv) (s := s) (Y := A) (y := y) as (s' & A' & E & Fr & P' & G); auto.
  - intros t hh a Ht Lt Ea Ex En W Sa _. exists None, (fun o => o), a. split; [|split; [intros o; auto|auto 10]].
    unfold normalize. rewrite Ea, En. cbn [negb andb]. do 2 f_equal. symmetry.
    apply (nth_ext _ _ no_obj no_obj); [apply length_modify|]. intros m Hm. change (hget (modify hh t (fun o => o)) m = hget hh m).
    destruct (Nat.eq_dec m t) as [->|Nm]; [rewrite hget_modify_eq by auto; auto|rewrite hget_modify_neq by auto; auto].
  - exists s'. split; auto. destruct Fr as (_ & Fe & Fr & _). split; auto. split; auto. split; [apply P'|]. split; [apply P'|].
    intros n Hn. rewrite (pl_arr _ _ _ _ _ _ _ _ _ _ P' n Hn), (G n Hn). reflexivity.
Qed.
Print Assumptions C78_unflagged.

(** With the flag, the tensors are made orthonormal along their axes (unit norm for the root), as
    the parts of the vector of the solver allow. *)
Theorem C78_flagged :
  forall T fuel (zero : T) (c : option T) iv (s : state C_star) ks A y,
    let h := sheap C_star s in let r := sroot C_star s in let R := Nd r ks in let axes := fun t => oaxis (hget h t) in
    canonical fuel h r ks A [] -> (forall n, In n (nids R) -> onorm (hget h n) = true) ->
    length y = total (asize A) (nids R) -> (forall t, In t (nids R) -> regular (axes t) (part A R y t)) ->
    exists s' A', updater C_star T fuel vnorm Csqrt Cinv y (c, iv, s) = Ok (c, iv, s') /\ senv C_star s' = senv C_star s /\
      canonical fuel (sheap C_star s') r ks A' [] /\
      forall t, In t (nids R) -> oarr (hget (sheap C_star s') t) = Some (A' t) /\ made_unit (axes t) (part A R y t) (A' t).
Proof.
  intros T fuel zero c iv s ks A y h r R axes Can Fl Ly Rg.
  destruct (update_all T (mkSystem C_star T [] None) fuel zero r ks axes A c iv s A y) as (s' & A' & E & (Er & Can' & _) & Ee & G); auto.
  - split; auto.
  - exists s', A'. split; auto. split; auto. split; [apply (Can' zero)|]. intros t Ht. split; auto. destruct (Can' zero) as ((_ & _ & _ & _ & Ar & _) & _). apply Ar. auto.
Qed.
Print Assumptions C78_flagged.

(** The whole step.  The solver keeps to vectors of the right length; the inversion gives a matrix
    for every square matrix; the vectors that come up can be orthonormalised. *)
Theorem C78_course :
  forall T X (sys : system C_star T) fuel invert (imaginary : bool) icoef e0 zero make running next_step current later cmf limit rounds c iv (s : state C_star) ks A (P : X -> Prop),
    let h := sheap C_star s in let r := sroot C_star s in let R := Nd r ks in let axes := fun t => oaxis (hget h t) in
    let terms_at := fun c => all_terms C_star T sys (match c with None => zero | Some t => t end) in
    let tell := fun t : T => if imaginary then None else Some t in let n := total (asize A) (nids R) in
    (forall time, canonical fuel h r ks A (all_terms C_star T sys time) /\ all_terms C_star T sys time <> []) ->
    (forall t, In t (nids R) -> onorm (hget h t) = true) ->
    (forall d rho, is_matrix rho d d -> exists m, invert (Some rho) d = Ok m /\ is_matrix m d d) ->
    (forall t y t1, length y = n -> sized P n (make t y t1)) ->
    (forall x, P x -> length (current x) = n /\ sized P n (next_step x)) -> cmf <> 0 ->
    (forall m0 m1, begins invert axes R terms_at icoef e0 tell make later zero A c m0 ->
       reach invert axes R terms_at icoef e0 running next_step current tell cmf limit m0 m1 ->
       steady invert axes R terms_at icoef e0 running next_step current tell cmf limit m1) ->
    exists events iv' s' o m0 m',
      ode_step C_star T X sys fuel invert vnorm Csqrt Cinv imaginary icoef e0 zero make running next_step current later cmf limit rounds (c, iv, s)
        = Ok (events, ((Some (object m'), (clock m', iv', s')), o)) /\
      begins invert axes R terms_at icoef e0 tell make later zero A c m0 /\
      reach invert axes R terms_at icoef e0 running next_step current tell cmf limit m0 m' /\
      sroot C_star s' = r /\ (forall time, canonical fuel (sheap C_star s') r ks (arrays m') (all_terms C_star T sys time)) /\
      match o with
      | Finished => running (object m') = false
      | Raised e => e = RuntimeWarning /\ running (object m') = true /\ count m' mod cmf = 0 /\ limit <= count m'
      | Unfinished => count m' = 1 + rounds
      end.
Proof.
  intros T X sys fuel invert imaginary icoef e0 zero make running next_step current later cmf limit rounds c iv s ks A P h r R axes terms_at tell n Can Fl Inv Qm Qs Cmf St.
  destruct (step_run T X sys fuel invert imaginary icoef e0 zero make running next_step current later cmf limit r ks axes A P Inv (fun time => proj2 (Can time)) Qm Qs Cmf rounds c iv s)
    as (ev & w' & o & m0 & m' & E & B & Re & (iv' & s' & -> & (Er & Can' & _) & _) & En); auto.
  - split; auto. split; [intros time; apply Can|]. split; auto.
  - exists ev, iv', s', o, m0, m'. do 5 (split; auto). unfold ended in En. destruct o; auto. destruct B as (-> & _) in En. exact En.
Qed.
Print Assumptions C78_course.


(** A network of two tensors; the root has norm [sqrt 5]. *)
Local Notation one := (r1 : C_star).
Local Notation nul := (r0 : C_star).
Local Notation re x := (RtoC x : C_star).
Definition ca (n : nat) : arr C_star :=
  match n with
  | 0 => mkArr [2; 2] [one; nul; nul; re 2]
  | _ => mkArr [2; 3] [one; nul; nul; nul; one; nul]
  end.
Definition ch : heap C_star :=
  [mkObj (Some "0"%string) false (Some (ca 0)) None None true [(0, (1, 0)); (1, (2, 0))] [];
   mkObj (Some "1"%string) false (Some (ca 1)) None (Some 0) true [(0, (0, 0)); (1, (3, 0))] [];
   mkObj (Some "2"%string) true None None None false [(0, (0, 1))] [];
   mkObj (Some "3"%string) true None None None false [(0, (1, 1))] []].
Definition cks : list (nat * tree * nat) := [(0, Nd 1 [(1, Lf 3, 0)], 0); (1, Lf 2, 0)].
Definition cm : arr C_star := mkArr [2; 2] [nul; one; one; re 3].
Definition csys : system C_star nat := mkSystem C_star nat [[(2, cm)]] (Some [[(2, fun t => arr_scale (RtoC (INR t)) cm)]]).
Definition cs : state C_star := mkState C_star ch 0 (no_env C_star).
Definition caxes (t : id) : option nat := oaxis (hget ch t).
Definition cinv (rho : option (arr C_star)) (d : nat) : res (arr C_star) := Ok (build [d; d] (fun x => delta (nth 0 x 0) (nth 1 x 0))).
(** The method of Euler with steps of length one half, two of them. *)
Definition advance (y a : list C_star) : list C_star := map (fun p => radd (fst p) (rmul (RtoC (1 / 2)) (snd p))) (combine y a).
Definition cmake (t : nat) (y : list C_star) (_ : nat) : plan C_star nat (nat * list C_star) := Done (0, y).
Definition cnext (x : nat * list C_star) : plan C_star nat (nat * list C_star) := Ask (fst x) (snd x) (fun a => Done (S (fst x), advance (snd x) a)).
Definition crun (x : nat * list C_star) : bool := fst x <? 2.

Lemma c_canonical time : canonical 6 ch 0 cks ca (all_terms _ _ csys time).
Proof.
  assert (H : hangs ch None (Nd 0 cks)).
  { apply hangs_root; [reflexivity|reflexivity|cbn; repeat constructor; cbn; intuition discriminate|].
    repeat constructor. apply (hangs_node _ _ 1 0 (0, 0) [] [(1, Lf 3, 0)]); [reflexivity|reflexivity| |repeat constructor].
    cbn. repeat constructor; cbn; intuition discriminate. }
  assert (F : fits ca None 0 (Nd 0 cks)).
  { constructor; [reflexivity|repeat constructor|exact I|reflexivity|]. constructor; [|repeat constructor].
    constructor; [reflexivity|repeat constructor|cbn; lia|reflexivity|repeat constructor]. }
  assert (U : unit_along (ca 1) (Some 0)).
  { intros a b Ha Hb. cbn in Ha, Hb. destruct a as [|[|a]]; destruct b as [|[|b]]; try lia; unfold sumL; cbn; apply Ceq; cbn; lra. }
  split; [split; [exact H|split; [|split; [exact F|split; [cbn; lia|split; [|split]]]]]|split; [|split; [|split]]].
  - repeat constructor; cbn; intuition discriminate.
  - intros n Hn. cbn in Hn. destruct Hn as [<-|[<-|[]]]; reflexivity.
  - intros n Hn E _. cbn in Hn. destruct Hn as [<-|[<-|[]]]; [congruence|exact U].
  - repeat constructor; cbn; try (intros l m Hl; repeat (destruct Hl as [Hl|Hl]; [injection Hl as <- <-; reflexivity|]); destruct Hl).
  - intros n. destruct n as [|[|[|[|n]]]]; [cbn; repeat constructor..|]. unfold ch, hget. destruct n; cbn; constructor.
  - repeat constructor.
  - intros l Hl. cbn in Hl. destruct Hl as [<-|[<-|[]]]; reflexivity.
  - intros n Hn E. cbn in Hn. destruct Hn as [<-|[<-|[]]]; [congruence|exact U].
Qed.

(** The vectors of the solver: the root times a positive number. *)
Definition along_course (y : list C_star) : Prop := exists u, (0 < u)%R /\ y = [re u; nul; nul; re (2 * u); one; nul; nul; nul; one; nul].
Lemma c_flow B terms axis u : shape (B 0) = [2; 2] -> shape (B 1) = [2; 3] -> axis 0 = None -> axis 1 <> None ->
  flow r0 (Some r1) B (Nd 0 cks) terms axis [re u; nul; nul; re (2 * u); one; nul; nul; nul; one; nul]
  = [re (- u); nul; nul; re (- (2 * u)); nul; nul; nul; nul; nul; nul].
Proof.
  intros S0 S1 A0 A1. destruct (axis 1) as [(a, m)|] eqn:E1; [clear A1|congruence].
  unfold flow. cbn [cks nids flat_map k_t fst snd app map concat]. rewrite A0, E1, S0, S1. cbn [indices seq flat_map map app].
  unfold velocity, part. rewrite S0, S1. cbn [shift]. unfold asize. 
  assert (Z : forall z w : C_star, rsub (rmul r0 z) (rmul r1 w) = ropp w) by (intros (z1, z2) (w1, w2); apply Ceq; cbn; ring).
  assert (Z' : forall z : C_star, rsub (rmul r0 z) r0 = r0) by (intros (z1, z2); apply Ceq; cbn; ring).
  rewrite !Z, !Z'. unfold get, offset, slice. cbn. rewrite ?S0, ?S1. cbn. 
  assert (L : forall (a b : C_star) l l', a = b -> l = l' -> a :: l = b :: l') by (intros; subst; auto).
  repeat (apply L; [apply Ceq; cbn; ring|]). reflexivity.
Qed.
Lemma c_step B terms axis y : shape (B 0) = [2; 2] -> shape (B 1) = [2; 3] -> axis 0 = None -> axis 1 <> None -> along_course y ->
  along_course (advance y (flow r0 (Some r1) B (Nd 0 cks) terms axis y)).
Proof.
  intros S0 S1 A0 A1 (u & Pu & ->). rewrite c_flow by auto. exists (u / 2)%R. split; [lra|]. unfold advance. cbn [combine map fst snd].
  assert (L : forall (a b : C_star) l l', a = b -> l = l' -> a :: l = b :: l') by (intros; subst; auto).
  repeat (apply L; [apply Ceq; cbn; field|]). reflexivity.
Qed.
Lemma c_regular B y t : shape (B 0) = [2; 2] -> shape (B 1) = [2; 3] -> along_course y -> In t (nids (Nd 0 cks)) -> regular (caxes t) (part B (Nd 0 cks) y t).
Proof.
  intros S0 S1 (u & Pu & ->) Ht. cbn in Ht. destruct Ht as [<-|[<-|[]]]; unfold part; cbn [caxes hget ch nth oaxis regular shape].
  - exists [0; 0]. rewrite S0. split; [repeat constructor|]. unfold get, asize, offset, slice. cbn. rewrite S0. cbn. intros E. apply (f_equal fst) in E. cbn in E. lra.
  - rewrite S1. cbn [del nth firstn skipn app]. intros c E i Hi.
    assert (E0 := E [0] ltac:(left; reflexivity)). assert (E1 := E [1] ltac:(right; left; reflexivity)). revert E0 E1. clear E.
    unfold Normalize_Spec.along, get, asize, offset, slice. cbn. rewrite S0, S1. cbn. intros E0 E1.
    assert (Z : forall z w : C_star, Cadd (Cmul z (1%R, 0%R)) (Cadd (Cmul w (0%R, 0%R)) (0%R, 0%R)) = z) by (intros (z1, z2) (w1, w2); apply Ceq; cbn; ring).
    assert (Z' : forall z w : C_star, Cadd (Cmul z (0%R, 0%R)) (Cadd (Cmul w (1%R, 0%R)) (0%R, 0%R)) = w) by (intros (z1, z2) (w1, w2); apply Ceq; cbn; ring).
    rewrite Z in E0. rewrite Z' in E1. destruct i as [|[|i]]; [exact E0|exact E1|lia].
Qed.


Local Notation cR := (Nd 0 cks).
Local Notation cterms := (fun c => all_terms C_star nat csys (match c with None => 0 | Some t => t end)).
Local Notation cbegins := (begins cinv caxes cR cterms r0 (Some r1) (fun t => Some t) cmake (fun t => t + 1) 0 ca None).
Local Notation creach := (reach cinv caxes cR cterms r0 (Some r1) crun cnext snd (fun t => Some t) 2 100).
Local Notation csteady := (steady cinv caxes cR cterms r0 (Some r1) crun cnext snd (fun t => Some t) 2 100).
Definition under_way (m : moment nat (nat * list C_star)) : Prop :=
  (shape (arrays m 0) = [2; 2] /\ shape (arrays m 1) = [2; 3]) /\ (shape (source m 0) = [2; 2] /\ shape (source m 1) = [2; 3]) /\
  (axis_in m 0 = None /\ axis_in m 1 <> None) /\ along_course (snd (object m)) /\ count m = S (fst (object m)) /\ fst (object m) <= 2.
Lemma c_axes A axis : inverse_axes cinv caxes A cR axis -> axis 0 = None /\ axis 1 <> None.
Proof.
  intros I. split; [apply (I 0); left; auto|]. destruct (I 1) as (rho & m & _ & _ & ->); [right; left; auto|discriminate].
Qed.
Lemma c_next m m' : under_way m -> crun (object m) = true -> renewed cinv caxes cR 2 100 m m' -> solved cR cterms r0 (Some r1) cnext (fun t => Some t) m m' ->
  (shape (source m' 0) = [2; 2] /\ shape (source m' 1) = [2; 3]) /\ (axis_in m' 0 = None /\ axis_in m' 1 <> None) /\ along_course (snd (object m')) /\
  fst (object m') = S (fst (object m)) /\ fst (object m') <= 2.
Proof.
  intros (SA & SS & AX & AC & Cn & Fi) Run Rn So.
  assert (Src : (shape (source m' 0) = [2; 2] /\ shape (source m' 1) = [2; 3]) /\ (axis_in m' 0 = None /\ axis_in m' 1 <> None)).
  { unfold renewed in Rn. destruct (count m mod 2 =? 0); [destruct Rn as (_ & -> & _ & I)|destruct Rn as (-> & _ & ->)]; split; auto. eapply c_axes; eauto. }
  destruct Src as ((S0 & S1) & (A0 & A1)). split; auto. split; auto.
  unfold solved, cnext in So. cbn [answered] in So. apply (f_equal fst) in So. cbn [fst] in So. rewrite <- So. cbn [fst snd]. split; [apply c_step; auto|]. split; auto.
  unfold crun in Run. apply Nat.ltb_lt in Run. lia.
Qed.
Lemma c_under_way m0 m1 : cbegins m0 -> creach m0 m1 -> under_way m1.
Proof.
  intros (Cn & Ar & Src & _ & I & So) Re. induction Re as [|m m' Re IH (Run & Rn & Sv & Cn' & G)].
  - unfold cmake in So. cbn [answered] in So. apply (f_equal fst) in So. cbn [fst] in So. unfold under_way. rewrite Ar, Src, Cn, <- So. cbn [fst snd].
    split; [split; reflexivity|]. split; [split; reflexivity|]. split; [eapply c_axes; eauto|]. split; [|split; auto].
    exists 1%R. split; [lra|]. unfold vector. cbn [cks nids flat_map k_t fst snd app map concat ca data]. assert (E : (2 * 1 = 2)%R) by lra. rewrite E. reflexivity.
  - destruct (c_next m m' IH Run Rn Sv) as (SS & AX & AC & Fn & Fi). pose proof IH as ((SA0 & SA1) & _ & _ & _ & Cm & _).
    split; [|split; [auto|split; [auto|split; [auto|split; [lia|auto]]]]].
    split; [destruct (G 0) as (_ & _ & -> & _); [left; auto|exact SA0]|destruct (G 1) as (_ & _ & -> & _); [right; left; auto|exact SA1]].
Qed.
Lemma c_steady m0 m1 : cbegins m0 -> creach m0 m1 -> csteady m1.
Proof.
  intros B Re m' Run Rn So t Ht. pose proof (c_under_way m0 m1 B Re) as U. destruct (c_next m1 m' U Run Rn So) as (_ & _ & AC & _).
  destruct U as ((S0 & S1) & _). apply c_regular; auto.
Qed.
(** Two steps of the method of Euler for a root that decays. *)
Example C78_ex : exists events c' iv' s' x,
  ode_step C_star nat (nat * list C_star) csys 6 cinv vnorm Csqrt Cinv false r0 (Some r1) 0 cmake crun cnext snd (fun t => t + 1) 2 100 5 (None, fun _ => None, cs)
    = Ok (events, ((Some x, (c', iv', s')), Finished)) /\ fst x = 2.
Proof.
  destruct (C78_course nat (nat * list C_star) csys 6 cinv false r0 (Some r1) 0 cmake crun cnext snd (fun t => t + 1) 2 100 5 None (fun _ => None) cs cks ca (fun x => length (snd x) = 10))
    as (ev & iv' & s' & o & m0 & m' & E & B & Re & _ & _ & O).
  - intros time. split; [apply c_canonical|discriminate].
  - intros t Ht. cbn in Ht. destruct Ht as [<-|[<-|[]]]; reflexivity.
  - intros d rho _. eexists. split; [reflexivity|]. split; [apply wf_build|reflexivity].
  - intros t y t1 Ly. exact Ly.
  - intros x Lx. split; auto. split; auto. intros a La. cbn [sized snd]. unfold advance. rewrite map_length, combine_length, Lx. cbn in La. transitivity (Nat.min 10 10); [f_equal; exact La|reflexivity].
  - discriminate.
  - intros m0 m1. apply c_steady.
  - destruct (c_under_way m0 m' B Re) as (_ & _ & _ & _ & Cn & Fi). destruct o as [|e|].
    + exists ev, (clock m'), iv', s', (object m'). split; [exact E|]. unfold crun in O. apply Nat.ltb_ge in O. lia.
    + exfalso. lia.
    + exfalso. lia.
Qed.
(** The network of C77 with other arrays: the derivative that the solver is told. *)
Local Notation q := Rk4_Prop.q.
Definition told (w : res (world Qc_star nat)) (y : list Qc_star) : option (list Q) :=
  match w with
  | Ok w => match direct_diff Qc_star nat qsys 6 false (q (-1)) None 0 7 y w with Ok (a, _) => Some (map this a) | Raise _ => None end
  | Raise _ => None
  end.
Example C78_derivative_ex : told (reformer Qc_star nat qsys 6 qinv 0 (None, fun _ => None, qs)) (map q [1; 2; 3; 4; 1; 1; 0; 1; 0; 2]%Z)
  = Some [(-3)%Q; (-9)%Q; 0%Q; 0%Q; 35%Q; 7%Q; 50%Q; 125 # 2; 25 # 2; 88%Q].
Proof. vm_cast_no_check (eq_refl (Some [(-3)%Q; (-9)%Q; 0%Q; 0%Q; 35%Q; 7%Q; 50%Q; 125 # 2; 25 # 2; 88%Q])). Qed.
