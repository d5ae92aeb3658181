(** Property C77. *)
From Coq Require Import String List Arith ZArith QArith Qcanon Bool Lia.
From Verif Require Import Py Alg ListX NdArray_Model NdArray_Proof Contract_Model Net_Model Net_Spec Env_Spec Trav_Proof Sweep_Spec Link_Spec State_Proof TEnv_Proof EnvThm_Proof Acyc_Proof Contraction_Proof
  Cache_Model Cache_Spec Cache_Proof CacheExact_Proof Eom_Spec Eom_Proof Direct_Model Direct_Spec DirectAlg_Proof DirectSem_Proof DirectGrad_Proof DirectRun_Proof DirectThm_Proof
  Rk4_Spec Rk4_Model Rk4_Proof Rk4Thm_Proof.
Import ListNotations.
Local Open Scope nat_scope.
Local Open Scope list_scope.

(** ** C77: the step of the direct scheme with the method 'RK4' *)

(** The matrices that term number [n] has at the axes of [t], and the axis of [t] with its inverse
    density matrix, as [_form_env] and [_form_inv_density] leave them. *)
Definition matrices {K : StarRing} (e : envs K) (n d : nat) (t : id) : list (list (option (arr K))) :=
  map (fun m => map (fun i => match e m t i with Some v => v | None => None end) (seq 0 d)) (seq 0 n).
Definition axis_and_inverse {K : StarRing} (h : heap K) (inv : inverses K) (t : id) : option (nat * arr K) :=
  match oaxis (hget h t), inv t with Some a, Some m => Some (a, m) | _, _ => None end.

Section Thm.
Variable K : StarRing.
Variable T : Type.
Variable sys : system K T.
Variable fuel : nat.
Variable invert : option (arr K) -> nat -> res (arr K).
Variable time : T.
Variable s : state K.
Variable ks : list (nat * tree * nat).
Variable A : id -> arr K.
Notation R := (Nd (sroot K s) ks).
Notation terms := (all_terms K T sys time).
Hypothesis Can : canonical fuel (sheap K s) (sroot K s) ks A terms.
Hypothesis Ne : terms <> [].
Hypothesis Yi : yields invert (sheap K s) A R.

Lemma whole half sixth dt icoef e0 :
  exists s1 inv s2 s3 s', form_env K T sys fuel false time s = Ok s1 /\ form_inv_density K fuel invert s1 = Ok (inv, s2) /\
    derivatives K T sys fuel invert icoef e0 time s = Ok s3 /\ rk4_step K T sys fuel invert half sixth dt icoef e0 time s = Ok s' /\
    hangs (sheap K s') None R /\ oriented (sheap K s') None R /\ sroot K s' = sroot K s /\
    forall t, In t (nids R) ->
      let f := frozen icoef e0 (shape (A t)) (axis_and_inverse (sheap K s) inv t) (matrices (senv K s2) (length terms) (ndim (A t)) t) in
      (exists D, oaux (hget (sheap K s3) t) = Some D /\ carries K (shape (A t)) D (f (get (A t)))) /\
      oaux (hget (sheap K s') t) = None /\
      exists y, oarr (hget (sheap K s') t) = Some y /\ carries K (shape (A t)) y (runge_kutta_4 half sixth dt f (get (A t))).
Proof.
  destruct (start K T sys fuel invert time s ks A Can Yi) as (s1 & inv & s2 & E1 & E2 & Rd & P & Er & C & _ & _).
  destruct (can_parts K _ _ ks A fuel terms Can) as (H & ND & F & Hf & DO & Or & Ar & Lx & U & Su).
  destruct (rk4_run K T sys fuel inv (senv K s2) (sroot K s) ks (fun t => oaxis (hget (sheap K s) t)) (fun t => shape (A t))
    (fun t => fields (senv K s2) (length terms) (ndim (A t)) t) time Rd ND Hf Ne half sixth dt icoef e0 A s2 P Er eq_refl) as (s3 & s' & E3 & E4 & Fr & G1 & G2).
  exists s1, inv, s2, s3, s'. split; auto. split; auto. split.
  { unfold derivatives. rewrite E1. cbn [bind]. rewrite E2. cbn [bind]. exact E3. }
  split. { unfold rk4_step. rewrite E1. cbn [bind]. rewrite E2. cbn [bind]. exact E4. }
  assert (P' : placed K T sys (sroot K s) ks (fun t => oaxis (hget (sheap K s) t)) (fun t => shape (A t)) time (sheap K s')
    (fun t => match oarr (hget (sheap K s') t) with Some y => y | None => mkArr [] [] end)).
  { apply (placed_moved K T sys _ _ _ _ time s2 s' A _ P Fr). intros t Ht. destruct (G2 t Ht) as (_ & y & -> & W & Sy & _). auto. }
  split; [apply P'|]. split; [apply P'|]. split; [destruct Fr as (_ & _ & -> & _); auto|].
  intros t Ht. cbv zeta. split; [apply (G1 t Ht)|]. apply (G2 t Ht).
Qed.
End Thm.

(** With the matrices of the environments and the inverse densities of the start, each array goes
    one step of the method of order four for the derivative [frozen] of that array alone. *)
Theorem C77_rk4_step :
  forall (K : StarRing) T (sys : system K T) fuel invert half sixth dt icoef e0 time (s : state K) ks A,
    let h := sheap K s in let r := sroot K s in let R := Nd r ks in let terms := all_terms K T sys time in
    canonical fuel h r ks A terms -> terms <> [] -> yields invert h A R ->
    exists s1 inv s2 s', form_env K T sys fuel false time s = Ok s1 /\ form_inv_density K fuel invert s1 = Ok (inv, s2) /\
      rk4_step K T sys fuel invert half sixth dt icoef e0 time s = Ok s' /\
      hangs (sheap K s') None R /\ oriented (sheap K s') None R /\ sroot K s' = r /\
      forall t, In t (nids R) -> oaux (hget (sheap K s') t) = None /\
        exists y, oarr (hget (sheap K s') t) = Some y /\ wf y /\ shape y = shape (A t) /\
          forall x, in_range x (shape (A t)) ->
            get y x = runge_kutta_4 half sixth dt
              (frozen icoef e0 (shape (A t)) (axis_and_inverse h inv t) (matrices (senv K s2) (length terms) (ndim (A t)) t)) (get (A t)) x.
Proof.
  intros K T sys fuel invert half sixth dt icoef e0 time s ks A h r R terms Can Ne Yi.
  destruct (whole K T sys fuel invert time s ks A Can Ne Yi half sixth dt icoef e0) as (s1 & inv & s2 & s3 & s' & E1 & E2 & _ & E4 & Hg & Ho & Er & G).
  exists s1, inv, s2, s'. do 6 (split; auto). intros t Ht. apply (G t Ht).
Qed.
Print Assumptions C77_rk4_step.

(** At the arrays of the start this derivative is that of property C69. *)
Theorem C77_first_slope :
  forall (K : StarRing) T (sys : system K T) fuel invert icoef e0 time (s : state K) ks A,
    let h := sheap K s in let r := sroot K s in let R := Nd r ks in let terms := all_terms K T sys time in
    canonical fuel h r ks A terms -> terms <> [] -> yields invert h A R ->
    exists s1 inv s2 s3, form_env K T sys fuel false time s = Ok s1 /\ form_inv_density K fuel invert s1 = Ok (inv, s2) /\
      derivatives K T sys fuel invert icoef e0 time s = Ok s3 /\
      forall t, In t (nids R) -> exists D, oaux (hget (sheap K s3) t) = Some D /\
        forall x, in_range x (shape (A t)) ->
          get D x = frozen icoef e0 (shape (A t)) (axis_and_inverse h inv t) (matrices (senv K s2) (length terms) (ndim (A t)) t) (get (A t)) x.
Proof.
  intros K T sys fuel invert icoef e0 time s ks A h r R terms Can Ne Yi.
  destruct (whole K T sys fuel invert time s ks A Can Ne Yi r0 r0 r0 icoef e0) as (s1 & inv & s2 & s3 & s' & E1 & E2 & E3 & _ & _ & _ & _ & G).
  exists s1, inv, s2, s3. do 3 (split; auto). intros t Ht. destruct (G t Ht) as ((D & ED & _ & _ & GD) & _). eauto.
Qed.
Print Assumptions C77_first_slope.

(** For any array [y] the matrices of a term give the derivative of its matrix element with [y] in
    the place of the array of [t] and the arrays of the start in all other places. *)
Theorem C77_mean_field :
  forall (K : StarRing) T (sys : system K T) fuel invert time (s : state K) ks A,
    let h := sheap K s in let r := sroot K s in let R := Nd r ks in let terms := all_terms K T sys time in
    canonical fuel h r ks A terms -> yields invert h A R ->
    exists s1 inv s2, form_env K T sys fuel false time s = Ok s1 /\ form_inv_density K fuel invert s1 = Ok (inv, s2) /\
      (forall t ax, In t (nids R) -> oaxis (hget h t) = Some ax ->
         exists rho m, density A R t ax rho /\ invert (Some rho) (nth ax (shape (A t)) 0) = Ok m /\ axis_and_inverse h inv t = Some (ax, m)) /\
      forall t n term, In t (nids R) -> nth_error terms n = Some term ->
        exists ms, nth_error (matrices (senv K s2) (length terms) (ndim (A t)) t) n = Some ms /\
          forall y f, wf y -> shape y = shape (A t) -> wf f -> shape f = shape (A t) ->
            sumL (indices (shape (A t))) (fun x => rmul (get f x) (everywhere (shape (A t)) 0 ms (get y) x))
            = element (exchanged A t y) (varied A t f) R term.
Proof.
  intros K T sys fuel invert time s ks A h r R terms Can Yi.
  destruct (start K T sys fuel invert time s ks A Can Yi) as (s1 & inv & s2 & E1 & E2 & _ & _ & _ & _ & Gd & M).
  exists s1, inv, s2. split; auto. split; auto. split.
  - intros t ax Ht Ea. destruct (Gd t Ht ax Ea) as (rho & m & Em & De & Iv). exists rho, m. split; auto. split; auto.
    unfold axis_and_inverse. unfold h in *. rewrite Ea, Em. reflexivity.
  - intros t n term Ht Hn. destruct (M t n term Ht Hn) as (ms & Em & G). exists ms. split; auto. intros y f Wy Sy Wf Sf.
    destruct (G y Wy Sy) as (c & (Wc & Sc & Gc) & Pc). unfold R, r. rewrite <- (Pc f Wf Sf). unfold pairing. rewrite Sc. apply sum_indices_ext. intros x Hx. rewrite Gc; auto.
Qed.
Print Assumptions C77_mean_field.

(** The environments and densities of the start are used for all four slopes, so this is not the
    method of order four for the equation of motion, whose derivatives are those of property C69 at
    each of the four points. *)
Definition Qc_star : StarRing.
Proof.
  refine {| car := Qc; r0 := 0%Qc; r1 := 1%Qc; radd := Qcplus; rmul := Qcmult; rsub := Qcminus; ropp := Qcopp; rconj := fun x => x |}; [exact Qcrt|reflexivity..].
Defined.
Local Definition q (n : Z) : Qc_star := Q2Qc (inject_Z n).
Definition qa (n : nat) : arr Qc_star :=
  match n with
  | 0 => mkArr [2; 2] ([q 1; q 0; q 0; q 2] : list Qc_star)
  | _ => mkArr [2; 3] ([q 1; q 0; q 0; q 0; q 1; q 0] : list Qc_star)
  end.
Definition qh : heap Qc_star :=
  [mkObj (Some "0"%string) false (Some (qa 0)) None None true [(0, (1, 0)); (1, (2, 0))] [];
   mkObj (Some "1"%string) false (Some (qa 1)) None (Some 0) false [(0, (0, 0)); (1, (3, 0))] [];
   mkObj (Some "2"%string) true None None None false [(0, (0, 1))] [];
   mkObj (Some "3"%string) true None None None false [(0, (1, 1))] []].
Definition qks : list (nat * tree * nat) := [(0, Nd 1 [(1, Lf 3, 0)], 0); (1, Lf 2, 0)].
Definition qm3 : arr Qc_star := mkArr [3; 3] ([q 1; q 0; q 1; q 0; q 0; q 1; q 1; q 1; q 2] : list Qc_star).
Definition qm2 : arr Qc_star := mkArr [2; 2] ([q 0; q 1; q 1; q 3] : list Qc_star).
Definition qsys : system Qc_star nat := mkSystem Qc_star nat [[(3, qm3)]; [(2, qm2); (3, qm3)]] None.
Definition qs : state Qc_star := mkState Qc_star qh 0 (no_env Qc_star).
(** The inverse of a 2 x 2 matrix. *)
Definition qinv (rho : option (arr Qc_star)) (_ : nat) : res (arr Qc_star) :=
  match rho with
  | Some m => let a := get m [0; 0] in let b := get m [0; 1] in let c := get m [1; 0] in let d := get m [1; 1] in
      let det := (a * d - b * c)%Qc in Ok (mkArr [2; 2] ([(d / det)%Qc; (- b / det)%Qc; (- c / det)%Qc; (a / det)%Qc] : list Qc_star))
  | None => Raise TypeError
  end.
Lemma q_canonical : canonical 6 qh 0 qks qa (all_terms _ _ qsys 0).
Proof.
  assert (H : hangs qh None (Nd 0 qks)).
  { apply hangs_root; [reflexivity|reflexivity|cbn; repeat constructor; cbn; intuition discriminate|].
    repeat constructor. apply (hangs_node _ _ 1 0 (0, 0) [] [(1, Lf 3, 0)]); [reflexivity|reflexivity| |repeat constructor].
    cbn. repeat constructor; cbn; intuition discriminate. }
  assert (F : fits qa None 0 (Nd 0 qks)).
  { constructor; [reflexivity|repeat constructor|exact I|reflexivity|]. constructor; [|repeat constructor].
    constructor; [reflexivity|repeat constructor|cbn; lia|reflexivity|repeat constructor]. }
  assert (U : unit_along (qa 1) (Some 0)).
  { intros a b Ha Hb. cbn in Ha, Hb. destruct a as [|[|a]]; destruct b as [|[|b]]; try lia; apply Qc_is_canon; vm_compute; reflexivity. }
  split; [split; [exact H|split; [|split; [exact F|split; [cbn; lia|split; [|split]]]]]|split; [|split; [|split]]].
  - repeat constructor; cbn; intuition discriminate.
  - intros n Hn. cbn in Hn. destruct Hn as [<-|[<-|[]]]; reflexivity.
  - intros n Hn E _. cbn in Hn. destruct Hn as [<-|[<-|[]]]; [congruence|exact U].
  - repeat constructor; cbn; try (intros l m Hl; repeat (destruct Hl as [Hl|Hl]; [injection Hl as <- <-; reflexivity|]); destruct Hl).
  - intros n. destruct n as [|[|[|[|n]]]]; [cbn; repeat constructor..|]. unfold qh, hget. destruct n; cbn; constructor.
  - repeat constructor.
  - intros l Hl. cbn in Hl. destruct Hl as [<-|[<-|[]]]; reflexivity.
  - intros n Hn E. cbn in Hn. destruct Hn as [<-|[<-|[]]]; [congruence|exact U].
Qed.
Lemma q_yields : yields qinv qh qa (Nd 0 qks).
Proof.
  intros t ax rho Ht Ea (M & _). cbn in Ht. destruct Ht as [<-|[<-|[]]]; [discriminate|]. cbn in Ea. injection Ea as <-. eexists. split; [reflexivity|]. split; reflexivity.
Qed.
Definition qout (x : res (state Qc_star)) (t : id) : option (list Q) :=
  match x with Ok s => match oarr (hget (sheap _ s) t) with Some a => Some (map this (data a)) | None => None end | Raise _ => None end.
Definition qhalf : Qc_star := Q2Qc (1 # 2).
Definition qsixth : Qc_star := Q2Qc (1 # 6).
Local Notation qmoved := (rk4_step Qc_star nat qsys 6 qinv qhalf qsixth (q 1) (q (-1)) None 0 qs).
Local Notation qrefreshed := (rk4_with Qc_star 6 qhalf qsixth (q 1) (derivatives Qc_star nat qsys 6 qinv (q (-1)) None 0) qs).
Lemma apart (x y : res (state Qc_star)) : qout x 0 = Some [25 # 24; 43 # 24; 0; 2]%Q ->
  match qout y 0 with Some (z :: _) => Qeq_bool z (25 # 24) | _ => true end = false ->
  exists s' s'' a b, x = Ok s' /\ y = Ok s'' /\ oarr (hget (sheap _ s') 0) = Some a /\ oarr (hget (sheap _ s'') 0) = Some b /\ get a [0; 0] <> get b [0; 0].
Proof.
  intros Y1 Y2. unfold qout in Y1, Y2. destruct x as [s'|]; [|discriminate]. destruct y as [s''|]; [|discriminate].
  destruct (oarr (hget (sheap _ s') 0)) as [a|] eqn:Ea; [|discriminate]. destruct (oarr (hget (sheap _ s'') 0)) as [b|] eqn:Eb; [|discriminate].
  exists s', s'', a, b. do 4 (split; [assumption || reflexivity|]).
  assert (Ra : forall c : arr Qc_star, get c [0; 0] = nth 0 (data c) r0).
  { intros c. unfold get. f_equal. unfold ravel. destruct (shape c) as [|d0 [|d1 [|d2 l]]]; reflexivity. }
  rewrite !Ra. destruct (data a) as [|u us]; [discriminate|]. destruct (data b) as [|z zs]; [discriminate|]. cbn [nth map] in *. injection Y1 as Y1 _.
  intros E. subst z. rewrite Y1 in Y2. discriminate.
Qed.
Lemma q_moved : qout qmoved 0 = Some [25 # 24; 43 # 24; 0; 2]%Q.
Proof. vm_cast_no_check (eq_refl (Some [25 # 24; 43 # 24; 0; 2]%Q)). Qed.
Lemma q_refreshed : match qout qrefreshed 0 with Some (x :: _) => Qeq_bool x (25 # 24) | _ => true end = false.
Proof. vm_cast_no_check (eq_refl false). Qed.
Theorem C77_refreshed_refuted :
  exists T (sys : system Qc_star T) fuel invert half sixth dt icoef time (s : state Qc_star) ks A s' s'' a b,
    radd half half = r1 /\ radd (radd (radd sixth sixth) (radd sixth sixth)) (radd sixth sixth) = r1 /\
    canonical fuel (sheap _ s) (sroot _ s) ks A (all_terms Qc_star T sys time) /\ all_terms Qc_star T sys time <> [] /\
    yields invert (sheap _ s) A (Nd (sroot _ s) ks) /\
    rk4_step Qc_star T sys fuel invert half sixth dt icoef None time s = Ok s' /\
    rk4_with Qc_star fuel half sixth dt (derivatives Qc_star T sys fuel invert icoef None time) s = Ok s'' /\
    oarr (hget (sheap _ s') (sroot _ s)) = Some a /\ oarr (hget (sheap _ s'') (sroot _ s)) = Some b /\ get a [0; 0] <> get b [0; 0].
Proof.
  exists nat, qsys, 6, qinv, qhalf, qsixth, (q 1), (q (-1)), 0, qs, qks, qa.
  destruct (apart qmoved qrefreshed q_moved q_refreshed) as (s' & s'' & a & b & E1 & E2 & Ea & Eb & N).
  exists s', s'', a, b. split; [apply Qc_is_canon; vm_compute; reflexivity|]. split; [apply Qc_is_canon; vm_compute; reflexivity|].
  split; [exact q_canonical|]. split; [discriminate|]. split; [exact q_yields|]. split; [exact E1|]. split; [exact E2|]. split; [exact Ea|]. split; [exact Eb|exact N].
Qed.
Print Assumptions C77_refreshed_refuted.

(** A step of length one with the operators [qm3], and [qm2] times [qm3]. *)
Example C77_ex : qout qmoved 0 = Some [25 # 24; 43 # 24; 0; 2]%Q.
Proof. exact q_moved. Qed.
Example C77_hypotheses_ex : canonical 6 qh 0 qks qa (all_terms _ _ qsys 0) /\ yields qinv qh qa (Nd 0 qks).
Proof. split; [exact q_canonical|exact q_yields]. Qed.
