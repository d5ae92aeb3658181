(** Property C76. *)
From Coq Require Import String List Arith ZArith Bool Lia Ring.
From Verif Require Import Py Alg ListX NdArray_Model Net_Model Net_Spec Propagate_Model EnvThm_Proof Auto_Spec Auto_Model Auto_Proof Env_Prop.
Import ListNotations.
Local Open Scope nat_scope.
Local Open Scope list_scope.

(** ** C76: autocorrelation functions *)
Lemma unaware_next (K : StarRing) X (a b : act (world K X)) : unaware a -> unaware b -> unaware (next (world K X) a b).
Proof.
  intros Ha Hb w w' A. destruct (Ha w w' A) as (A1 & A2). unfold next. destruct (a w) as (w1 & e1). destruct (a w') as (w2 & e2).
  cbn [fst snd] in A1, A2. subst e2. destruct e1; [cbn; auto|]. now apply Hb.
Qed.
Lemma unaware_body (K : StarRing) X half do_step renorm dt im c :
  (forall k tau i b, unaware (do_step k tau i b)) -> unaware renorm -> unaware (body (world K X) K half do_step renorm dt im c).
Proof.
  intros D R. apply unaware_next.
  - unfold chosen_step. destruct (snd c); [apply unaware_next|]; apply D.
  - destruct im; auto. intros w w' A. cbn. auto.
Qed.
Lemma Forall2_weaken {A B} (P Q : A -> B -> Prop) l l' : (forall x y, P x y -> Q x y) -> Forall2 P l l' -> Forall2 Q l l'.
Proof. intros H F. induction F; constructor; auto. Qed.
Lemma twice (K : StarRing) (x : K) : ((r1 + r1) * x = x + x)%S.
Proof. pose proof (r_theory K) as Rt. rewrite (Rdistr_l Rt), !(Rmul_1_l Rt). reflexivity. Qed.
Lemma find_init (K : StarRing) (h : heap K) n : forall l, In n l ->
  find (fun e => fst e =? n) (map (fun t => (t, oarr (hget h t))) l) = Some (n, oarr (hget h n)).
Proof.
  induction l as [|x l IH]; intros H; [destruct H|]. cbn [map find fst]. destruct (Nat.eqb_spec x n) as [->|Ne]; auto.
  apply IH. destruct H; congruence.
Qed.

(** What [autocorr] yields, next to what [propagator] yields from the same start: the same
    times (doubled if [fast]), the overlap of the first wave function with the present one
    (or of the present one with its own conjugate), and the same way to end. *)
Theorem C76_autocorr :
  forall (K : StarRing) X fuel fast half (do_step : kind -> K -> bool -> bool -> act (world K X)) root_of set_time renorm set_energy
    calls steps ode_inter split imaginary first move_energy ps_method snd_order (w : world K X) R ds,
    let G := propagator (world K X) K half do_step id root_of set_time renorm set_energy
               calls steps ode_inter split imaginary first move_energy ps_method snd_order w in
    let B := autocorr fuel fast half do_step root_of set_time renorm set_energy
               calls steps ode_inter split imaginary first move_energy ps_method snd_order w in
    root_of w = top R -> height R <= fuel -> holds (fst w) R ds ->
    (forall y, In y (fst G) -> holds (fst (snd y)) R ds) ->
    (forall o w w', alike w w' -> alike (set_time o w) (set_time o w')) ->
    (forall k tau i b, unaware (do_step k tau i b)) -> unaware renorm ->
    Forall2 (fun y z =>
      let time := fst (fst y) in let now := wave (fst (snd y)) R in
      fst z = (if fast then time + time else time)%S /\
      exists a, snd z = Some a /\ shape a = [] /\
        get a [] = if fast then overlap ds now now else braket ds (wave (fst w) R) now) (fst G) (fst B) /\
    snd (snd B) = snd (snd G) /\ alike (fst (snd G)) (fst (snd B)).
Proof.
  intros K X fuel fast half do_step root_of set_time renorm set_energy calls steps dt split im first me ps so w R ds G B Hr Hf H0 HG Hst Hd Hn.
  subst G B. destruct calls as [|calls].
  { cbn. repeat split; auto. }
  unfold propagator, autocorr in *. rewrite Hr in *.
  pose proof H0 as (Hh & NS & Ax & Ar & F & D).
  assert (V : visitor fuel (fst w) (top R) None false = Ok (nids R)) by (apply (Trav_Proof.visitor_hangs _ (fst w) R None fuel false Hh Hf)).
  set (init := if fast then [] else map (fun t => (t, oarr (hget (fst w) t))) (nids R)).
  assert (Ei : (if fast then Ok [] else init_arrays fuel (fst w) (top R)) = Ok init).
  { subst init. destruct fast; auto. unfold init_arrays. rewrite Ax, V. reflexivity. }
  rewrite Ei. clear Ei. destruct (choose split ps so) as [c|e].
  2:{ cbn. repeat split; auto. }
  destruct (if me then set_energy w else (w, None)) as (w' & [e|]).
  { cbn. repeat split; auto. }
  set (g := fun h : heap K => if fast then arrays h else fun n => arr_conj (arrays (fst w) n)).
  destruct (loop_ok K X fuel fast half do_step set_time renorm R ds init g Hf) with (steps := steps) (ode_inter := dt) (imaginary := im) (first := first) (c := c)
    (calls := S calls) (n := 0) (w := w') (w' := w') as (I1 & I2 & I3); auto.
  - intros h Hh'. pose proof Hh' as (Hh1 & _ & _ & Ar1 & F1 & D1). subst g init. unfold partner. destruct fast.
    + repeat split; auto. intros n h' Hn' Sm. apply (same_get K _ _ n) in Sm. apply noaux_fields in Sm. destruct Sm as (_ & _ & Sm & _).
      rewrite <- Sm. unfold arrays. specialize (Ar1 n Hn'). destruct (oarr (hget h n)); congruence.
    + repeat split; [|now apply fits_conj|now rewrite ldims_conj].
      intros n h' Hn' _. rewrite find_init by auto. unfold arrays. specialize (Ar n Hn'). destruct (oarr (hget (fst w) n)); congruence.
  - intros h h' v Sm Hh'. subst g. destruct fast; [|reflexivity]. apply (wave_same K h h' R v Sm).
  - apply unaware_body; auto.
  - split; reflexivity.
  - split; [|auto]. eapply Forall2_weaken; [|exact I1]. intros ((time & r) & u) (time' & v) (E1 & a & E2 & E3 & E4). cbn [fst snd] in *.
    split.
    + rewrite E1. destruct fast; auto. apply twice.
    + exists a. split; auto. split; auto. rewrite E4. subst g. destruct fast; unfold overlap, braket; apply sumL_ext; intros x; auto.
      unfold dense. rewrite amp_conj. fold (dense (arrays (fst w)) R x). fold (wave (fst w) R x). apply (Rmul_comm (r_theory K)).
Qed.
Print Assumptions C76_autocorr.

(** Why the doubled time is right: the overlap of [U psi] with its own conjugate is the
    overlap of [psi] with [U U psi] when [U] is symmetric and [psi] is real. *)
Section Fast.
Variable K : StarRing.
Add Ring Kr : (r_theory K).
Lemma overlap_symmetric ds (U : list nat -> list nat -> K) (x y : list nat -> K) :
  (forall v w, In v (indices ds) -> In w (indices ds) -> U v w = U w v) -> (forall v, In v (indices ds) -> rconj (x v) = x v) ->
  (forall v, In v (indices ds) -> y v = apply ds U x v) -> overlap ds y y = braket ds x (apply ds U (apply ds U x)).
Proof.
  intros Sy Re Y. unfold overlap, braket.
  rewrite (sumL_ext_in K (indices ds) _ (fun v => sumL (indices ds) (fun w => rmul (rmul (U v w) (x w)) (apply ds U x v)))).
  2:{ intros v Hv. rewrite Y by auto. unfold apply at 1. now rewrite <- sumL_scal_r. }
  rewrite sumL_swap. apply sumL_ext_in. intros w Hw. rewrite Re by auto. unfold apply at 2. rewrite <- sumL_scal_l.
  apply sumL_ext_in. intros v Hv. rewrite (Sy v w) by auto. ring.
Qed.
End Fast.

Theorem C76_fast :
  forall (K : StarRing) X fuel half (do_step : kind -> K -> bool -> bool -> act (world K X)) root_of set_time renorm set_energy
    calls steps ode_inter split imaginary first move_energy ps_method snd_order (w : world K X) R ds (U : K -> list nat -> list nat -> K),
    let G := propagator (world K X) K half do_step id root_of set_time renorm set_energy
               calls steps ode_inter split imaginary first move_energy ps_method snd_order w in
    let B := autocorr fuel true half do_step root_of set_time renorm set_energy
               calls steps ode_inter split imaginary first move_energy ps_method snd_order w in
    root_of w = top R -> height R <= fuel -> holds (fst w) R ds ->
    (forall y, In y (fst G) -> holds (fst (snd y)) R ds) ->
    (forall o w w', alike w w' -> alike (set_time o w) (set_time o w')) ->
    (forall k tau i b, unaware (do_step k tau i b)) -> unaware renorm ->
    (forall v, In v (indices ds) -> rconj (wave (fst w) R v) = wave (fst w) R v) ->
    (forall t v u, In v (indices ds) -> In u (indices ds) -> U t v u = U t u v) ->
    (forall y, In y (fst G) -> forall v, In v (indices ds) -> wave (fst (snd y)) R v = apply ds (U (fst (fst y))) (wave (fst w) R) v) ->
    Forall2 (fun y z => let time := fst (fst y) in
      fst z = (time + time)%S /\ exists a, snd z = Some a /\ shape a = [] /\
        get a [] = braket ds (wave (fst w) R) (apply ds (U time) (apply ds (U time) (wave (fst w) R)))) (fst G) (fst B).
Proof.
  intros K X fuel half do_step root_of set_time renorm set_energy calls steps dt split im first me ps so w R ds U G B Hr Hf H0 HG Hst Hd Hn Re Sy Hw.
  destruct (C76_autocorr K X fuel true half do_step root_of set_time renorm set_energy calls steps dt split im first me ps so w R ds Hr Hf H0 HG Hst Hd Hn) as (F & _).
  fold G B in F. clear HG. clearbody G B. induction F as [|y z l l' (E1 & a & E2 & E3 & E4) F IH]; constructor.
  - split; auto. exists a. split; auto. split; auto. rewrite E4. apply overlap_symmetric; auto. apply Hw. left; auto.
  - apply IH. intros y' Hy'. apply Hw. right; auto.
Qed.
Print Assumptions C76_fast.

(** A run over the Gaussian integers: each step multiplies the array of the root by [i]. *)
Definition turn (K : StarRing) (c : K) : act (world K unit) := fun w =>
  ((modify (fst w) 0 (fun o => put_arr (option_map (arr_scale c) (oarr o)) o), snd w), None).
Lemma turn_unaware (K : StarRing) (c : K) : unaware (turn K c).
Proof.
  intros (h & x) (h' & x') (E & E2). cbn [fst snd] in *. split; [|reflexivity]. split; [|exact E2]. cbn [turn fst snd].
  pose proof (same_get K h h' 0 E) as G0. unfold modify. rewrite !map_upd. f_equal; auto.
  unfold noaux in G0. destruct (hget h 0), (hget h' 0). cbn in *. inversion G0. reflexivity.
Qed.
Definition turning : kind -> G_star -> bool -> bool -> act (world G_star unit) := fun _ _ _ _ => turn G_star (g 0 1).
Definition idle {W} : act W := fun w => (w, None).
Definition run_auto (fast : bool) (h : heap G_star) := autocorr 3 fast (g 0 0) turning (fun _ => 0) (fun _ w => w) idle idle
  3 None (g 1 0) false false (g 0 0) false "" false (h, tt).
Definition run_prop (h : heap G_star) := propagator (world G_star unit) G_star (g 0 0) turning id (fun _ => 0) (fun _ w => w) idle idle
  3 None (g 1 0) false false (g 0 0) false "" false (h, tt).
Definition seen (z : G_star * option (arr G_star)) : G_star * option (list nat * list G_star) :=
  (fst z, option_map (fun a => (shape a, data a)) (snd z)).

Example C76_example :
  let h := ex_heap true None in let ds := [2; 1; 3] in
  holds h ex_t ds /\ (forall y, In y (fst (run_prop h)) -> holds (fst (snd y)) ex_t ds) /\
  (forall k tau i b, unaware (turning k tau i b)) /\ unaware (@idle (world G_star unit)) /\
  map seen (fst (run_auto false h)) = [(g 0 0, Some ([], [g 9 0])); (g 1 0, Some ([], [g 0 9])); (g 2 0, Some ([], [g (-9) 0]))] /\
  map seen (fst (run_auto true h)) = [(g 0 0, Some ([], [g 5 (-2)])); (g 2 0, Some ([], [g (-5) 2])); (g 4 0, Some ([], [g 5 (-2)]))].
Proof.
  set (a0 := fun c : G_star => mkArr [2; 3] (map (rmul c) (data (ex_a 0)))).
  assert (HH : forall h', (forall n, oleaf (hget h' n) = oleaf (hget (ex_heap true None) n) /\ oacc (hget h' n) = oacc (hget (ex_heap true None) n)) ->
     oaxis (hget h' 0) = None -> oarr (hget h' 1) = Some (ex_a 1) -> (exists c, oarr (hget h' 0) = Some (a0 c)) -> holds h' ex_t [2; 1; 3]).
  { intros h' Q A E1 (c & E0). split; [|split; [|split; [|split; [|split]]]].
    - eapply TEnv_Proof.hangs_same; [exact Q|apply ex_t_hangs].
    - intros n i. destruct (Q n) as (_ & ->). apply ex_no_self.
    - exact A.
    - intros n [<-|[<-|[]]]; [rewrite E0|rewrite E1]; discriminate.
    - constructor; unfold arrays; cbn [top]; try rewrite E0; [reflexivity|repeat constructor|exact I|reflexivity|].
      constructor; [|repeat constructor].
      constructor; try rewrite E1; [reflexivity|repeat constructor|cbn; lia|reflexivity|repeat constructor].
    - cbn. unfold arrays. rewrite E0, E1. reflexivity. }
  split; [|split; [|split; [|split; [|split; vm_compute; reflexivity]]]].
  - apply HH; [intros n; split; reflexivity|reflexivity|reflexivity|exists (g 1 0); reflexivity].
  - set (hh := fun z => modify (ex_heap true None) 0 (put_arr (Some (a0 z)))).
    assert (E : map (fun y => fst (snd y)) (fst (run_prop (ex_heap true None))) = [hh (g 1 0); hh (g 0 1); hh (g (-1) 0)]) by reflexivity.
    assert (HH' : forall z, holds (hh z) ex_t [2; 1; 3]).
    { intros z. apply HH; [intros [|[|[|[|[|n]]]]]; try (split; reflexivity); destruct n; split; reflexivity|reflexivity|reflexivity|exists z; reflexivity]. }
    assert (Z : forall h', In h' [hh (g 1 0); hh (g 0 1); hh (g (-1) 0)] -> holds h' ex_t [2; 1; 3]).
    { clearbody hh. intros h' [<-|[<-|[<-|[]]]]; apply HH'. }
    intros y Hy. apply Z. rewrite <- E. exact (in_map (fun y => fst (snd y)) _ _ Hy).
  - intros. apply turn_unaware.
  - intros w w' A. cbn. auto.
Qed.

(** For a complex first wave function the doubled time is wrong: here no step changes
    anything, yet the values differ. *)
Definition one_heap (z : G_star) : heap G_star :=
  [mkObj None false (Some (mkArr [1] [z])) None None false [(0, (1, 0))] []; mkObj None true None None None false [(0, (0, 0))] []].
Definition one_tree : tree := Nd 0 [(0, Lf 1, 0)].
Lemma one_holds z : holds (one_heap z) one_tree [1].
Proof.
  split; [|split; [|split; [|split; [|split]]]].
  - apply hangs_root; [reflexivity|reflexivity| |].
    + cbn. repeat constructor; cbn; intuition discriminate.
    + repeat constructor.
  - intros n i H. destruct n as [|[|[|n]]]; cbn in H; repeat (destruct H as [H|H]; [inversion H|]); exact H.
  - reflexivity.
  - intros n [<-|[]]. discriminate.
  - constructor; [reflexivity|repeat constructor|exact I|reflexivity|repeat constructor].
  - reflexivity.
Qed.
Definition still (fast : bool) (z : G_star) :=
  autocorr 2 fast (g 0 0) (fun _ _ _ _ => idle) (fun _ => 0) (fun _ w => w) idle idle 1 None (g 1 0) false false (g 0 0) false "" false (one_heap z, tt).
Theorem C76_fast_complex_refuted :
  let psi := wave (one_heap (g 0 1)) one_tree in let U := fun v w : list nat => if list_eq_dec Nat.eq_dec v w then g 1 0 else g 0 0 in
  holds (one_heap (g 0 1)) one_tree [1] /\ (forall v, In v (indices [1]) -> psi v = apply [1] U psi v) /\
  braket [1] psi (apply [1] U (apply [1] U psi)) = g 1 0 /\
  map seen (fst (still true (g 0 1))) = [(g 0 0, Some ([], [g (-1) 0]))] /\
  map seen (fst (still false (g 0 1))) = [(g 0 0, Some ([], [g 1 0]))].
Proof.
  cbv zeta. split; [apply one_holds|]. split.
  - intros v [<-|[]]. vm_compute. reflexivity.
  - split; [vm_compute; reflexivity|]. split; vm_compute; reflexivity.
Qed.
Print Assumptions C76_fast_complex_refuted.

Example C76_fast_example :
  let h := one_heap (g 3 0) in
  holds h one_tree [1] /\ (forall v, In v (indices [1]) -> rconj (wave h one_tree v) = wave h one_tree v) /\
  map seen (fst (run_auto true h)) = [(g 0 0, Some ([], [g 9 0])); (g 2 0, Some ([], [g (-9) 0])); (g 4 0, Some ([], [g 9 0]))].
Proof.
  cbv zeta. split; [apply one_holds|]. split; [|vm_compute; reflexivity]. intros v [<-|[]]. vm_compute. reflexivity.
Qed.
