(** Properties C66, C67. *)
From Coq Require Import String List Arith ZArith Bool Lia Reals Lra.
From Verif Require Import Py Alg ListX NdArray_Model Contract_Model Net_Model Net_Spec Env_Spec Move_Spec
  Trav_Proof Sweep_Spec Sweep_Proof Link_Spec State_Spec State_Proof Env_Prop Move_Prop Cache_Model Cache_Spec Cache_Proof CacheExact_Proof CacheMove_Proof
  Cache_Prop Cplx Eom_Model Eom_Spec Eom_Proof EomRate_Proof.
Import ListNotations.
Local Open Scope nat_scope.
Local Open Scope list_scope.

(** ** C66: the derivative of the root is the variational one *)

(** [diff] is called for the root with the vector [y].  Paired with an array [f], the
    vector it returns gives the sum over the terms of the matrix elements of the term,
    between the state with [y] in the root and the state with [f] in the root of the
    conjugated network. *)
Theorem C66_variational :
  forall (K : StarRing) T (sys : system K T) fuel (s : state K) ks A time y,
    let r := sroot K s in let sh := shape (A r) in
    standing fuel (sheap K s) r ks A (all_terms K T sys time) -> length y = prod sh ->
    exists ans, result (diff K T sys fuel r false time y (forget s)) = Ok ans /\ length ans = length y /\
      forall f, wf f -> shape f = sh ->
        pairing f (mkArr sh ans) =
        sumL (all_terms K T sys time) (element (exchanged A r (mkArr sh y)) (varied A r f) (Nd r ks)).
Proof. intros K T sys fuel s ks A time y r sh (H & ND & F & Hf & N & U & S) L. exact (diff_sem K T sys fuel s ks A time y H ND F Hf N U S L). Qed.
Print Assumptions C66_variational.

(** The same for the calls made in a run of [_form_env], propagations and moves of the
    root (as in C23), with stored environments in use. *)
Theorem C66_variational_in_a_run :
  forall (K : StarRing) T (sys : system K T) fuel csvd1 csvd2 (s0 : state K) R0 A0 time cs log out,
    f_list K T sys = None \/ f_list K T sys = Some [] ->
    some_svd csvd1 -> some_svd csvd2 ->
    network (sheap K s0) R0 A0 -> top R0 = sroot K s0 -> S (length (ids R0)) <= fuel ->
    exec K T sys fuel csvd1 csvd2 (Form K T time :: cs) s0 = (log, out) -> inner_moves log ->
    forall s cache t y, In (Called K T s cache t y) log ->
    forall ks A, let r := sroot K s in let sh := shape (A r) in
    standing fuel (sheap K s) r ks A (h_list K T sys) -> length y = prod sh ->
    exists ans, result (diff K T sys fuel r cache t y s) = Ok ans /\ length ans = length y /\
      forall f, wf f -> shape f = sh ->
        pairing f (mkArr sh ans) = sumL (h_list K T sys) (element (exchanged A r (mkArr sh y)) (varied A r f) (Nd r ks)).
Proof.
  intros K T sys fuel csvd1 csvd2 s0 R0 A0 time cs log out Ef S1 S2 N Et Hf E IM s cache t y Hin ks A r sh St L.
  unfold r. rewrite (C23_stored_environments_do_not_matter K T sys fuel csvd1 csvd2 s0 R0 A0 time cs log out Ef S1 S2 N Et Hf E IM s cache t y Hin).
  assert (Eh : all_terms K T sys t = h_list K T sys) by (unfold all_terms; destruct Ef as [-> | ->]; cbn [map]; apply app_nil_r).
  rewrite <- Eh in *. apply C66_variational; auto.
Qed.
Print Assumptions C66_variational_in_a_run.

Definition tw_ks : list (nat * tree * nat) := [(0, Nd 1 [(1, Lf 3, 0)], 0); (1, Lf 2, 0)].
Lemma tw_standing : standing 6 tw_h 0 tw_ks tw_a (h_list _ _ tw_sys).
Proof.
  destruct tw_network as (_ & _ & _ & H & _ & F & N). split; [exact H|]. split; [|split; [exact F|split; [cbn; lia|split; [|split]]]].
  - repeat constructor; cbn; intuition discriminate.
  - intros n Hn. apply N. exact Hn.
  - intros n Hn E _. cbn in Hn. destruct Hn as [<-|[<-|[]]]; [congruence|]. cbn [tw_h hget nth oaxis unit_along].
    intros a b Ha Hb. cbn in Ha, Hb. destruct a as [|[|a]]; destruct b as [|[|b]]; try lia; reflexivity.
  - repeat constructor; cbn; try (intros l m Hl; repeat (destruct Hl as [Hl|Hl]; [injection Hl as <- <-; reflexivity|]); destruct Hl).
Qed.
(** The derivative for [y = 1 2 3 4], paired with [f = 5 6 7 8]. *)
Example C66_example :
  standing 6 (sheap _ tw_s) (sroot _ tw_s) tw_ks tw_a (all_terms _ _ tw_sys 0) /\ length y1 = prod (shape (tw_a 0)) /\
  match result (diff Z_star nat tw_sys 6 0 false 0 y1 (forget tw_s)) with
  | Ok ans => pairing (zm 5 6 7 8) (mkArr [2; 2] ans) = (-54)%Z /\ ans = ([3; -1; -1; -7] : list Z_star)%Z
  | _ => False
  end /\
  sumL (all_terms _ _ tw_sys 0) (element (exchanged tw_a 0 (mkArr [2; 2] y1)) (varied tw_a 0 (zm 5 6 7 8)) (Nd 0 tw_ks)) = (-54)%Z.
Proof. split; [exact tw_standing|]. split; [reflexivity|]. split; vm_compute; auto. Qed.

(** ** C67: norm and energy along the derivative of the root *)

(** [diff] is called for the root and nothing is stored; [d] is the derivative, [g] the sum
    over the terms without energy and coefficient.  The theorems give the square of the norm and the
    expectation value at [y + eps d], exactly, from those at [y] and at [d]. *)

(** Real time, the sum of the terms is anti-Hermitian, that is, the terms hold [-i H]; [q] is
    the expectation value of [H].  Neither changes to first order. *)
Theorem C67_real_time :
  forall (sys : system C_star R) fuel (s : state C_star) ks A hbar time y (eps : R),
    let r := sroot C_star s in let R0 := Nd r ks in let terms := all_terms C_star R sys time in
    standing fuel (sheap C_star s) r ks A terms -> length y = prod (shape (A r)) -> hbar <> 0%R -> adjoint_to (ropp r1) terms A R0 ->
    exists g d n q nd qd ng,
      result (diff C_star R sys fuel r false time y (forget s)) = Ok g /\
      result (split_diff (coefficient hbar) sys fuel false None r false time y (forget s)) = Ok d /\ length d = length y /\
      observed RtoC C_i A r R0 terms y n q /\ observed RtoC C_i A r R0 terms d nd qd /\
      inner (mkArr (shape (A r)) g) (mkArr (shape (A r)) g) = RtoC ng /\ (0 <= ng)%R /\
      observed RtoC C_i A r R0 terms (advanced y (RtoC eps) d)
        (n + eps * eps * nd)%R (q + eps * eps * qd)%R.
Proof.
  intros sys fuel s ks A hbar time y eps r R0 terms St L Hb Ad.
  assert (Ek : Cinv (coefficient hbar (Some time)) = ((/ hbar)%R, (0)%R)) by (apply Ceq; cbn; unfold Cnorm2; cbn; field; auto).
  destruct (rates sys fuel s ks A (coefficient hbar) false time St (ropp r1) C_i None y eps _ _ L Ek Ad ltac:(tauto))
    as (g & d & n & q & nd & qd & ng & Eg & Ed & Ld & O1 & O2 & En & Pn & O3).
  exists g, d, n, q, nd, qd, ng. split; [exact Eg|]. split; [exact Ed|]. split; [exact Ld|]. split; [exact O1|]. split; [exact O2|]. split; [exact En|]. split; [exact Pn|].
  destruct O3 as [(Eu & O3)|(Eu & O3)]; [apply (f_equal fst) in Eu; cbn in Eu; lra|].
  destruct O3 as (O3 & O4). split; [refine (eq_trans O3 (f_equal RtoC _))|refine (eq_trans O4 (f_equal RtoC _))]; field; auto.
Qed.
Print Assumptions C67_real_time.

(** Imaginary time, the same terms: the norm changes at the rate [- 2 q / hbar], the
    expectation value of [H] at the rate [- 2 |g|^2 / hbar].  The reference energy
    [init_energy] enters neither. *)
Theorem C67_imaginary_time :
  forall (sys : system C_star R) fuel (s : state C_star) ks A (e0 : option R) hbar time y (eps : R),
    let r := sroot C_star s in let R0 := Nd r ks in let terms := all_terms C_star R sys 0%R in
    standing fuel (sheap C_star s) r ks A terms -> length y = prod (shape (A r)) -> hbar <> 0%R -> adjoint_to (ropp r1) terms A R0 ->
    exists g d n q nd qd ng,
      result (diff C_star R sys fuel r false 0%R y (forget s)) = Ok g /\
      result (split_diff (coefficient hbar) sys fuel true e0 r false time y (forget s)) = Ok d /\ length d = length y /\
      observed RtoC C_i A r R0 terms y n q /\ observed RtoC C_i A r R0 terms d nd qd /\
      inner (mkArr (shape (A r)) g) (mkArr (shape (A r)) g) = RtoC ng /\ (0 <= ng)%R /\
      observed RtoC C_i A r R0 terms (advanced y (RtoC eps) d)
        (n + eps * (- 2 * q / hbar) + eps * eps * nd)%R (q + eps * (- 2 * ng / hbar) + eps * eps * qd)%R.
Proof.
  intros sys fuel s ks A e0 hbar time y eps r R0 terms St L Hb Ad.
  assert (Ek : Cinv (coefficient hbar None) = ((0)%R, (- / hbar)%R)) by (apply Ceq; cbn; unfold Cnorm2; cbn; field; auto).
  destruct (rates sys fuel s ks A (coefficient hbar) true time St (ropp r1) C_i e0 y eps _ _ L Ek Ad ltac:(tauto))
    as (g & d & n & q & nd & qd & ng & Eg & Ed & Ld & O1 & O2 & En & Pn & O3).
  exists g, d, n, q, nd, qd, ng. split; [exact Eg|]. split; [exact Ed|]. split; [exact Ld|]. split; [exact O1|]. split; [exact O2|]. split; [exact En|]. split; [exact Pn|].
  destruct O3 as [(Eu & O3)|(Eu & O3)]; [apply (f_equal fst) in Eu; cbn in Eu; lra|].
  destruct O3 as (O3 & O4). split; [refine (eq_trans O3 (f_equal RtoC _))|refine (eq_trans O4 (f_equal RtoC _))]; field; auto.
Qed.
Print Assumptions C67_imaginary_time.

(** Terms that hold [H] itself, as the documentation of the class says, in real time: norm
    and expectation value change. *)
Theorem C67_hermitian_terms_real_time :
  forall (sys : system C_star R) fuel (s : state C_star) ks A hbar time y (eps : R),
    let r := sroot C_star s in let R0 := Nd r ks in let terms := all_terms C_star R sys time in
    standing fuel (sheap C_star s) r ks A terms -> length y = prod (shape (A r)) -> hbar <> 0%R -> adjoint_to r1 terms A R0 ->
    exists g d n q nd qd ng,
      result (diff C_star R sys fuel r false time y (forget s)) = Ok g /\
      result (split_diff (coefficient hbar) sys fuel false None r false time y (forget s)) = Ok d /\ length d = length y /\
      observed RtoC r1 A r R0 terms y n q /\ observed RtoC r1 A r R0 terms d nd qd /\
      inner (mkArr (shape (A r)) g) (mkArr (shape (A r)) g) = RtoC ng /\ (0 <= ng)%R /\
      observed RtoC r1 A r R0 terms (advanced y (RtoC eps) d)
        (n + eps * (2 * q / hbar) + eps * eps * nd)%R (q + eps * (2 * ng / hbar) + eps * eps * qd)%R.
Proof.
  intros sys fuel s ks A hbar time y eps r R0 terms St L Hb Ad.
  assert (Ek : Cinv (coefficient hbar (Some time)) = ((/ hbar)%R, (0)%R)) by (apply Ceq; cbn; unfold Cnorm2; cbn; field; auto).
  destruct (rates sys fuel s ks A (coefficient hbar) false time St r1 r1 None y eps _ _ L Ek Ad ltac:(tauto))
    as (g & d & n & q & nd & qd & ng & Eg & Ed & Ld & O1 & O2 & En & Pn & O3).
  exists g, d, n, q, nd, qd, ng. split; [exact Eg|]. split; [exact Ed|]. split; [exact Ld|]. split; [exact O1|]. split; [exact O2|]. split; [exact En|]. split; [exact Pn|].
  destruct O3 as [(Eu & O3)|(Eu & O3)]; [|apply (f_equal fst) in Eu; cbn in Eu; lra].
  destruct O3 as (O3 & O4). split; [refine (eq_trans O3 (f_equal RtoC _))|refine (eq_trans O4 (f_equal RtoC _))]; field; auto.
Qed.
Print Assumptions C67_hermitian_terms_real_time.

(** The same with a reference energy [e]. *)
Theorem C67_hermitian_terms_shifted :
  forall (sys : system C_star R) fuel (s : state C_star) ks A (e : R) hbar time y (eps : R),
    let r := sroot C_star s in let R0 := Nd r ks in let terms := all_terms C_star R sys time in
    standing fuel (sheap C_star s) r ks A terms -> length y = prod (shape (A r)) -> hbar <> 0%R -> adjoint_to r1 terms A R0 ->
    exists g d n q nd qd ng,
      result (diff C_star R sys fuel r false time y (forget s)) = Ok g /\
      result (split_diff (coefficient hbar) sys fuel false (Some e) r false time y (forget s)) = Ok d /\ length d = length y /\
      observed RtoC r1 A r R0 terms y n q /\ observed RtoC r1 A r R0 terms d nd qd /\
      inner (mkArr (shape (A r)) g) (mkArr (shape (A r)) g) = RtoC ng /\ (0 <= ng)%R /\
      observed RtoC r1 A r R0 terms (advanced y (RtoC eps) d)
        (n + eps * (2 * (q - e * n) / hbar) + eps * eps * nd)%R (q + eps * (2 * (ng - e * q) / hbar) + eps * eps * qd)%R.
Proof.
  intros sys fuel s ks A e hbar time y eps r R0 terms St L Hb Ad.
  assert (Ek : Cinv (coefficient hbar (Some time)) = ((/ hbar)%R, (0)%R)) by (apply Ceq; cbn; unfold Cnorm2; cbn; field; auto).
  destruct (rates sys fuel s ks A (coefficient hbar) false time St r1 r1 (Some e) y eps _ _ L Ek Ad ltac:(tauto))
    as (g & d & n & q & nd & qd & ng & Eg & Ed & Ld & O1 & O2 & En & Pn & O3).
  exists g, d, n, q, nd, qd, ng. split; [exact Eg|]. split; [exact Ed|]. split; [exact Ld|]. split; [exact O1|]. split; [exact O2|]. split; [exact En|]. split; [exact Pn|].
  destruct O3 as [(Eu & O3)|(Eu & O3)]; [|apply (f_equal fst) in Eu; cbn in Eu; lra].
  destruct O3 as (O3 & O4). split; [refine (eq_trans O3 (f_equal RtoC _))|refine (eq_trans O4 (f_equal RtoC _))]; field; auto.
Qed.
Print Assumptions C67_hermitian_terms_shifted.

(** Terms that hold [H] itself in imaginary time: neither changes to first order. *)
Theorem C67_hermitian_terms_imaginary_time :
  forall (sys : system C_star R) fuel (s : state C_star) ks A (e0 : option R) hbar time y (eps : R),
    let r := sroot C_star s in let R0 := Nd r ks in let terms := all_terms C_star R sys 0%R in
    standing fuel (sheap C_star s) r ks A terms -> length y = prod (shape (A r)) -> hbar <> 0%R -> adjoint_to r1 terms A R0 ->
    exists g d n q nd qd ng,
      result (diff C_star R sys fuel r false 0%R y (forget s)) = Ok g /\
      result (split_diff (coefficient hbar) sys fuel true e0 r false time y (forget s)) = Ok d /\ length d = length y /\
      observed RtoC r1 A r R0 terms y n q /\ observed RtoC r1 A r R0 terms d nd qd /\
      inner (mkArr (shape (A r)) g) (mkArr (shape (A r)) g) = RtoC ng /\ (0 <= ng)%R /\
      observed RtoC r1 A r R0 terms (advanced y (RtoC eps) d)
        (n + eps * eps * nd)%R (q + eps * eps * qd)%R.
Proof.
  intros sys fuel s ks A e0 hbar time y eps r R0 terms St L Hb Ad.
  assert (Ek : Cinv (coefficient hbar None) = ((0)%R, (- / hbar)%R)) by (apply Ceq; cbn; unfold Cnorm2; cbn; field; auto).
  destruct (rates sys fuel s ks A (coefficient hbar) true time St r1 r1 e0 y eps _ _ L Ek Ad ltac:(tauto))
    as (g & d & n & q & nd & qd & ng & Eg & Ed & Ld & O1 & O2 & En & Pn & O3).
  exists g, d, n, q, nd, qd, ng. split; [exact Eg|]. split; [exact Ed|]. split; [exact Ld|]. split; [exact O1|]. split; [exact O2|]. split; [exact En|]. split; [exact Pn|].
  destruct O3 as [(Eu & O3)|(Eu & O3)]; [|apply (f_equal fst) in Eu; cbn in Eu; lra].
  destruct O3 as (O3 & O4). split; [refine (eq_trans O3 (f_equal RtoC _))|refine (eq_trans O4 (f_equal RtoC _))]; field; auto.
Qed.
Print Assumptions C67_hermitian_terms_imaginary_time.

(** A reference energy with terms that hold [-i H], in real time: the norm is not kept. *)
Theorem C67_shifted_real_time :
  forall (sys : system C_star R) fuel (s : state C_star) ks A (e : R) hbar time y (eps : R),
    let r := sroot C_star s in let R0 := Nd r ks in let terms := all_terms C_star R sys time in
    standing fuel (sheap C_star s) r ks A terms -> length y = prod (shape (A r)) -> hbar <> 0%R -> adjoint_to (ropp r1) terms A R0 ->
    exists g d n q nd qd ng,
      result (diff C_star R sys fuel r false time y (forget s)) = Ok g /\
      result (split_diff (coefficient hbar) sys fuel false (Some e) r false time y (forget s)) = Ok d /\ length d = length y /\
      observed RtoC C_i A r R0 terms y n q /\ observed RtoC C_i A r R0 terms d nd qd /\
      inner (mkArr (shape (A r)) g) (mkArr (shape (A r)) g) = RtoC ng /\ (0 <= ng)%R /\
      observed RtoC C_i A r R0 terms (advanced y (RtoC eps) d)
        (n + eps * (- 2 * e * n / hbar) + eps * eps * nd)%R (q + eps * (- 2 * e * q / hbar) + eps * eps * qd)%R.
Proof.
  intros sys fuel s ks A e hbar time y eps r R0 terms St L Hb Ad.
  assert (Ek : Cinv (coefficient hbar (Some time)) = ((/ hbar)%R, (0)%R)) by (apply Ceq; cbn; unfold Cnorm2; cbn; field; auto).
  destruct (rates sys fuel s ks A (coefficient hbar) false time St (ropp r1) C_i (Some e) y eps _ _ L Ek Ad ltac:(tauto))
    as (g & d & n & q & nd & qd & ng & Eg & Ed & Ld & O1 & O2 & En & Pn & O3).
  exists g, d, n, q, nd, qd, ng. split; [exact Eg|]. split; [exact Ed|]. split; [exact Ld|]. split; [exact O1|]. split; [exact O2|]. split; [exact En|]. split; [exact Pn|].
  destruct O3 as [(Eu & O3)|(Eu & O3)]; [apply (f_equal fst) in Eu; cbn in Eu; lra|].
  destruct O3 as (O3 & O4). split; [refine (eq_trans O3 (f_equal RtoC _))|refine (eq_trans O4 (f_equal RtoC _))]; field; auto.
Qed.
Print Assumptions C67_shifted_real_time.

(** The class of heom/propagate.py in imaginary time, terms that hold [H]: both decrease
    as they should. *)
Theorem C67_heom_imaginary_time :
  forall (sys : system C_star R) fuel (s : state C_star) ks A (e : R) hbar time y (eps : R),
    let r := sroot C_star s in let R0 := Nd r ks in let terms := all_terms C_star R sys 0%R in
    standing fuel (sheap C_star s) r ks A terms -> length y = prod (shape (A r)) -> hbar <> 0%R -> adjoint_to r1 terms A R0 ->
    exists g d n q nd qd ng,
      result (diff C_star R sys fuel r false 0%R y (forget s)) = Ok g /\
      result (split_diff (heom_coefficient hbar) sys fuel true (Some e) r false time y (forget s)) = Ok d /\ length d = length y /\
      observed RtoC r1 A r R0 terms y n q /\ observed RtoC r1 A r R0 terms d nd qd /\
      inner (mkArr (shape (A r)) g) (mkArr (shape (A r)) g) = RtoC ng /\ (0 <= ng)%R /\
      observed RtoC r1 A r R0 terms (advanced y (RtoC eps) d)
        (n + eps * (- 2 * (q - e * n) / hbar) + eps * eps * nd)%R (q + eps * (- 2 * (ng - e * q) / hbar) + eps * eps * qd)%R.
Proof.
  intros sys fuel s ks A e hbar time y eps r R0 terms St L Hb Ad.
  assert (Ek : Cinv (heom_coefficient hbar None) = ((- / hbar)%R, (0)%R)) by (apply Ceq; cbn; unfold Cnorm2; cbn; field; auto).
  destruct (rates sys fuel s ks A (heom_coefficient hbar) true time St r1 r1 (Some e) y eps _ _ L Ek Ad ltac:(tauto))
    as (g & d & n & q & nd & qd & ng & Eg & Ed & Ld & O1 & O2 & En & Pn & O3).
  exists g, d, n, q, nd, qd, ng. split; [exact Eg|]. split; [exact Ed|]. split; [exact Ld|]. split; [exact O1|]. split; [exact O2|]. split; [exact En|]. split; [exact Pn|].
  destruct O3 as [(Eu & O3)|(Eu & O3)]; [|apply (f_equal fst) in Eu; cbn in Eu; lra].
  destruct O3 as (O3 & O4). split; [refine (eq_trans O3 (f_equal RtoC _))|refine (eq_trans O4 (f_equal RtoC _))]; field; auto.
Qed.
Print Assumptions C67_heom_imaginary_time.

(** A root 0 of shape (2) with the leaf 1, over the complex numbers; [H] is diag(1, -1). *)
Definition one_a (n : nat) : arr C_star := mkArr [2] ([r1; r0] : list C_star).
Definition one_h : heap C_star :=
  [mkObj (Some "0"%string) false (Some (one_a 0)) None None true [(0, (1, 0))] [];
   mkObj (Some "1"%string) true None None None false [(0, (0, 0))] []].
Definition one_s : state C_star := mkState C_star one_h 0 (no_env C_star).
Definition one_ks : list (nat * tree * nat) := [(0, Lf 1, 0)].
Definition one_sys (u : C_star) : system C_star R := mkSystem C_star R [[(1, mkArr [2; 2] ([u; r0; r0; ropp u] : list C_star))]] None.
Definition one_y : list C_star := [r1; r0].
Lemma one_standing u tm : standing 3 one_h 0 one_ks one_a (all_terms C_star R (one_sys u) tm).
Proof.
  assert (H : hangs one_h None (Nd 0 one_ks)) by (apply hangs_root; [reflexivity|reflexivity|cbn; repeat constructor; cbn; tauto|repeat constructor]).
  assert (F : fits one_a None 0 (Nd 0 one_ks)) by (constructor; [reflexivity|repeat constructor|exact I|reflexivity|repeat constructor]).
  split; [exact H|]. split; [repeat constructor; cbn; intuition discriminate|]. split; [exact F|]. split; [cbn; lia|]. split; [|split].
  - intros n [<-|[]]. reflexivity.
  - intros n [<-|[]] E. congruence.
  - unfold all_terms. cbn [one_sys h_list f_list app]. constructor; [|constructor]. split.
    + intros l m [E|[]]. injection E as <- <-. reflexivity.
    + cbn. constructor; [|constructor]. split; reflexivity.
Qed.
Lemma one_adjoint sg u tm : u = rmul sg (rconj u) -> adjoint_to sg (all_terms C_star R (one_sys u) tm) one_a (Nd 0 one_ks).
Proof.
  intros E v w Hv Hw. cbn [one_ks] in *. cbn in Hv, Hw.
  assert (E1 := f_equal fst E). assert (E2 := f_equal snd E). cbn in E1, E2.
  destruct Hv as [<-|[<-|[]]]; destruct Hw as [<-|[<-|[]]]; unfold total, factor, all_terms; cbn; apply Ceq; cbn; lra.
Qed.
Lemma one_observed u s tm n q : observed RtoC u one_a 0 (Nd 0 one_ks) (all_terms C_star R (one_sys s) tm) one_y n q -> n = 1%R /\ RtoC q = rmul u s.
Proof.
  intros (O1 & O2). split; [apply (f_equal fst) in O1; cbn in O1; lra|]. rewrite <- O2. f_equal.
  unfold expected, element, all_terms. cbn. apply Ceq; cbn; ring.
Qed.

(** Keeping the norm fails for terms that hold [H] itself, in real time. *)
Theorem C67_documented_terms_refuted :
  ~ (forall (sys : system C_star R) fuel (s : state C_star) ks A hbar time y (eps : R) d,
      let r := sroot C_star s in let R0 := Nd r ks in let terms := all_terms C_star R sys time in
      standing fuel (sheap C_star s) r ks A terms -> length y = prod (shape (A r)) -> hbar <> 0%R -> adjoint_to r1 terms A R0 ->
      result (split_diff (coefficient hbar) sys fuel false None r false time y (forget s)) = Ok d ->
      let Y := mkArr (shape (A r)) y in let D := mkArr (shape (A r)) d in let N := mkArr (shape (A r)) (advanced y (RtoC eps) d) in
      inner N N = radd (inner Y Y) (rmul (RtoC (eps * eps)) (inner D D))).
Proof.
  intros H.
  destruct (C67_hermitian_terms_real_time (one_sys r1) 3 one_s one_ks one_a 1 0 one_y 1 (one_standing r1 0%R) eq_refl R1_neq_R0
    (one_adjoint r1 r1 0%R ltac:(apply Ceq; cbn; ring))) as (g & d & n & q & nd & qd & ng & _ & Ed & _ & O1 & (O2 & _) & _ & _ & (O3 & _)).
  specialize (H (one_sys r1) 3 one_s one_ks one_a 1%R 0%R one_y 1%R d (one_standing r1 0%R) eq_refl R1_neq_R0
    (one_adjoint r1 r1 0%R ltac:(apply Ceq; cbn; ring)) Ed). cbv zeta in H.
  destruct (one_observed _ _ _ _ _ O1) as (-> & Q). destruct O1 as (O1 & _).
  cbv zeta in O1, O2, O3. rewrite O3, O1, O2 in H. apply (f_equal fst) in H. apply (f_equal fst) in Q. cbn in H, Q. lra.
Qed.
Print Assumptions C67_documented_terms_refuted.

(** One tensor: with [-i H] real time keeps the norm, imaginary time loses it at rate 2. *)
Example C67_example :
  let u := ropp C_i in
  (forall tm, standing 3 (sheap _ one_s) (sroot _ one_s) one_ks one_a (all_terms C_star R (one_sys u) tm)) /\
  (forall tm, adjoint_to (ropp r1) (all_terms C_star R (one_sys u) tm) one_a (Nd 0 one_ks)) /\
  length one_y = prod (shape (one_a 0)) /\
  (forall tm n q, observed RtoC C_i one_a 0 (Nd 0 one_ks) (all_terms C_star R (one_sys u) tm) one_y n q -> n = 1%R /\ q = 1%R).
Proof.
  intros u. split; [intros tm; apply one_standing|]. split; [intros tm; apply one_adjoint; apply Ceq; cbn; ring|]. split; [reflexivity|].
  intros tm n q O. destruct (one_observed _ _ _ _ _ O) as (-> & Q). split; [reflexivity|]. apply (f_equal fst) in Q. cbn in Q. lra.
Qed.
