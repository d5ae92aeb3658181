(** Canonical form and norm during the steps of the two classes. *)
From Coq Require Import String List Arith Bool ZArith Lia Permutation.
From Verif Require Import Py Alg ListX NdArray_Model NdArray_Proof Contract_Model Contract_Spec Net_Model Net_Spec Trav_Proof Acyc_Proof Env_Spec EnvThm_Proof
  Move_Spec Link_Spec Link_Proof State_Spec State_Proof Split_Proof Mid_Proof TEnv_Proof Cache_Model Cache_Spec Cache_Proof CacheExact_Proof CacheMove_Proof
  Ps_Spec Step_Model Sweep_Model Sweep_Spec Sweep_Proof Unite_Proof Rsplit_Proof Step_Spec Step_Proof StepRun_Proof Norm_Spec NormAlg_Proof Norm_Proof.
From Verif Require Ps_Model Ps_Proof PsMove_Proof Propagate_Model.
Import ListNotations.
Local Open Scope nat_scope.
Local Open Scope list_scope.
Local Open Scope py_scope.

Section Shared.
Variable K : StarRing.
Variable o : option K.
Notation norm_is := (norm_is K o).
(** The array of [t] has the norm. *)
Definition normed (t : id) (s : Cache_Model.state K) : Prop := exists x, oarr (hget (sheap K s) t) = Some x /\ norm_is (sqnorm (data x)).
Lemma update_normed t y s s' : norm_is (sqnorm y) -> update K t y s = Ok s' -> normed t s'.
Proof.
  intros Ny. unfold update. destruct (oarr (hget (sheap K s) t)) as [a|] eqn:Ea; [|discriminate].
  destruct (reshape _ (shape a)) as [b|] eqn:Eb; [|discriminate]. cbn [bind]. intros X. injection X as <-.
  unfold reshape in Eb. destruct (_ =? _); [|discriminate]. injection Eb as <-. exists (mkArr (shape a) y). cbn [with_heap Cache_Model.sheap data].
  assert (L : t < length (sheap K s)) by (destruct (Nat.lt_ge_cases t (length (sheap K s))); auto; rewrite hget_out in Ea by auto; discriminate).
  rewrite hget_modify_eq by auto. auto.
Qed.
End Shared.

(** ** /repo/minitn/algorithms/ml.py *)
Section MlNorm.
Variable K : StarRing.
Variable D : Type.
Variable sys : system K D.
Variable fuel : nat.
Variables csvd1 csvd2 : arr K -> res (arr K * arr K * arr K).
Variable o : option K.
Notation norm_is := (norm_is K o).
Notation normed := (normed K o).
Hypothesis Sv1 : svd_for K o csvd1.
Hypothesis Sv2 : svd_for K o csvd2.
Definition call_ok (c : call K D) : Prop := match c with Update _ _ y => norm_is (sqnorm y) | _ => True end.

Lemma call_normed t cache c s l s' : call_ok c -> oleaf (hget (sheap K s) t) = false -> do_call K D sys fuel t cache c s = (l, Ok s') -> normed t s -> normed t s'.
Proof.
  intros Cc Lf E (x & Ex & Nx). destruct c as [time y|y|time]; cbn [do_call] in E.
  - destruct (diff K D sys fuel t cache time y s) as [(r, s1)|] eqn:Ed; [|discriminate]. cbn [bind snd] in E. injection E as _ <-.
    pose proof Ed as Nr. apply diff_near in Nr. destruct Nr as (L & _).
    unfold diff in Ed. rewrite Ex in Ed. destruct (reshape _ (shape x)) as [b|]; [|discriminate]. cbn [bind] in Ed.
    destruct (term_visitor _ _ _ _ _ _ _ _ _ _) as [(r2, s2)|]; [|discriminate]. cbn [bind] in Ed. injection Ed as _ <-.
    exists x. split; auto. cbn [with_heap Cache_Model.sheap] in *. rewrite length_modify in L.
    assert (Lt : t < length (sheap K s)) by (destruct (Nat.lt_ge_cases t (length (sheap K s))); auto; rewrite hget_out in Ex by auto; discriminate).
    rewrite hget_modify_eq by lia. auto.
  - injection E as _ E. apply (update_normed K o t y s s'); auto.
  - injection E as _ E. apply form_frame in E. destruct E as ((_ & C) & _). destruct (C t) as (_ & _ & _ & _ & _ & X). cbn [with_env Cache_Model.sheap] in X.
    exists x. split; auto. rewrite X by auto. auto.
Qed.
Lemma calls_normed t cache : forall cs s l s', Forall call_ok cs -> oleaf (hget (sheap K s) t) = false ->
  Cache_Model.foreach K D (do_call K D sys fuel t cache) cs s = (l, Ok s') -> normed t s -> normed t s'.
Proof.
  induction cs as [|c cs IH]; intros s l s' F Lf E Nm; cbn [Cache_Model.foreach] in E; [injection E as _ <-; auto|]. inversion F as [|? ? Fc Fs]; subst.
  unfold Cache_Model.andthen in E. destruct (do_call K D sys fuel t cache c s) as (l1, [s1|e]) eqn:E1; [|discriminate].
  destruct (Cache_Model.foreach K D (do_call K D sys fuel t cache) cs s1) as (l2, r2) eqn:E2. injection E as _ ->.
  apply (IH s1 l2 s' Fs); auto; [|apply (call_normed t cache c s l1 s1); auto]. apply call_near in E1. destruct E1 as (_ & _ & _ & At & _). destruct (At t) as (_ & -> & _). auto.
Qed.
Definition op_ok (op : option (bool * list (call K D))) : Prop := match op with Some (_, cs) => Forall call_ok cs | None => True end.
Lemma op_normed op t s l s' : op_ok op -> oleaf (hget (sheap K s) t) = false -> run_op K D sys fuel op t s = (l, Ok s') -> normed t s -> normed t s'.
Proof.
  intros F Lf E Nm. destruct op as [(cache, cs)|]; cbn [run_op] in E; [|injection E as _ <-; auto].
  unfold Cache_Model.split_prop in E. destruct (negb _); [discriminate|]. eapply calls_normed in E; eauto.
Qed.
Lemma operator_steadfast op s : op_ok op -> steadfast K o (as_operator K D sys fuel op s).
Proof.
  intros F hA mid hB x x' E Ex Ex' W Nx. unfold as_operator in E. destruct (oleaf (hget hA mid)) eqn:L; [injection E as <-; congruence|].
  destruct (run_op K D sys fuel op mid (with_heap K s hA)) as (l, [s'|e]) eqn:Er; injection E as <-; [|congruence].
  destruct (op_normed op mid (with_heap K s hA) l s' F L Er) as (x2 & E2 & N2); [exists x; auto|]. congruence.
Qed.

Lemma split_run s A n k1 k2 i e cks j op csvd l s' : some_svd csvd -> network (sheap K s) (Nd n (k1 ++ (i, Nd e cks, j) :: k2)) A ->
  dindex (oacc (hget (sheap K s) n)) i = Ok (e, j) -> split_unite_op K D sys fuel csvd n i op s = (l, Ok s') ->
  split_unite csvd (sheap K s) n i (as_operator K D sys fuel op s) None = Ok (n, length (sheap K s), e, sheap K s').
Proof.
  intros Sv N Ei E. unfold split_unite_op in E. unfold split_unite. rewrite Ei in *. cbv zeta in E. cbn [bind].
  destruct (network_joint K _ A n k1 k2 i e cks j N) as (nn & ne & d1 & d2 & _ & J & _ & _ & _ & _ & Hi & _). pose proof J as (_ & _ & Sn & _).
  destruct (split_mid K csvd (sheap K s) A n k1 k2 i e cks j (onorm (hget (sheap K s) n) && onorm (hget (sheap K s) e)) N
    (some_fitting K csvd Sv (A n) [i] ltac:(apply Sn) ltac:(constructor; auto))) as (hA & x & Es & HA & _ & Lw & _ & _ & _ & AA).
  rewrite Es in *. cbn [bind]. unfold Cache_Model.andthen in E. destruct (run_op _ _ _ _ op _ (with_heap K s hA)) as (l1, [s2|]) eqn:Er; [|discriminate].
  unfold as_operator at 1. assert (Lf : oleaf (hget hA (length (sheap K s))) = false) by (inversion HA; auto). rewrite Lf, Er. cbn [bind].
  destruct (unite (sheap K s2) e j (Some e) _) as [(y, h2)|]; [|discriminate]. cbn [bind]. injection E as _ <-. reflexivity.
Qed.
Lemma unite_run s A n k1 k2 i e cks j op csvd l s' : some_svd csvd -> shaped (sheap K s) (Nd n (k1 ++ (i, Nd e cks, j) :: k2)) A ->
  (oaxis (hget (sheap K s) n) = None \/ oaxis (hget (sheap K s) e) = None) ->
  dindex (oacc (hget (sheap K s) n)) i = Ok (e, j) -> unite_split_op K D sys fuel csvd n i op s = (l, Ok s') ->
  unite_split csvd fuel (sheap K s) n i (as_operator K D sys fuel op s) None = Ok (n, length (sheap K s), e, sheap K s').
Proof.
  intros Sv N Ax Ei E. unfold unite_split_op in E. unfold unite_split. destruct (linkage_visitor fuel (sheap K s) n None true false) as [lo|]; [|discriminate].
  cbn [bind]. rewrite Ei in *. cbv zeta in E. cbn [bind].
  destruct (unite_mid_any K (sheap K s) A n k1 k2 i e cks j (onorm (hget (sheap K s) n) && onorm (hget (sheap K s) e)) N Ax) as (hA & x & Es & _ & HA & _ & Lw & _ & _ & AA).
  rewrite Es in *. cbn [bind]. unfold Cache_Model.andthen in E. destruct (run_op _ _ _ _ op _ (with_heap K s hA)) as (l1, [s2|]) eqn:Er; [|discriminate].
  unfold as_operator at 1. assert (Lf : oleaf (hget hA (length (sheap K s))) = false) by (inversion HA; auto). rewrite Lf, Er. cbn [bind].
  destruct (split csvd (sheap K s2) _ _ (Some (j, i)) (Some e) (Some n) _) as [((y, y'), h2)|]; [|discriminate]. cbn [bind].
  destruct (linkage_visitor fuel h2 n None true false) as [ln|]; [|discriminate]. cbn [bind].
  destruct (edges_eqb lo ln); [|discriminate]. injection E as _ <-. reflexivity.
Qed.

(** The invariants of StepRun_Proof.v with the form of the network. *)
Variable calls : nat -> list (call K D).
Hypothesis Ok_calls : forall k, Forall call_ok (calls k).
Variable clock : nat -> D.
Variable bc : bool.
Variable T : Type.
Definition mln_inv (x : Step_Model.counted K) : Prop := ml_inv K D sys fuel x /\ held K o (cheap x) (croot x).
Definition mln_pre (x : Step_Model.counted K) : Prop := ml_pre K fuel x /\ held K o (cheap x) (croot x).
Lemma mln_net x : mln_inv x -> exists R A, network (cheap x) R A /\ top R = croot x.
Proof. intros (I & _). eapply ml_net; eauto. Qed.
Lemma mln_pre_inv x : mln_inv x -> mln_pre x.
Proof. intros (I & H). split; auto. eapply ml_pre_inv; eauto. Qed.
Lemma mln_pre_fuel x R A : mln_pre x -> network (cheap x) R A -> top R = croot x -> S (length (ids R)) <= fuel.
Proof. intros (P & _). apply (ml_pre_fuel K fuel x R A P). Qed.
Lemma mln_form_ok x x' : mln_pre x -> ml_form K D sys fuel clock x = Ok x' -> mln_inv x' /\ croot x' = croot x /\
  (forall t, oacc (hget (cheap x') t) = oacc (hget (cheap x) t) /\ oleaf (hget (cheap x') t) = oleaf (hget (cheap x) t)).
Proof.
  intros (P & Hd) E. destruct (ml_form_ok K D sys fuel clock x x' P E) as (I & Er & Lk). split; auto. split; auto. rewrite Er.
  destruct P as (R & A & N & Et & _). unfold ml_form in E. destruct (form_env K D sys fuel false (clock (snd x)) (fst x)) as [s|] eqn:Ef; [|discriminate]. injection E as <-.
  apply form_frame in Ef. destruct Ef as ((_ & C) & _). cbn [with_env Cache_Model.sheap] in C. change (cheap (s, S (snd x))) with (sheap K s) in *.
  apply (held_near K o (cheap x)); [eauto| | | |exact Hd].
  - intros t. destruct (C t) as (_ & P2 & P3 & _ & P5 & _). auto.
  - intros t _ Lt. destruct (C t) as (_ & _ & _ & _ & _ & X). apply X. exact Lt.
  - destruct (root_array K _ R A (croot x) N Et) as (_ & Ea & _ & Lf). exists (A (croot x)). destruct (C (croot x)) as (_ & _ & _ & _ & _ & X).
    split; [rewrite X; auto|]. apply (Hd R A N Et).
Qed.
Lemma mln_prop_ok (tau : T) x l r : mln_inv x -> ml_prop K D sys fuel calls tau (croot x) x = (l, r) ->
  CacheExact_Proof.good K D sys fuel l /\ forall x', r = Ok x' -> mln_inv x' /\ croot x' = croot x /\ length (cheap x') = length (cheap x) /\
    (forall t, oacc (hget (cheap x') t) = oacc (hget (cheap x) t) /\ oleaf (hget (cheap x') t) = oleaf (hget (cheap x) t) /\ oaxis (hget (cheap x') t) = oaxis (hget (cheap x) t)).
Proof.
  intros (I & Hd) E. destruct (ml_prop_ok K D sys fuel calls T tau x l r I E) as (G & H). split; auto. intros x' ->.
  destruct (H x' eq_refl) as (I' & Er & L & Lk). split; auto. split; auto. rewrite Er.
  destruct (ml_net K D sys fuel x I) as (R & A & N & Et). destruct (root_array K _ R A (croot x) N Et) as (_ & Ea & _ & Lf).
  unfold ml_prop, count in E. destruct (Cache_Model.split_prop _ _ _ _ _ _ _ _) as (l1, r1) eqn:Ep. cbn [fst snd] in E. injection E as _ E. destruct r1 as [s'|]; [|discriminate]. injection E as <-.
  change (cheap (s', S (snd x))) with (sheap K s') in *.
  assert (Em : run_op K D sys fuel (Some (true, calls (snd x))) (croot x) (fst x) = (l1, Ok s')) by exact Ep.
  pose proof (op_near K D sys fuel _ _ _ _ _ Em) as (_ & _ & Q & _). cbn [Cache_Model.sheap] in Q.
  apply (held_near K o (cheap x)); [eauto|auto| | |exact Hd].
  - intros t Nt Lt. destruct (Q t Nt) as (_ & _ & _ & _ & _ & X). apply X. exact Lt.
  - apply (op_normed (Some (true, calls (snd x))) _ _ _ _ (Ok_calls (snd x)) Lf Em). exists (A (croot x)). split; auto. apply (Hd R A N Et).
Qed.
Lemma op_chosen (op : option T) k : op_ok (option_map (fun _ => (bc, calls k)) op).
Proof. destruct op; cbn; auto. Qed.
Lemma mln_move_ok x R A i e j (op : option T) uf l r : mln_inv x -> network (cheap x) R A -> top R = croot x ->
  dget (oacc (hget (cheap x) (croot x))) i = Some (e, j) -> oleaf (hget (cheap x) e) = false -> ml_move K D sys fuel csvd1 csvd2 calls bc (croot x) i op uf x = (l, r) ->
  CacheExact_Proof.good K D sys fuel l /\ forall x', r = Ok x' -> mln_inv x' /\ croot x' = e /\ shifted K (cheap x) R (croot x) i e (cheap x').
Proof.
  intros (I & Hd) N Et Eg Le E. pose proof (svd_some K o csvd1 Sv1) as S1. pose proof (svd_some K o csvd2 Sv2) as S2.
  destruct (ml_move_ok K D sys fuel csvd1 csvd2 S1 S2 calls bc T x R A i e j op uf l r I N Et Eg Le E) as (G & H). split; auto. intros x' ->.
  destruct (H x' eq_refl) as (I' & Er & Sh). split; auto. split; auto. rewrite Er.
  unfold ml_move, count in E. destruct (Cache_Model.move _ _ _ _ _ _ _ _ _ _ _) as (l1, r1) eqn:Em. cbn [fst snd] in E. injection E as _ E. destruct r1 as [s'|]; [|discriminate]. injection E as <-.
  change (cheap (s', S (snd x))) with (sheap K s') in *. set (q := option_map _ op) in Em. unfold Cache_Model.move in Em.
  assert (Ed : dindex (oacc (hget (sheap K (fst x)) (croot x))) i = Ok (e, j)) by (unfold dindex; unfold cheap in Eg; rewrite Eg; auto). rewrite Ed in Em.
  set (s1 := remove_env K D sys [croot x; e] (fst x)) in Em. assert (H1 : sheap K s1 = cheap x) by apply remove_heap.
  pose proof (ml_pre_fuel K fuel x R A (ml_pre_inv K D sys fuel x I) N Et) as Hf.
  apply (move_held K o csvd1 csvd2 fuel (cheap x) R A (croot x) i e j (as_operator K D sys fuel q s1) uf (sheap K s')); auto.
  { apply as_operator_lawful. } { apply operator_steadfast. apply op_chosen. }
  pose proof N as (Dk & _). pose proof Eg as Eg'. apply (points_get K (cheap x) _ _ _ _ Dk) in Eg'.
  destruct (point_kid K (cheap x) R A (croot x) i e j N Et Eg' Le) as (k1 & cks & k2 & ->). rewrite <- H1 in N |- *. fold (cheap x) in Ed. rewrite <- H1 in Ed.
  unfold Cache_Model.andthen in Em. destruct uf.
  - destruct (unite_split_op K D sys fuel csvd2 (croot x) i q s1) as (l2, r2) eqn:E2. injection Em as _ ->.
    apply (unite_run s1 A (croot x) k1 k2 i e cks j q csvd2 l2 s'); auto; [apply network_shaped; auto|]. left. pose proof N as (_ & _ & _ & _ & Or & _). apply oriented_kids in Or. apply Or.
  - destruct (split_unite_op K D sys fuel csvd1 (croot x) i q s1) as (l2, r2) eqn:E2. injection Em as _ ->. apply (split_run s1 A (croot x) k1 k2 i e cks j q csvd1 l2 s'); auto.
Qed.
Lemma mln_unite_ok x R A n i j (op : option T) l r : mln_inv x -> network (cheap x) R A -> top R = croot x ->
  dget (oacc (hget (cheap x) n)) i = Some (croot x, j) -> oleaf (hget (cheap x) n) = false -> ml_move K D sys fuel csvd1 csvd2 calls bc n i op true x = (l, r) ->
  CacheExact_Proof.good K D sys fuel l /\ forall x', r = Ok x' -> mln_inv x' /\ croot x' = croot x /\ shifted K (cheap x) R n i (croot x) (cheap x').
Proof.
  intros (I & Hd) N Et Eg Le E. pose proof (svd_some K o csvd2 Sv2) as S2.
  destruct (ml_unite_ok K D sys fuel csvd1 csvd2 S2 calls bc T x R A n i j op l r I N Et Eg Le E) as (G & H). split; auto. intros x' ->.
  destruct (H x' eq_refl) as (I' & Er & Sh). split; auto. split; auto. rewrite Er.
  unfold ml_move, count in E. destruct (Cache_Model.move _ _ _ _ _ _ _ _ _ _ _) as (l1, r1) eqn:Em. cbn [fst snd] in E. injection E as _ E. destruct r1 as [s'|]; [|discriminate]. injection E as <-.
  change (cheap (s', S (snd x))) with (sheap K s') in *. set (q := option_map _ op) in Em. unfold Cache_Model.move in Em.
  assert (Ed : dindex (oacc (hget (sheap K (fst x)) n)) i = Ok (croot x, j)) by (unfold dindex; unfold cheap in Eg; rewrite Eg; auto). rewrite Ed in Em.
  set (s1 := remove_env K D sys [n; croot x] (fst x)) in Em. assert (H1 : sheap K s1 = cheap x) by apply remove_heap.
  pose proof (ml_pre_fuel K fuel x R A (ml_pre_inv K D sys fuel x I) N Et) as Hf.
  apply (unite_held K o csvd2 fuel (cheap x) R A n i (croot x) j (as_operator K D sys fuel q s1) (sheap K s')); auto.
  { apply as_operator_lawful. } { apply operator_steadfast. apply op_chosen. }
  destruct (other_end K (cheap x) R A n i (croot x) j N Et Eg Le) as (k1 & k2 & c1 & c2 & A' & hx & ER & N' & Tw & Ax & Pm).
  pose proof (twins_shaped K n (croot x) hx (cheap x) _ A' Tw N') as Shp. rewrite <- H1 in Shp, Ax |- *. fold (cheap x) in Ed. rewrite <- H1 in Ed.
  unfold Cache_Model.andthen in Em. destruct (unite_split_op K D sys fuel csvd2 n i q s1) as (l2, r2) eqn:E2. injection Em as _ ->.
  apply (unite_run s1 A' n k1 k2 i (croot x) (c1 ++ c2) j q csvd2 l2 s'); auto.
Qed.
End MlNorm.

(** ** /repo/minitn/heom/propagate2.py *)
Section PsNorm.
Variable K : StarRing.
Variable hl : list (list (id * arr K)).
Variable fuel : nat.
Variables csvd1 csvd2 : arr K -> res (arr K * arr K * arr K).
Variable o : option K.
Notation norm_is := (norm_is K o).
Notation normed := (normed K o).
Notation as_operator := (PsMove_Proof.as_operator K hl fuel).
Notation run_op := (Ps_Model.run_op K hl fuel).
Hypothesis Sv1 : svd_for K o csvd1.
Hypothesis Sv2 : svd_for K o csvd2.
Definition answer_ok (op : option (list (list K) * list K)) : Prop := match op with Some (_, y) => norm_is (sqnorm y) | None => True end.
Lemma ps_op_normed op t s l s' : answer_ok op -> run_op op t s = (l, Ok s') -> normed t s -> normed t s'.
Proof.
  intros F E Nm. destruct op as [(ys, y)|]; cbn [Ps_Model.run_op] in E; [|injection E as _ <-; auto].
  unfold Ps_Model.single_prop in E. destruct (negb _); [discriminate|]. unfold Cache_Model.andthen in E.
  destruct (Cache_Model.foreach K unit _ ys _) as (l1, [s1|e]); [|discriminate]. injection E as _ E. apply (update_normed K o t y s1 s'); auto.
Qed.
Lemma ps_operator_steadfast op s : answer_ok op -> steadfast K o (as_operator op s).
Proof.
  intros F hA mid hB x x' E Ex Ex' W Nx. unfold PsMove_Proof.as_operator in E. destruct (oleaf (hget hA mid)) eqn:L; [injection E as <-; congruence|].
  destruct (PsMove_Proof.seatedb K hl hA); [|injection E as <-; congruence].
  destruct (run_op op mid (with_heap K s hA)) as (l, [s'|e]) eqn:Er; injection E as <-; [|congruence].
  destruct (ps_op_normed op mid (with_heap K s hA) l s' F Er) as (x2 & E2 & N2); [exists x; auto|]. congruence.
Qed.
Lemma seated_mid h hA n : seated h hl -> oleaf (hget h n) = false -> length h < length hA ->
  (forall z, z <> n -> z <> length h -> attrs (hget h z) (hget hA z)) -> PsMove_Proof.seatedb K hl hA = true.
Proof.
  intros Se Ln L AA. apply PsMove_Proof.seatedb_ok. intros term l m Ht Hin. destruct (Se term l m Ht Hin) as (X1 & X2). split; [lia|].
  destruct (attrs_alike K h hA l X1 ltac:(lia)) as (_ & _ & -> & _); auto. apply AA; [intros ->; congruence|lia].
Qed.
Lemma ps_split_run s A n k1 k2 i e cks j op csvd l s' : some_svd csvd -> seated (sheap K s) hl -> network (sheap K s) (Nd n (k1 ++ (i, Nd e cks, j) :: k2)) A ->
  dindex (oacc (hget (sheap K s) n)) i = Ok (e, j) -> Ps_Model.split_unite_op K hl fuel csvd n i op s = (l, Ok s') ->
  split_unite csvd (sheap K s) n i (as_operator op s) None = Ok (n, length (sheap K s), e, sheap K s').
Proof.
  intros Sv Se N Ei E. unfold Ps_Model.split_unite_op in E. unfold split_unite. rewrite Ei in *. cbv zeta in E. cbn [bind].
  destruct (network_joint K _ A n k1 k2 i e cks j N) as (nn & ne & d1 & d2 & _ & J & _ & _ & _ & _ & Hi & _). pose proof J as (_ & _ & Sn & _). assert (Ln : oleaf (hget (sheap K s) n) = false) by apply Sn.
  destruct (split_mid K csvd (sheap K s) A n k1 k2 i e cks j (onorm (hget (sheap K s) n) && onorm (hget (sheap K s) e)) N
    (some_fitting K csvd Sv (A n) [i] ltac:(apply Sn) ltac:(constructor; auto))) as (hA & x & Es & HA & _ & Lw & _ & _ & _ & AA).
  rewrite Es in *. cbn [bind]. unfold Cache_Model.andthen in E. destruct (run_op op _ (with_heap K s hA)) as (l1, [s2|]) eqn:Er; [|discriminate].
  unfold PsMove_Proof.as_operator at 1. assert (Lf : oleaf (hget hA (length (sheap K s))) = false) by (inversion HA; auto). rewrite Lf, (seated_mid (sheap K s) hA n Se Ln Lw), Er; [|intros z Z1 Z2; apply AA; auto]. cbn [bind].
  destruct (unite (sheap K s2) e j (Some e) _) as [(y, h2)|]; [|discriminate]. cbn [bind]. injection E as _ <-. reflexivity.
Qed.
Lemma ps_unite_run s A n k1 k2 i e cks j op csvd l s' : some_svd csvd -> seated (sheap K s) hl -> shaped (sheap K s) (Nd n (k1 ++ (i, Nd e cks, j) :: k2)) A ->
  (oaxis (hget (sheap K s) n) = None \/ oaxis (hget (sheap K s) e) = None) ->
  dindex (oacc (hget (sheap K s) n)) i = Ok (e, j) -> Ps_Model.unite_split_op K hl fuel csvd n i op s = (l, Ok s') ->
  unite_split csvd fuel (sheap K s) n i (as_operator op s) None = Ok (n, length (sheap K s), e, sheap K s').
Proof.
  intros Sv Se N Ax Ei E. unfold Ps_Model.unite_split_op in E. unfold unite_split. destruct (linkage_visitor fuel (sheap K s) n None true false) as [lo|]; [|discriminate].
  cbn [bind]. rewrite Ei in *. cbv zeta in E. cbn [bind].
  destruct (shaped_joint K (sheap K s) A n k1 k2 i e cks j N) as (nn & ne & d1 & d2 & _ & J & _). pose proof J as (_ & _ & Sn & _). assert (Ln : oleaf (hget (sheap K s) n) = false) by apply Sn.
  destruct (unite_mid_any K (sheap K s) A n k1 k2 i e cks j (onorm (hget (sheap K s) n) && onorm (hget (sheap K s) e)) N Ax) as (hA & x & Es & _ & HA & _ & Lw & _ & _ & AA).
  rewrite Es in *. cbn [bind]. unfold Cache_Model.andthen in E. destruct (run_op op _ (with_heap K s hA)) as (l1, [s2|]) eqn:Er; [|discriminate].
  unfold PsMove_Proof.as_operator at 1. assert (Lf : oleaf (hget hA (length (sheap K s))) = false) by (inversion HA; auto). rewrite Lf, (seated_mid (sheap K s) hA n Se Ln Lw), Er; [|intros z Z1 Z2; apply AA; auto]. cbn [bind].
  destruct (split csvd (sheap K s2) _ _ (Some (j, i)) (Some e) (Some n) _) as [((y, y'), h2)|]; [|discriminate]. cbn [bind].
  destruct (linkage_visitor fuel h2 n None true false) as [ln|]; [|discriminate]. cbn [bind].
  destruct (edges_eqb lo ln); [|discriminate]. injection E as _ <-. reflexivity.
Qed.


(** The invariants of StepRun_Proof.v with the form of the network. *)
Variable answers : nat -> list (list K) * list K.
Hypothesis Ok_answers : forall k, norm_is (sqnorm (snd (answers k))).
Variable T : Type.
Definition psn_inv (x : Step_Model.counted K) : Prop := ps_inv K hl fuel x /\ held K o (cheap x) (croot x).
Definition psn_pre (x : Step_Model.counted K) : Prop := ps_pre K hl fuel x /\ held K o (cheap x) (croot x).
Lemma psn_net x : psn_inv x -> exists R A, network (cheap x) R A /\ top R = croot x.
Proof. intros (I & _). eapply ps_net; eauto. Qed.
Lemma psn_pre_inv x : psn_inv x -> psn_pre x.
Proof. intros (I & H). split; auto. eapply ps_pre_inv; eauto. Qed.
Lemma psn_pre_fuel x R A : psn_pre x -> network (cheap x) R A -> top R = croot x -> S (length (ids R)) <= fuel.
Proof. intros (P & _). apply (ps_pre_fuel K hl fuel x R A P). Qed.
Lemma form_core s s' : seated (sheap K s) hl -> Ps_Model.form_env K hl fuel s = Ok s' -> core K (sheap K s) (sheap K s').
Proof.
  intros Se. unfold Ps_Model.form_env, Ps_Model.term_visitor. cbn [with_env with_heap Cache_Model.sheap Cache_Model.sroot].
  destruct (visitor fuel (sheap K s) (sroot K s) None true) as [l|]; [|discriminate]. cbn [bind].
  destruct (Ps_Model.each_term K (Ps_Model.form_term K fuel) 0 hl tt _) as [(u, s2)|] eqn:E; [|discriminate]. cbn [bind snd]. intros X. injection X as <-.
  assert (C : core K (sheap K s) (set_all (reset_obj K) (sheap K s) l)) by apply core_set_all, kept_reset.
  apply PsMove_Proof.each_core in E.
  - cbn [with_heap Cache_Model.sheap] in E. eapply core_trans; [exact C|apply E].
  - intros n a z a' z' Ez. unfold Ps_Model.form_term in Ez. destruct (visitor _ _ _ _ _) as [l2|]; [|discriminate]. cbn [bind] in Ez.
    destruct (fill _ _ _ _ _) as [z2|] eqn:Ef; [|discriminate]. cbn [bind] in Ez. injection Ez as _ <-. apply fill_frame in Ef. destruct Ef as (A & B & _). auto.
  - intros tm z m Ht Hin. destruct (Se tm z m Ht Hin) as (X1 & X2). cbn [with_heap Cache_Model.sheap]. destruct C as (L & C). destruct (C z) as (_ & Q & _). rewrite L, Q. auto.
Qed.
Lemma psn_form_ok x x' : psn_pre x -> ps_form K hl fuel x = Ok x' -> psn_inv x' /\ croot x' = croot x /\
  (forall t, oacc (hget (cheap x') t) = oacc (hget (cheap x) t) /\ oleaf (hget (cheap x') t) = oleaf (hget (cheap x) t)).
Proof.
  intros (P & Hd) E. destruct (ps_form_ok K hl fuel x x' P E) as (I & Er & Lk). split; auto. split; auto. rewrite Er.
  destruct P as (R & A & N & Et & Hf & Se). unfold ps_form in E. destruct (Ps_Model.form_env K hl fuel (fst x)) as [s|] eqn:Ef; [|discriminate]. injection E as <-.
  change (cheap (s, S (snd x))) with (sheap K s) in *. pose proof (form_core (fst x) s Se Ef) as (_ & C).
  apply (held_near K o (cheap x)); [eauto| | | |exact Hd].
  - intros t. destruct (C t) as (_ & P2 & P3 & _ & P5 & _). auto.
  - intros t _ Lt. destruct (C t) as (_ & _ & _ & _ & _ & X). apply X. exact Lt.
  - destruct (root_array K _ R A (croot x) N Et) as (_ & Ea & _ & Lf). exists (A (croot x)). destruct (C (croot x)) as (_ & _ & _ & _ & _ & X).
    split; [rewrite X; auto|]. apply (Hd R A N Et).
Qed.
Lemma psn_prop_ok (tau : T) x l r : psn_inv x -> ps_prop K hl fuel answers tau (croot x) x = (l, r) ->
  Ps_Proof.good K hl fuel l /\ forall x', r = Ok x' -> psn_inv x' /\ croot x' = croot x /\ length (cheap x') = length (cheap x) /\
    (forall t, oacc (hget (cheap x') t) = oacc (hget (cheap x) t) /\ oleaf (hget (cheap x') t) = oleaf (hget (cheap x) t) /\ oaxis (hget (cheap x') t) = oaxis (hget (cheap x) t)).
Proof.
  intros (I & Hd) E. destruct (ps_prop_ok K hl fuel answers T tau x l r I E) as (G & H). split; auto. intros x' ->.
  destruct (H x' eq_refl) as (I' & Er & L & Lk). split; auto. split; auto. rewrite Er.
  destruct (ps_pre_inv K hl fuel x I) as (R & A & N & Et & _ & Se). destruct (root_array K _ R A (croot x) N Et) as (_ & Ea & _ & Lf).
  unfold ps_prop, count in E. destruct (Ps_Model.single_prop _ _ _ _ _ _ _) as (l1, r1) eqn:Ep. cbn [fst snd] in E. injection E as _ E. destruct r1 as [s'|]; [|discriminate]. injection E as <-.
  change (cheap (s', S (snd x))) with (sheap K s') in *.
  assert (Em : run_op (Some (fst (answers (snd x)), snd (answers (snd x)))) (croot x) (fst x) = (l1, Ok s')) by exact Ep.
  pose proof (PsMove_Proof.op_near K hl fuel _ _ _ _ _ Se Lf Em) as (_ & _ & Q & _). cbn [Cache_Model.sheap] in Q.
  apply (held_near K o (cheap x)); [eauto|auto| | |exact Hd].
  - intros t Nt Lt. destruct (Q t Nt) as (_ & _ & _ & _ & _ & X). apply X. exact Lt.
  - apply (ps_op_normed (Some (fst (answers (snd x)), snd (answers (snd x)))) _ _ _ _ (Ok_answers (snd x)) Em). exists (A (croot x)). split; auto. apply (Hd R A N Et).
Qed.
Lemma answer_chosen (op : option T) k : answer_ok (option_map (fun _ => answers k) op).
Proof. destruct op; cbn; auto. destruct (answers k) as (ys, y) eqn:E. pose proof (Ok_answers k) as H. rewrite E in H. exact H. Qed.
Lemma psn_move_ok x R A i e j (op : option T) uf l r : psn_inv x -> network (cheap x) R A -> top R = croot x ->
  dget (oacc (hget (cheap x) (croot x))) i = Some (e, j) -> oleaf (hget (cheap x) e) = false -> ps_move K hl fuel csvd1 csvd2 answers (croot x) i op uf x = (l, r) ->
  Ps_Proof.good K hl fuel l /\ forall x', r = Ok x' -> psn_inv x' /\ croot x' = e /\ shifted K (cheap x) R (croot x) i e (cheap x').
Proof.
  intros (I & Hd) N Et Eg Le E. pose proof (svd_some K o csvd1 Sv1) as S1. pose proof (svd_some K o csvd2 Sv2) as S2.
  destruct (ps_move_ok K hl fuel csvd1 csvd2 S1 S2 answers T x R A i e j op uf l r I N Et Eg Le E) as (G & H). split; auto. intros x' ->.
  destruct (H x' eq_refl) as (I' & Er & Sh). split; auto. split; auto. rewrite Er.
  unfold ps_move, count in E. destruct (Ps_Model.move _ _ _ _ _ _ _ _ _ _) as (l1, r1) eqn:Em. cbn [fst snd] in E. injection E as _ E. destruct r1 as [s'|]; [|discriminate]. injection E as <-.
  change (cheap (s', S (snd x))) with (sheap K s') in *. set (q := option_map _ op) in Em. unfold Ps_Model.move in Em.
  assert (Ed : dindex (oacc (hget (sheap K (fst x)) (croot x))) i = Ok (e, j)) by (unfold dindex; unfold cheap in Eg; rewrite Eg; auto). rewrite Ed in Em.
  set (s1 := Ps_Model.remove_env K hl [croot x; e] (fst x)) in Em. destruct (ps_pre_inv K hl fuel x I) as (_ & _ & _ & _ & _ & Se). assert (H1 : sheap K s1 = cheap x) by apply (remove_heap K unit (mkSystem K unit hl None)).
  pose proof (ps_pre_fuel K hl fuel x R A (ps_pre_inv K hl fuel x I) N Et) as Hf.
  apply (move_held K o csvd1 csvd2 fuel (cheap x) R A (croot x) i e j (as_operator q s1) uf (sheap K s')); auto.
  { apply PsMove_Proof.as_operator_lawful. } { apply ps_operator_steadfast. apply answer_chosen. }
  pose proof N as (Dk & _). pose proof Eg as Eg'. apply (points_get K (cheap x) _ _ _ _ Dk) in Eg'.
  destruct (point_kid K (cheap x) R A (croot x) i e j N Et Eg' Le) as (k1 & cks & k2 & ->). rewrite <- H1 in N, Se |- *. fold (cheap x) in Ed. rewrite <- H1 in Ed.
  unfold Cache_Model.andthen in Em. destruct uf.
  - destruct (Ps_Model.unite_split_op K hl fuel csvd2 (croot x) i q s1) as (l2, r2) eqn:E2. injection Em as _ ->.
    apply (ps_unite_run s1 A (croot x) k1 k2 i e cks j q csvd2 l2 s'); auto; [apply network_shaped; auto|]. left. pose proof N as (_ & _ & _ & _ & Or & _). apply oriented_kids in Or. apply Or.
  - destruct (Ps_Model.split_unite_op K hl fuel csvd1 (croot x) i q s1) as (l2, r2) eqn:E2. injection Em as _ ->. apply (ps_split_run s1 A (croot x) k1 k2 i e cks j q csvd1 l2 s'); auto.
Qed.
Lemma psn_unite_ok x R A n i j (op : option T) l r : psn_inv x -> network (cheap x) R A -> top R = croot x ->
  dget (oacc (hget (cheap x) n)) i = Some (croot x, j) -> oleaf (hget (cheap x) n) = false -> ps_move K hl fuel csvd1 csvd2 answers n i op true x = (l, r) ->
  Ps_Proof.good K hl fuel l /\ forall x', r = Ok x' -> psn_inv x' /\ croot x' = croot x /\ shifted K (cheap x) R n i (croot x) (cheap x').
Proof.
  intros (I & Hd) N Et Eg Le E. pose proof (svd_some K o csvd2 Sv2) as S2.
  destruct (ps_unite_ok K hl fuel csvd1 csvd2 S2 answers T x R A n i j op l r I N Et Eg Le E) as (G & H). split; auto. intros x' ->.
  destruct (H x' eq_refl) as (I' & Er & Sh). split; auto. split; auto. rewrite Er.
  unfold ps_move, count in E. destruct (Ps_Model.move _ _ _ _ _ _ _ _ _ _) as (l1, r1) eqn:Em. cbn [fst snd] in E. injection E as _ E. destruct r1 as [s'|]; [|discriminate]. injection E as <-.
  change (cheap (s', S (snd x))) with (sheap K s') in *. set (q := option_map _ op) in Em. unfold Ps_Model.move in Em.
  assert (Ed : dindex (oacc (hget (sheap K (fst x)) n)) i = Ok (croot x, j)) by (unfold dindex; unfold cheap in Eg; rewrite Eg; auto). rewrite Ed in Em.
  set (s1 := Ps_Model.remove_env K hl [n; croot x] (fst x)) in Em. destruct (ps_pre_inv K hl fuel x I) as (_ & _ & _ & _ & _ & Se). assert (H1 : sheap K s1 = cheap x) by apply (remove_heap K unit (mkSystem K unit hl None)).
  pose proof (ps_pre_fuel K hl fuel x R A (ps_pre_inv K hl fuel x I) N Et) as Hf.
  apply (unite_held K o csvd2 fuel (cheap x) R A n i (croot x) j (as_operator q s1) (sheap K s')); auto.
  { apply PsMove_Proof.as_operator_lawful. } { apply ps_operator_steadfast. apply answer_chosen. }
  destruct (other_end K (cheap x) R A n i (croot x) j N Et Eg Le) as (k1 & k2 & c1 & c2 & A' & hx & ER & N' & Tw & Ax & Pm).
  pose proof (twins_shaped K n (croot x) hx (cheap x) _ A' Tw N') as Shp. rewrite <- H1 in Shp, Ax, Se |- *. fold (cheap x) in Ed. rewrite <- H1 in Ed.
  unfold Cache_Model.andthen in Em. destruct (Ps_Model.unite_split_op K hl fuel csvd2 n i q s1) as (l2, r2) eqn:E2. injection Em as _ ->.
  apply (ps_unite_run s1 A' n k1 k2 i (croot x) (c1 ++ c2) j q csvd2 l2 s'); auto.
Qed.
End PsNorm.

(** ** The generator *)
Section NormLoop.
Variable K : StarRing.
Variable hl : list (list (id * arr K)).
Variable fuel : nat.
Variables csvd1 csvd2 : arr K -> res (arr K * arr K * arr K).
Variable answers : nat -> list (list K) * list K.
Variable o : option K.
Variable Q : StarRing.
Variables half dt first : Q.
Variable R : tree.
Variable c : bool * bool.
Variable steps : option nat.
Variable root : id.
Hypothesis Hs : forall x A ev log x', psn_pre K hl fuel o x -> network (cheap x) R A -> top R = croot x ->
  ps_step K hl fuel csvd1 csvd2 answers Q half c dt x = (ev, (log, Ok x')) -> psn_inv K hl fuel o x' /\ croot x' = top R /\ exists A', network (cheap x') R A'.
Lemma loop_held : forall calls n ev x A ys log st, psn_pre K hl fuel o x -> network (cheap x) R A -> top R = croot x ->
  ps_loop K hl fuel csvd1 csvd2 answers Q half steps dt first c root calls n ev x = (ys, (log, st)) ->
  forall m t r x' ev', nth_error ys m = Some (t, r, x', ev') -> held K o (cheap x') (top R) /\ exists A', network (cheap x') R A'.
Proof.
  induction calls as [|calls IH]; intros n ev x A ys log st P N Et E.
  { cbn [ps_loop] in E. injection E as <- <- <-. intros [|m]; discriminate. }
  cbn [ps_loop] in E. destruct (match steps with None => false | Some m => m <=? n end); [injection E as <- <- <-; intros [|m]; discriminate|].
  assert (Z : forall t r x' ev', Some ((first + Propagate_Model.of_nat Q n * dt)%S, root, x, ev) = Some (t, r, x', ev') -> held K o (cheap x') (top R) /\ exists A', network (cheap x') R A').
  { intros t r x' ev' X. injection X as <- <- <- <-. rewrite Et. split; [apply P|eauto]. }
  destruct calls as [|calls]; [injection E as <- <- <-; intros [|[|m]]; [exact Z|discriminate..]|].
  destruct (ps_step K hl fuel csvd1 csvd2 answers Q half c dt x) as (ev', (lg, out)) eqn:Ep.
  destruct out as [x'|e]; [|injection E as <- <- <-; intros [|[|m]]; [exact Z|discriminate..]].
  destruct (Hs x A ev' lg x' P N Et Ep) as (I & Er & A' & N'). destruct (ps_loop K hl fuel csvd1 csvd2 answers Q half steps dt first c root (S calls) (S n) ev' x') as (ys', (l', st')) eqn:El.
  injection E as <- <- <-. intros [|m] t r x2 ev2 En; [apply (Z _ _ _ _ En)|]. cbn [nth_error] in En.
  apply (IH (S n) ev' x' A' ys' l' st' (psn_pre_inv K hl fuel o x' I) N' ltac:(congruence) El m t r x2 ev2 En).
Qed.
End NormLoop.
