(** Sums of expectation values over the terms. *)
From Coq Require Import String List Arith ZArith Bool Lia Reals Lra.
From Verif Require Import Py Alg ListX NdArray_Model NdArray_Proof Contract_Model Net_Model Net_Spec Env_Spec Link_Spec
  Link_Proof TEnv_Proof Acyc_Proof Trav_Proof EnvThm_Proof Cache_Model Cache_Spec Cache_Proof CacheExact_Proof Cplx Eom_Spec Eom_Proof Eom_Model EomRate_Proof Expect_Model.
Import ListNotations.
Local Open Scope nat_scope.
Local Open Scope list_scope.

Section Expect.
Variable K : StarRing.
Add Ring Kr : (r_theory K).
Variable fuel : nat.
Implicit Types h : heap K.

(** Everything but [aux] and caches. *)
Definition still h h' : Prop := core K h h' /\ forall x, oarr (hget h' x) = oarr (hget h x).
Lemma still_refl h : still h h.
Proof. split; [apply core_refl|auto]. Qed.
Lemma still_trans h1 h2 h3 : still h1 h2 -> still h2 h3 -> still h1 h3.
Proof. intros (A & B) (C & D). split; [eapply core_trans; eauto|]. intros x. rewrite D. auto. Qed.
Lemma still_sbc h h' : same_but_cache K h h' -> still h h'.
Proof. intros S. split; [apply core_sbc; auto|]. intros x. apply (sbc_fields K _ _ x S). Qed.
Lemma still_aux (f : obj K -> option (arr K)) l h : still h (set_all (fun o => put_aux (f o) o) h l).
Proof.
  revert h. induction l as [|n l IH]; intros h; [apply still_refl|]. cbn [set_all]. eapply still_trans; [|apply IH]. split.
  - apply core_modify. repeat split; auto.
  - intros x. destruct (Nat.lt_ge_cases n (length h)) as [Hl|Hl]; [|rewrite modify_out by auto; auto].
    destruct (Nat.eq_dec n x) as [->|Hx]; [rewrite hget_modify_eq by auto; auto|rewrite hget_modify_neq by auto; auto].
Qed.
Lemma matrix_element_still h n v h' : matrix_element fuel h n = Ok (v, h') -> still h h'.
Proof.
  unfold matrix_element. destruct (leaves fuel h n) as [l|]; [|discriminate]. cbn [bind]. intros E.
  eapply still_trans; [apply (still_aux (@oarr K))|apply still_sbc; eapply partial_env_frame; exact E].
Qed.
Lemma expection_still h n v h' : expection fuel h n = Ok (v, h') -> still h h'.
Proof.
  unfold expection. destruct (visitor _ _ _ _ _) as [l|]; [|discriminate]. cbn [bind]. intros E.
  eapply still_trans; [apply (still_aux (fun o => option_map (@arr_conj K) (oarr o)))|eapply matrix_element_still; exact E].
Qed.

(** [aux] is left alone. *)
Definition same_aux h h' : Prop := forall x, oaux (hget h' x) = oaux (hget h x).
Lemma same_aux_modify f h n : (forall o, oaux (f o) = oaux o) -> same_aux h (modify h n f).
Proof.
  intros H x. destruct (Nat.lt_ge_cases n (length h)) as [Hl|Hl]; [|rewrite modify_out by auto; auto].
  destruct (Nat.eq_dec n x) as [->|Hx]; [rewrite hget_modify_eq by auto; auto|rewrite hget_modify_neq by auto; auto].
Qed.
Lemma same_aux_set_all f l : (forall o, oaux (f o) = oaux o) -> forall h, same_aux h (set_all f h l).
Proof. intros H. induction l as [|n l IH]; intros h x; [auto|]. cbn [set_all]. rewrite IH. apply same_aux_modify. auto. Qed.
Lemma same_aux_leaves term : forall h h', set_leaves K h term = Ok h' -> same_aux h h'.
Proof.
  induction term as [|(l, a) term IH]; intros h h' E; cbn [set_leaves] in E; [injection E as <-; intros x; auto|].
  destruct (oleaf (hget h l)); [|discriminate]. intros x. rewrite (IH _ _ E). apply same_aux_modify. auto.
Qed.
Lemma aux_reset (o : obj K) : oaux (reset_obj K o) = oaux o.
Proof. unfold reset_obj. destruct (oleaf o); auto. Qed.

Lemma clean_still R h uc e n l term h1 h2 : (exists up, hangs h up R) -> clean K R h ->
  set_leaves K (set_all (load K uc e n) h l) term = Ok h1 -> still h1 h2 ->
  clean K R (set_all (reset_obj K) h2 (map fst term)).
Proof.
  intros (up & Hg) Cl E (S2 & S3) x Hx Lf. pose proof (hangs_lt K h _ _ Hg x Hx) as Lx.
  rewrite set_all_get in * by apply reset_idem.
  pose proof (core_set_all K (load K uc e n) l (kept_load K uc e n) h) as (L1 & C1).
  pose proof (core_set_leaves K term _ _ E) as (L2 & C2). destruct S2 as (L3 & C3).
  destruct (memb x (map fst term) && (x <? length h2)) eqn:M.
  - unfold reset_obj in *. destruct (oleaf (hget h2 x)) eqn:L; [auto|]. cbn [put_cache oleaf] in Lf. congruence.
  - destruct (C1 x) as (_ & P1 & _). destruct (C2 x) as (_ & P2 & _). destruct (C3 x) as (_ & P3 & _).
    rewrite S3. destruct (set_leaves_get K term _ _ E x ltac:(lia)) as (-> & _).
    assert (A1 : oarr (hget (set_all (load K uc e n) h l) x) = oarr (hget h x)).
    { rewrite set_all_get by apply load_idem. destruct (memb x l && (x <? length h)); auto. }
    rewrite A1, P1. replace (oleaf (hget h x)) with true by congruence. rewrite (Cl x Hx) by congruence. apply over_none.
    apply andb_false_iff in M. destruct M as [M|M]; [|apply Nat.ltb_ge in M; lia]. intros X. apply memb_In in X. congruence.
Qed.
Lemma set_leaves_some term : forall h, (forall l m, In (l, m) term -> oleaf (hget h l) = true) -> exists h', set_leaves K h term = Ok h'.
Proof.
  induction term as [|(l, a) term IH]; intros h H; cbn [set_leaves]; [eauto|]. rewrite (H l a) by (left; auto). apply IH.
  intros l' m' Hin. destruct (Nat.eq_dec l l') as [<-|Hn].
  - destruct (Nat.lt_ge_cases l (length h)); [rewrite hget_modify_eq by auto|rewrite modify_out by auto]; cbn; eapply (H l a); left; auto.
  - rewrite hget_modify_neq by auto. apply (H l' m'). right; auto.
Qed.

Section Loop.
Variables (R : tree) (h0 : heap K) (f : heap K -> id -> res (option (arr K) * heap K)) (Aux : heap K -> Prop) (val : list (id * arr K) -> K).
Hypothesis H0 : hangs h0 None R.
Hypothesis Hh : height R <= fuel.
Hypothesis Aux_same : forall h h', same_aux h h' -> Aux h -> Aux h'.
Variable P : list (id * arr K) -> Prop.
Hypothesis P_leaf : forall term, P term -> forall l m, In (l, m) term -> oleaf (hget h0 l) = true.
Hypothesis f_ok : forall h term, core K h0 h -> sees K R h (dressed h0 term) -> Aux h -> P term ->
  exists v h', f h (top R) = Ok (v, h') /\ value_of K v = val term /\ still h h' /\ Aux h'.

Definition vbody := fun (n : nat) (acc : K) (s : state K) =>
  bind (f (sheap K s) (sroot K s)) (fun r => let '(v, h) := r in Ok ((acc + value_of K v)%S, with_heap K s h)).
Lemma each_values : forall terms n acc s, Forall P terms -> core K h0 (sheap K s) -> clean K R (sheap K s) -> Aux (sheap K s) -> sroot K s = top R ->
  exists s', each_term K fuel false 0 vbody n terms acc s = Ok ((acc + sumL terms val)%S, s') /\ core K h0 (sheap K s') /\ sroot K s' = top R.
Proof.
  induction terms as [|term terms IH]; intros n acc s FP C Cl Ax Er.
  - exists s. cbn [each_term]. split; [f_equal; f_equal; rewrite sumL_nil; ring|auto].
  - apply Forall_cons_iff in FP. destruct FP as (Pt & FP). cbn [each_term]. change (n <? 0) with false. cbv iota.
    assert (H : hangs (sheap K s) None R) by (eapply core_hangs; eauto).
    pose proof (visitor_hangs K (sheap K s) R None fuel false H Hh) as V. cbn [option_map] in V. rewrite Er, V. cbn [bind].
    set (hs := set_all (load K false (senv K s) n) (sheap K s) (nids R)) in *.
    assert (C1 : core K h0 hs) by (eapply core_trans; [exact C|apply core_set_all, kept_load]).
    destruct (set_leaves_some term hs) as (h1 & E1).
    { intros l m Hin. destruct C1 as (_ & C1). destruct (C1 l) as (_ & -> & _). eapply P_leaf; eauto. }
    assert (C2 : core K h0 h1) by (eapply core_trans; [exact C1|eapply core_set_leaves; eauto]).
    assert (Se : sees K R h1 (dressed h0 term)) by (apply (begin_sees K R h0 (sheap K s) false (senv K s) n (nids R) term h1); auto; exists None; auto).
    assert (A1 : Aux h1).
    { eapply Aux_same; [|exact Ax]. intros x. rewrite (same_aux_leaves _ _ _ E1). apply same_aux_set_all. auto. }
    rewrite E1. cbn [bind]. destruct (f_ok h1 term C2 Se A1 Pt) as (v & h2 & E2 & Ev & S2 & A2).
    unfold vbody at 1. cbn [with_heap Cache_Model.sheap Cache_Model.sroot]. rewrite Er, E2. cbn [bind].
    destruct (IH (S n) (acc + value_of K v)%S (with_heap K (with_heap K (with_heap K s h1) h2) (set_all (reset_obj K) h2 (map fst term)))) as (s' & E' & C' & R'); auto;
    cbn [with_heap Cache_Model.sheap Cache_Model.sroot Cache_Model.senv].
    + eapply core_trans; [exact C2|]. eapply core_trans; [apply S2|apply core_set_all, kept_reset].
    + apply (clean_still R (sheap K s) false (senv K s) n (nids R) term h1 h2); auto. exists None; auto.
    + eapply Aux_same; [|exact A2]. apply same_aux_set_all. apply aux_reset.
    + exists s'. split; [|auto]. cbn [with_heap Cache_Model.sheap Cache_Model.sroot Cache_Model.senv] in E'. rewrite <- Er in *. rewrite E'. f_equal. f_equal. rewrite sumL_cons, Ev. ring.
Qed.
Lemma sum_values terms s : Forall P terms -> core K h0 (sheap K s) -> Aux (sheap K s) -> sroot K s = top R ->
  exists s', sum_terms K fuel f terms s = Ok (sumL terms val, s') /\ core K h0 (sheap K s') /\ sroot K s' = top R.
Proof.
  intros FP C Ax Er. assert (H : hangs (sheap K s) None R) by (eapply core_hangs; eauto).
  unfold sum_terms. pose proof (visitor_hangs K (sheap K s) R None fuel true H Hh) as V. cbn [option_map] in V. rewrite Er, V. cbn [bind]. fold vbody.
  destruct (each_values terms 0 r0 (with_heap K s (set_all (reset_obj K) (sheap K s) (ids R)))) as (s' & E & C' & R'); auto;
  cbn [with_heap Cache_Model.sheap Cache_Model.sroot Cache_Model.senv]; auto.
  - eapply core_trans; [exact C|apply core_set_all, kept_reset].
  - apply reset_clean. eauto.
  - eapply Aux_same; [|exact Ax]. apply same_aux_set_all, aux_reset.
  - exists s'. split; [|auto]. rewrite E. f_equal. f_equal. ring.
Qed.
End Loop.

(** Heaps with the matrices of a term. *)
Section Term.
Variables (R : tree) (h0 : heap K) (A : id -> arr K).
Hypothesis H0 : hangs h0 None R.
Hypothesis NS : no_self_slot h0.
Hypothesis Ax0 : oaxis (hget h0 (top R)) = None.
Hypothesis Hh : height R <= fuel.
Hypothesis F : fits A None 0 R.
Hypothesis N : forall n, In n (nids R) -> oarr (hget h0 n) = Some (A n).

Lemma core_ns h : core K h0 h -> no_self_slot h.
Proof. intros (_ & C) n i H. destruct (C n) as (_ & _ & _ & _ & E & _). unfold no_self_slot in NS. apply (NS n i). rewrite <- E. exact H. Qed.
Lemma core_arr h n : core K h0 h -> In n (nids R) -> oarr (hget h n) = Some (A n).
Proof. intros (_ & C) Hn. destruct (C n) as (_ & _ & _ & _ & _ & E). rewrite E; auto. eapply nids_inner; eauto. Qed.
Lemma term_lmat h term l p q : sees K R h (dressed h0 term) -> In l (lids R) -> lmat h false l p q = factor term l p q.
Proof.
  intros Se Hl. destruct (Se l (lids_ids l R Hl)) as (E & _). rewrite <- (dressed_lmat K h0 term l p q).
  - unfold lmat, leafarr. rewrite E. reflexivity.
  - eapply hangs_lt; [exact H0|]. apply lids_ids; auto.
  - eapply lids_leaf; eauto.
Qed.
Lemma term_fits h term : sees K R h (dressed h0 term) ->
  Forall2 (fun l d => match last_of term l with None => True | Some m => wf m /\ shape m = [d; d] end) (lids R) (ldims A None 0 R) ->
  Forall2 (fun l d => leaf_fits h false l d d) (lids R) (ldims A None 0 R).
Proof.
  intros Se Fl. pose proof (dressed_fits K h0 R A term None None 0 H0 Fl) as X.
  assert (Q : forall l, In l (lids R) -> oarr (hget (dressed h0 term) l) = oarr (hget h l)) by (intros l Hl; apply Se, lids_ids, Hl).
  clear -X Q. induction X as [|l d ls ds Hl X IH]; constructor.
  - unfold leaf_fits, leafarr in *. rewrite <- (Q l) by (left; auto). exact Hl.
  - apply IH. intros l' Hl'. apply Q. right; auto.
Qed.
Lemma expection_term h term : core K h0 h -> sees K R h (dressed h0 term) -> suits h0 R A term ->
  exists v h', expection fuel h (top R) = Ok (v, h') /\ value_of K v = element A (fun n => arr_conj (A n)) R term /\ still h h' /\ True.
Proof.
  intros C Se (Sl & Fl). assert (H : hangs h None R) by (eapply core_hangs; eauto).
  destruct (expection_ok K h R fuel A H (core_ns h C)) as (c & h' & E & _ & G); auto.
  - destruct C as (_ & C). destruct (C (top R)) as (_ & _ & -> & _). exact Ax0.
  - intros n Hn. apply core_arr; auto.
  - apply (term_fits h term); auto.
  - exists (Some c), h'. split; auto. split; [|split; auto; eapply expection_still; eauto]. cbn [value_of]. rewrite G. unfold element. rewrite ldims_conj.
    apply sumL_ext. intros v. apply sumL_ext. intros w. f_equal.
    + f_equal. unfold dense. rewrite amp_conj. reflexivity.
    + apply prodL_ext_in. intros l Hl. apply term_lmat; auto.
Qed.
Lemma Forall2_weaken {X Y} (P Q : X -> Y -> Prop) ls ds : (forall x y, P x y -> Q x y) -> Forall2 P ls ds -> Forall2 Q ls ds.
Proof. intros I. induction 1; constructor; auto. Qed.
Lemma Forall2_combine_diag {X} (Q : X -> nat -> Prop) ls ds : Forall2 Q ls ds -> Forall2 (fun l d => Q l (fst d) /\ fst d = snd d) ls (combine ds ds).
Proof. induction 1; constructor; auto. Qed.
Lemma matrix_element_term B h term : fits B None 0 R -> ldims B None 0 R = ldims A None 0 R -> core K h0 h -> sees K R h (dressed h0 term) -> suits h0 R A term ->
  (forall n, In n (nids R) -> oaux (hget h n) = Some (B n)) ->
  exists v h', matrix_element fuel h (top R) = Ok (v, h') /\ value_of K v = element A B R term /\ still h h' /\ (forall n, In n (nids R) -> oaux (hget h' n) = Some (B n)).
Proof.
  intros FB EB C Se (Sl & Fl) Nb. assert (H : hangs h None R) by (eapply core_hangs; eauto).
  destruct (matrix_element_ok K h R fuel A B H (core_ns h C)) as (c & h' & E & _ & G); auto.
  - destruct C as (_ & C). destruct (C (top R)) as (_ & _ & -> & _). exact Ax0.
  - intros n Hn. split; [apply core_arr; auto|auto].
  - rewrite EB. eapply Forall2_weaken; [|apply Forall2_combine_diag, (term_fits h term); eauto]. cbv beta. intros l d (X & E). rewrite <- E. exact X.
  - exists (Some c), h'. split; auto. split; [|split; [eapply matrix_element_still; eauto|]].
    + cbn [value_of]. rewrite G. unfold element. apply sumL_ext. intros v. apply sumL_ext. intros w. f_equal. apply prodL_ext_in. intros l Hl. apply term_lmat; auto.
    + intros n Hn. unfold matrix_element in E. rewrite leaves_ok in E by (auto; try apply core_ns; auto; destruct C as (_ & C); destruct (C (top R)) as (_ & _ & -> & _); exact Ax0). cbn [bind] in E. apply partial_env_frame in E.
      destruct (sbc_fields K _ _ n E) as (_ & _ & Eaux & _). rewrite Eaux. rewrite set_all_notin; auto.
      intros Hl. pose proof (nids_inner _ h R None H n Hn). pose proof (lids_leaf _ h R None H n Hl). congruence.
Qed.
End Term.
End Expect.

Section Self.
Variable K : StarRing.
Add Ring Kr2 : (r_theory K).
Lemma element_ext (A A' B B' : id -> arr K) t term : (forall n, A' n = A n) -> (forall n, B' n = B n) -> element A' B' t term = element A B t term.
Proof.
  intros E E'. rewrite (element_arrays K A' B B') by auto. unfold element.
  assert (EL : ldims A' None 0 t = ldims A None 0 t) by (apply ldims_agree; intros; now rewrite E).
  rewrite EL. apply sumL_ext. intros v. apply sumL_ext. intros w. unfold dense. rewrite (amp_arrays K A A') by auto. reflexivity.
Qed.
Lemma self_form (A : id -> arr K) r ks terms :
  sumL terms (element A (fun n => arr_conj (A n)) (Nd r ks)) = form K A r (Nd r ks) terms (A r) (A r).
Proof.
  unfold form. apply sumL_ext. intros term. symmetry. apply element_ext; intros n; unfold exchanged, varied; destruct (Nat.eqb_spec n r) as [->|]; auto.
Qed.
Lemma self_adjoint sg (A : id -> arr K) r ks terms : adjoint_to sg terms A (Nd r ks) ->
  let E := sumL terms (element A (fun n => arr_conj (A n)) (Nd r ks)) in E = (sg * rconj E)%S.
Proof. intros H E. unfold E. rewrite self_form. apply form_adjoint; auto. Qed.
End Self.

Section CExpect.
Notation CC := C_star.
Add Ring Cring3 : (r_theory C_star).
Variables (T : Type) (sys : system CC T) (fuel : nat) (s : state CC) (ks : list (nat * tree * nat)) (A : id -> arr CC).
Let r := sroot CC s.
Let R0 := Nd r ks.
Hypothesis H : hangs (sheap CC s) None R0.
Hypothesis NS : no_self_slot (sheap CC s).
Hypothesis Ax : oaxis (hget (sheap CC s) r) = None.
Hypothesis Hh : height R0 <= fuel.
Hypothesis F : fits A None 0 R0.
Hypothesis N : forall n, In n (nids R0) -> oarr (hget (sheap CC s) n) = Some (A n).

Lemma expection_value (close : R -> bool) (normalized : bool) op time : Forall (suits (sheap CC s) R0 A) (visited CC T sys op time) ->
  let E : C_star := sumL (visited CC T sys op time) (element A (fun n => arr_conj (A n)) R0) in
  exists n : R, (0 <= n)%R /\ sumL (indices (ldims A None 0 R0)) (fun v => rmul (dense A R0 v) (rconj (dense A R0 v))) = RtoC n /\
  let E' : C_star := if normalized then rmul E (Cinv (RtoC n)) else E in
  result (ml_expection close sys fuel normalized op time s) = if close (snd E') then Ok (fst E') else Raise AssertionError.
Proof.
  intros FP E. destruct (sum_norm2 (indices (ldims A None 0 R0)) (fun v => dense A R0 v)) as (n & En & Pn & _). exists n. split; auto.
  assert (En' : sumL (indices (ldims A None 0 R0)) (fun v => rmul (dense A R0 v) (rconj (dense A R0 v))) = RtoC n).
  { rewrite <- En. apply sumL_ext. intros v. ring. }
  split; auto. intros E'.
  destruct (sum_values CC fuel R0 (sheap CC s) (expection fuel) (fun _ => True) (element A (fun n => arr_conj (A n)) R0) H Hh (fun _ _ _ _ => I)
    (suits (sheap CC s) R0 A) ltac:(intros term (X & _); exact X)) with (terms := visited CC T sys op time) (s := s) as (s' & E1 & C1 & R1); auto.
  { intros h term C Se _ Su. apply (expection_term CC fuel R0 (sheap CC s) A); auto. }
  { apply core_refl. }
  unfold ml_expection. rewrite E1. cbn [bind]. fold E. destruct normalized.
  - destruct (global_square_ok CC (sheap CC s') R0 fuel A) as (c & h' & Eg & _ & Gg); auto.
    + eapply core_hangs; eauto.
    + apply (core_ns CC (sheap CC s)); auto.
    + destruct C1 as (_ & C1). destruct (C1 (top R0)) as (_ & _ & -> & _). exact Ax.
    + intros m Hm. apply (core_arr CC R0 (sheap CC s) A); auto.
    + rewrite R1, Eg. cbn [bind value_of]. rewrite Gg, En'. fold E'. destruct (close (snd E')); reflexivity.
  - cbn [bind]. fold E'. destruct (close (snd E')); reflexivity.
Qed.
End CExpect.
