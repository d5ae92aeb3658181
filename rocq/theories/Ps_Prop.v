(** Property C79: the projector splitting propagation of propagate2.py. *)
From Coq Require Import String List Arith ZArith Bool Lia.
From Verif Require Import Py Alg ListX NdArray_Model Contract_Model Net_Model Net_Spec Trav_Proof Acyc_Proof Env_Spec Move_Spec
  Sweep_Spec Link_Spec Link_Proof State_Spec State_Proof Split_Proof Env_Prop Move_Prop Cache_Model Cache_Spec Cache_Proof CacheExact_Proof Cache_Prop Eom_Spec Eom_Prop
  TEnv_Proof EnvThm_Proof Relink_Proof Move_Proof MoveRoot_Proof Ps_Spec PsRight_Proof.
From Verif Require Ps_Model Ps_Proof PsMove_Proof.
Import ListNotations.
Local Open Scope nat_scope.
Local Open Scope list_scope.

(** ** C79: environments of the first term are taken for all terms *)

(** Throughout: a program made of [_form_env], propagations of the root and moves of the root,
    the first being [_form_env]; [log] holds the states at the calls of [diff] by the solver. *)

(** Each call of [diff] returns what [diff] of ml.py returns, with nothing stored, for other
    terms: at the leaves joined to the root the matrices of the term, at all other
    leaves those of the first term.  [ks] is the tree that the links of the heap form. *)
Theorem C79_terms_are_mixed :
  forall (K : StarRing) hl fuel csvd1 csvd2 (s0 : state K) R A cs log out,
    some_svd csvd1 -> some_svd csvd2 ->
    network (sheap K s0) R A -> top R = sroot K s0 -> S (length (ids R)) <= fuel -> seated (sheap K s0) hl ->
    Ps_Model.exec K hl fuel csvd1 csvd2 (Ps_Model.Form K :: cs) s0 = (log, out) -> inner_moves log ->
    forall s cache t y, In (Called K unit s cache t y) log ->
    (exists ks, hangs (sheap K s) None (Nd (sroot K s) ks)) /\
    forall ks, hangs (sheap K s) None (Nd (sroot K s) ks) ->
      result (Ps_Model.diff K hl fuel (sroot K s) y s) =
      result (diff K unit (mkSystem K unit (mixtures ks hl) None) fuel (sroot K s) false tt y (forget s)).
Proof.
  intros K hl fuel csvd1 csvd2 s0 R A cs log out S1 S2 N Et Hf Se E IM s cache t y Hin.
  destruct (PsMove_Proof.program_good K hl fuel csvd1 csvd2 S1 S2 s0 R A cs log out N Et Hf Se E IM s cache t y Hin) as (R' & Rd).
  destruct (Ps_Proof.rd_top _ _ _ R' s Rd) as (ks & ER & _). pose proof (Ps_Proof.rd_hangs _ _ _ R' s Rd) as H. rewrite ER in H. split; [eauto|].
  intros ks' H'. pose proof (hangs_det K _ _ _ _ H H' eq_refl) as Q. injection Q as <-.
  apply (Ps_Proof.diff_mixed K hl fuel R' ks s y Rd ER).
Qed.
Print Assumptions C79_terms_are_mixed.

(** In terms of the state: paired with [f], the vector returned gives the sum of the matrix
    elements of these mixed terms. *)
Theorem C79_matrix_elements :
  forall (K : StarRing) hl fuel csvd1 csvd2 (s0 : state K) R A0 cs log out,
    some_svd csvd1 -> some_svd csvd2 ->
    network (sheap K s0) R A0 -> top R = sroot K s0 -> S (length (ids R)) <= fuel -> seated (sheap K s0) hl ->
    Ps_Model.exec K hl fuel csvd1 csvd2 (Ps_Model.Form K :: cs) s0 = (log, out) -> inner_moves log ->
    forall s cache t y, In (Called K unit s cache t y) log ->
    forall ks A, let r := sroot K s in let sh := shape (A r) in
    standing fuel (sheap K s) r ks A hl -> length y = prod sh ->
    exists ans, result (Ps_Model.diff K hl fuel r y s) = Ok ans /\ length ans = length y /\
      forall f, wf f -> shape f = sh ->
        pairing f (mkArr sh ans) = sumL (mixtures ks hl) (element (exchanged A r (mkArr sh y)) (varied A r f) (Nd r ks)).
Proof.
  intros K hl fuel csvd1 csvd2 s0 R A0 cs log out S1 S2 N Et Hf Se E IM s cache t y Hin ks A r sh St L.
  destruct (C79_terms_are_mixed K hl fuel csvd1 csvd2 s0 R A0 cs log out S1 S2 N Et Hf Se E IM s cache t y Hin) as (_ & X).
  pose proof St as (H & _). unfold r. rewrite (X ks H).
  set (sys := mkSystem K unit (mixtures ks hl) None).
  assert (Al : all_terms K unit sys tt = mixtures ks hl) by (unfold all_terms; cbn [sys f_list h_list]; apply app_nil_r).
  rewrite <- Al. apply C66_variational; auto. rewrite Al. apply standing_mixed. auto.
Qed.
Print Assumptions C79_matrix_elements.

(** The derivative is that of the terms themselves if all terms have the same matrices at the leaves
    not joined to the root. *)
Theorem C79_right_if_terms_agree :
  forall (K : StarRing) hl fuel csvd1 csvd2 (s0 : state K) R A cs log out,
    some_svd csvd1 -> some_svd csvd2 ->
    network (sheap K s0) R A -> top R = sroot K s0 -> S (length (ids R)) <= fuel -> seated (sheap K s0) hl ->
    Ps_Model.exec K hl fuel csvd1 csvd2 (Ps_Model.Form K :: cs) s0 = (log, out) -> inner_moves log ->
    forall s cache t y, In (Called K unit s cache t y) log ->
    forall ks, hangs (sheap K s) None (Nd (sroot K s) ks) ->
    (forall term l, In term hl -> In l (ids (Nd (sroot K s) ks)) -> oleaf (hget (sheap K s) l) = true -> joined ks l = false ->
       last_of term l = last_of (hd [] hl) l) ->
    result (Ps_Model.diff K hl fuel (sroot K s) y s) =
    result (diff K unit (mkSystem K unit hl None) fuel (sroot K s) false tt y (forget s)).
Proof.
  intros K hl fuel csvd1 csvd2 s0 R A cs log out S1 S2 N Et Hf Se E IM s cache t y Hin ks' H' Ag.
  destruct (PsMove_Proof.program_good K hl fuel csvd1 csvd2 S1 S2 s0 R A cs log out N Et Hf Se E IM s cache t y Hin) as (R' & Rd).
  destruct (Ps_Proof.rd_top _ _ _ R' s Rd) as (ks & ER & _). pose proof (Ps_Proof.rd_hangs _ _ _ R' s Rd) as H. rewrite ER in H.
  pose proof (hangs_det K _ _ _ _ H H' eq_refl) as Q. injection Q as <-. apply (diff_right K hl fuel R' ks s y Rd ER). rewrite ER. exact Ag.
Qed.
Print Assumptions C79_right_if_terms_agree.

(** So it is right with one term, and when all neighbours of the root are leaves. *)
Theorem C79_right_for_one_term_or_tensor :
  forall (K : StarRing) hl fuel csvd1 csvd2 (s0 : state K) R A cs log out,
    some_svd csvd1 -> some_svd csvd2 ->
    network (sheap K s0) R A -> top R = sroot K s0 -> S (length (ids R)) <= fuel -> seated (sheap K s0) hl ->
    Ps_Model.exec K hl fuel csvd1 csvd2 (Ps_Model.Form K :: cs) s0 = (log, out) -> inner_moves log ->
    forall s cache t y, In (Called K unit s cache t y) log ->
    length hl <= 1 \/ (forall i e j, In (i, (e, j)) (oacc (hget (sheap K s) (sroot K s))) -> oleaf (hget (sheap K s) e) = true) ->
    result (Ps_Model.diff K hl fuel (sroot K s) y s) =
    result (diff K unit (mkSystem K unit hl None) fuel (sroot K s) false tt y (forget s)).
Proof.
  intros K hl fuel csvd1 csvd2 s0 R A cs log out S1 S2 N Et Hf Se E IM s cache t y Hin Or.
  destruct (PsMove_Proof.program_good K hl fuel csvd1 csvd2 S1 S2 s0 R A cs log out N Et Hf Se E IM s cache t y Hin) as (R' & Rd).
  destruct (Ps_Proof.rd_top _ _ _ R' s Rd) as (ks & ER & _). pose proof (Ps_Proof.rd_hangs _ _ _ R' s Rd) as H. rewrite ER in H.
  apply (diff_right K hl fuel R' ks s y Rd ER). intros term l Ht Hl Ll J. destruct Or as [Or|Or].
  - destruct hl as [|t0 [|t1 l']]; [destruct Ht| |cbn in Or; lia]. destruct Ht as [<-|[]]. reflexivity.
  - exfalso. rewrite ER in Hl. cbn [ids] in Hl. destruct Hl as [<-|Hl].
    + inversion H; congruence.
    + apply in_flat_map in Hl. destruct Hl as (k & Hk & Hl).
      assert (Ed : edge_in (Nd (sroot K s) ks) (sroot K s) (k_i k) (k_t k) (k_j k)) by (apply edge_kid; auto).
      destruct (edge_down_acc K _ _ _ _ _ _ Ed None H) as (Ha & _). apply Or in Ha.
      rewrite (hangs_leafness K _ _ _ (edge_hangs K _ _ None H _ _ _ _ Ed)) in Ha.
      destruct (k_t k) as [l'|] eqn:Ek; [|discriminate]. destruct Hl as [<-|[]].
      assert (J' : joined ks l' = true) by (unfold joined; apply existsb_exists; exists k; split; auto; unfold k_t in Ek; rewrite Ek; apply Nat.eqb_refl). congruence.
Qed.
Print Assumptions C79_right_for_one_term_or_tensor.

(** When [diff] is called, every entry of [env_] for a term of [h_list] and an axis that leads away
    from the root to a leaf is the environment of this term; to a tensor, that of the first term. *)
Theorem C79_entries :
  forall (K : StarRing) hl fuel csvd1 csvd2 (s0 : state K) R A cs log out,
    some_svd csvd1 -> some_svd csvd2 ->
    network (sheap K s0) R A -> top R = sroot K s0 -> S (length (ids R)) <= fuel -> seated (sheap K s0) hl ->
    Ps_Model.exec K hl fuel csvd1 csvd2 (Ps_Model.Form K :: cs) s0 = (log, out) -> inner_moves log ->
    forall s cache t y, In (Called K unit s cache t y) log ->
      exists R', hangs (sheap K s) None R' /\ top R' = sroot K s /\
        forall n term b i x j v, nth_error hl n = Some term -> In (b, i, x, j) (edges R') ->
          senv K s n b i = Some v ->
          fresh_env fuel (sheap K s) b (if oleaf (hget (sheap K s) x) then term else hd [] hl) i = Ok v.
Proof.
  intros K hl fuel csvd1 csvd2 s0 R A cs log out S1 S2 N Et Hf Se E IM s cache t y Hin.
  destruct (PsMove_Proof.program_good K hl fuel csvd1 csvd2 S1 S2 s0 R A cs log out N Et Hf Se E IM s cache t y Hin) as (R' & Rd).
  exists R'. split; [apply Rd|]. destruct (Ps_Proof.rd_top _ _ _ R' s Rd) as (ks & ER & _). split; [rewrite ER; auto|].
  intros n term b i x j v. apply entry_fresh; auto.
Qed.
Print Assumptions C79_entries.

(** [diff] leaves the vector in the root, and the arrays of all other tensors, names,
    links, parent axes and stored environments as they were. *)
Theorem C79_vector_stays :
  forall (K : StarRing) hl fuel csvd1 csvd2 (s0 : state K) R A cs log out,
    some_svd csvd1 -> some_svd csvd2 ->
    network (sheap K s0) R A -> top R = sroot K s0 -> S (length (ids R)) <= fuel -> seated (sheap K s0) hl ->
    Ps_Model.exec K hl fuel csvd1 csvd2 (Ps_Model.Form K :: cs) s0 = (log, out) -> inner_moves log ->
    forall s cache t y, In (Called K unit s cache t y) log ->
    forall ans s', Ps_Model.diff K hl fuel (sroot K s) y s = Ok (ans, s') ->
      sroot K s' = sroot K s /\ senv K s' = senv K s /\
      (exists a, oarr (hget (sheap K s) (sroot K s)) = Some a /\ oarr (hget (sheap K s') (sroot K s)) = Some (mkArr (shape a) y)) /\
      forall x, let o := hget (sheap K s) x in let o' := hget (sheap K s') x in
        oname o' = oname o /\ oleaf o' = oleaf o /\ oaxis o' = oaxis o /\ onorm o' = onorm o /\ oacc o' = oacc o /\
        (oleaf o = false -> x <> sroot K s -> oarr o' = oarr o).
Proof.
  intros K hl fuel csvd1 csvd2 s0 R A cs log out S1 S2 N Et Hf Se E IM s cache t y Hin ans s' Ed.
  destruct (PsMove_Proof.program_good K hl fuel csvd1 csvd2 S1 S2 s0 R A cs log out N Et Hf Se E IM s cache t y Hin) as (R' & Rd).
  destruct (Ps_Proof.rd_top _ _ _ R' s Rd) as (ks & ER & _). pose proof (Ps_Proof.rd_hangs _ _ _ R' s Rd) as H. rewrite ER in H.
  destruct (Ps_Proof.diff_mixed K hl fuel R' ks s y Rd ER) as (_ & X). destruct (X ans s' Ed) as ((_ & Er & _) & Ev & a & b & Ea & Eb & _ & C).
  assert (Lr : sroot K s < length (sheap K s)) by (apply (hangs_lt K _ _ _ H); left; auto).
  assert (Ll : oleaf (hget (sheap K s) (sroot K s)) = false) by (inversion H; auto).
  split; auto. split; auto. split.
  - exists a. split; auto. destruct (C (sroot K s)) as (_ & _ & _ & _ & _ & Q). rewrite hget_modify_eq in Q by auto. rewrite Q by auto.
    cbn. unfold reshape in Eb. destruct (_ =? _); [|discriminate]. injection Eb as <-. reflexivity.
  - intros x. cbn zeta. destruct (C x) as (A1 & A2 & A3 & A4 & A5 & A6).
    destruct (Nat.eq_dec x (sroot K s)) as [->|Nx]; [rewrite hget_modify_eq in * by auto|rewrite hget_modify_neq in * by auto]; repeat split; auto.
    intros _ Q. congruence.
Qed.
Print Assumptions C79_vector_stays.

(** The network of C23 with a term at the leaf joined to the root and one at the other leaf. *)
Definition ps_terms : list (list (nat * arr Z_star)) := [[(2, sz)]; [(3, zm 0 1 1 0)]].
Definition ps_step : list (Ps_Model.command Z_star) :=
  [Ps_Model.Form _; Ps_Model.Prop_ _ [y1; y2] y1; Ps_Model.Move _ 0 None false; Ps_Model.Prop_ _ [y1] y2;
   Ps_Model.Move _ 0 (Some ([y2], y1)) false; Ps_Model.Prop_ _ [y1] y1].
Definition ps_answers fuel hl (l : list (record Z_star unit)) :=
  flat_map (fun x => match x with
    | Called _ _ s c t y =>
        let f r := match r with Ok z => Some z | Raise _ => None end in
        [(sroot _ s, f (result (Ps_Model.diff Z_star hl fuel (sroot _ s) y s)),
          f (result (diff Z_star unit (mkSystem _ _ hl None) fuel (sroot _ s) false tt y (forget s))))]
    | Moved _ _ _ _ => []
    end) l.
Definition ps_moves (l : list (record Z_star unit)) :=
  map (fun x => match x with
    | Called _ _ _ _ _ _ => None
    | Moved _ _ s i => Some (oacc (hget (sheap _ s) (sroot _ s)), i, map (fun x => oleaf (hget (sheap _ s) x)) [0; 1])
    end) l.
Lemma ps_seated : seated tw_h ps_terms.
Proof.
  intros term l m Ht Hl. cbn in Ht. destruct Ht as [<-|[<-|[]]]; cbn in Hl; destruct Hl as [Q|[]]; injection Q as <- <-; cbn; split; auto; lia.
Qed.
Lemma ps_inner l : ps_moves l = map tw_move [None; None; Some true; None; Some false; None; None] -> inner_moves l.
Proof.
  intros E s i Hin.
  assert (X : In (Some (oacc (hget (sheap _ s) (sroot _ s)), i, map (fun x => oleaf (hget (sheap _ s) x)) [0; 1])) (ps_moves l))
    by (apply in_map_iff; exists (Moved Z_star unit s i); auto).
  rewrite E in X. cbn [map In tw_move] in X. destruct X as [X|[X|[X|[X|[X|[X|[X|[]]]]]]]]; try discriminate X.
  - injection X as E1 E2 E3 E4. exists 1, 0. rewrite <- E1, <- E2. auto.
  - injection X as E1 E2 E3 E4. exists 0, 0. rewrite <- E1, <- E2. auto.
Qed.
Local Notation ps_values :=
  [(0%nat, Some [2; 0; 6; 0], Some [4; 2; 4; -2]); (0%nat, Some [4; 0; 2; 0], Some [3; 1; 3; -1]);
   (1%nat, Some [3; 3; -7; -7], Some [3; 3; 1; -1]); (5%nat, Some [4; 0; 2; -2], Some [3; 1; 3; -1]);
   (0%nat, Some [2; 0; 6; 0], Some [4; 2; 4; -2])]%Z.
Lemma ps_run : match Ps_Model.exec Z_star ps_terms 6 plain_svd plain_svd ps_step tw_s with
  | (l, Ok s) => inner_moves l /\ ps_answers 6 ps_terms l = ps_values
  | _ => False
  end.
Proof.
  assert (X : match Ps_Model.exec Z_star ps_terms 6 plain_svd plain_svd ps_step tw_s with
    | (l, Ok s) => (ps_moves l, ps_answers 6 ps_terms l) | (l, Raise _) => ([], []) end =
    (map tw_move [None; None; Some true; None; Some false; None; None], ps_values)) by (vm_compute; reflexivity).
  destruct (Ps_Model.exec Z_star ps_terms 6 plain_svd plain_svd ps_step tw_s) as (l, [s|e]); [|discriminate X].
  injection X as X1 X2. split; auto. apply ps_inner; auto.
Qed.
(** For each call the root, what [diff] returns, and the derivative for the terms themselves. *)
Example C79_example :
  network (sheap _ tw_s) tw_t tw_a /\ top tw_t = sroot _ tw_s /\ S (length (ids tw_t)) <= 6 /\ some_svd (@plain_svd Z_star) /\
  seated (sheap _ tw_s) ps_terms /\ mixtures tw_ks ps_terms = [[(2, sz)]; []] /\
  match Ps_Model.exec Z_star ps_terms 6 plain_svd plain_svd ps_step tw_s with
  | (l, Ok s) => inner_moves l /\ ps_answers 6 ps_terms l = ps_values
  | _ => False
  end.
Proof.
  split; [apply tw_network|]. split; [reflexivity|]. split; [cbn; lia|]. split; [apply plain_some|]. split; [exact ps_seated|]. split; [reflexivity|].
  exact ps_run.
Qed.
Lemma ps_standing : standing 6 tw_h 0 tw_ks tw_a ps_terms.
Proof.
  destruct tw_standing as (A & B & C & D & E & F & _). repeat (split; [assumption|]).
  repeat constructor; cbn; try (intros l m Hl; repeat (destruct Hl as [Hl|Hl]; [injection Hl as <- <-; reflexivity|]); destruct Hl).
Qed.
(** The first call, paired with [f = 5 6 7 8]; the terms themselves would give 44. *)
Example C79_example_elements :
  standing 6 (sheap _ tw_s) (sroot _ tw_s) tw_ks tw_a ps_terms /\ length y1 = prod (shape (tw_a 0)) /\
  pairing (zm 5 6 7 8) (mkArr [2; 2] ([2; 0; 6; 0] : list Z_star)%Z) = 52%Z /\
  sumL (mixtures tw_ks ps_terms) (element (exchanged tw_a 0 (mkArr [2; 2] y1)) (varied tw_a 0 (zm 5 6 7 8)) (Nd 0 tw_ks)) = 52%Z /\
  sumL ps_terms (element (exchanged tw_a 0 (mkArr [2; 2] y1)) (varied tw_a 0 (zm 5 6 7 8)) (Nd 0 tw_ks)) = 44%Z.
Proof. split; [exact ps_standing|]. split; [reflexivity|]. vm_compute. auto. Qed.
(** One term: both agree. *)
Example C79_example_one_term :
  match Ps_Model.exec Z_star [[(3, zm 0 1 1 0); (2, sz)]] 6 plain_svd plain_svd ps_step tw_s with
  | (l, Ok s) => ps_answers 6 [[(3, zm 0 1 1 0); (2, sz)]] l =
      [(0%nat, Some [3; -4; 1; -2], Some [3; -4; 1; -2]); (0%nat, Some [1; -1; 2; 0], Some [1; -1; 2; 0]);
       (1%nat, Some [2; 1; -4; -3], Some [2; 1; -4; -3]); (5%nat, Some [1; -1; 2; 0], Some [1; -1; 2; 0]);
       (0%nat, Some [3; -4; 1; -2], Some [3; -4; 1; -2])]%Z
  | _ => False
  end.
Proof. vm_compute. reflexivity. Qed.

(** That the derivative is that of the terms of [h_list] is false in general. *)
Theorem C79_derivative_of_the_terms_refuted :
  ~ (forall (K : StarRing) hl fuel csvd1 csvd2 (s0 : state K) R A cs log out,
    some_svd csvd1 -> some_svd csvd2 ->
    network (sheap K s0) R A -> top R = sroot K s0 -> S (length (ids R)) <= fuel -> seated (sheap K s0) hl ->
    Ps_Model.exec K hl fuel csvd1 csvd2 (Ps_Model.Form K :: cs) s0 = (log, out) -> inner_moves log ->
    forall s cache t y, In (Called K unit s cache t y) log ->
      result (Ps_Model.diff K hl fuel (sroot K s) y s) =
      result (diff K unit (mkSystem K unit hl None) fuel (sroot K s) false tt y (forget s))).
Proof.
  intros Q. pose proof ps_run as X.
  specialize (Q Z_star ps_terms 6 plain_svd plain_svd tw_s tw_t tw_a (tl ps_step)).
  change (Ps_Model.Form Z_star :: tl ps_step) with ps_step in Q.
  destruct (Ps_Model.exec Z_star ps_terms 6 plain_svd plain_svd ps_step tw_s) as (l, [s|e]); [|destruct X]. destruct X as (IM & X).
  specialize (Q l (Ok s) plain_some plain_some tw_network eq_refl ltac:(cbn; lia) ps_seated eq_refl IM).
  assert (G : Forall (fun p => snd (fst p) = snd p) (ps_answers 6 ps_terms l)).
  { clear X IM. induction l as [|x l IH]; [constructor|]. unfold ps_answers. cbn [flat_map]. apply Forall_app. split; [|apply IH; intros; eapply Q; right; eauto].
    destruct x as [s1 c t y|]; [|constructor]. constructor; [|constructor]. cbn [fst snd]. rewrite (Q s1 c t y (or_introl eq_refl)). reflexivity. }
  rewrite X in G. inversion G as [|? ? G1 _]. discriminate G1.
Qed.
Print Assumptions C79_derivative_of_the_terms_refuted.
