From Coq Require Import String List Bool Reals Lra.
From Verif Require Import Py Units_Model Units_Spec.
Import ListNotations.
Open Scope py_scope.
Open Scope string_scope.

Section P.
Variable c : consts.
Hypothesis Hc : positive c.

(** The factor in the code's table. *)
Definition tab (k : option string) : R := match factor c k with Ok f => f | _ => 1%R end.
(** The code's value in atomic units. *)
Definition tamount (v : R) (k : option string) : R := (v / tab k)%R.

Lemma factor_canonical k : is_canonical k -> factor c k = Ok (tab k) /\ (0 < tab k)%R.
Proof.
  destruct Hc as (H1 & H2 & H3 & H4 & H5 & H6 & H7 & H8).
  intros [->|(s & -> & Hs)].
  - split; [reflexivity|]. cbn. lra.
  - cbn in Hs. repeat destruct Hs as [<-|Hs]; [..|destruct Hs];
      (split; [reflexivity | cbn; lra]).
Qed.

Lemma factor_true k : is_canonical k -> k <> Some "meV" -> factor c k = Ok (per_au c k).
Proof.
  intros [->|(s & -> & Hs)] Hm; [reflexivity|].
  cbn in Hs. repeat destruct Hs as [<-|Hs]; [..|destruct Hs]; try congruence;
      unfold factor; cbn; f_equal; lra.
Qed.

Lemma factor_meV : factor c (Some "meV") = Ok (per_au c (Some "meV") / 1000000)%R.
Proof. unfold factor. cbn. f_equal. lra. Qed.

Lemma lookup_canonical s : lookup (table c) (Some s) = None <-> ~ In s canonical.
Proof.
  unfold table, canonical. cbn [lookup ukey_eqb].
  split.
  - intros H Hin. cbn in Hin.
    repeat destruct Hin as [<-|Hin]; [..|destruct Hin]; cbn in H; discriminate.
  - intros Hn. repeat (match goal with |- (if String.eqb s ?k then _ else _) = None =>
       destruct (String.eqb_spec s k) as [->|]; [exfalso; apply Hn; cbn; tauto|] end).
    reflexivity.
Qed.

Lemma find_synonym_spec s :
  match find_synonym synonyms s with
  | Some k => In (s, k) aliases
  | None => forall k, ~ In (s, k) aliases
  end.
Proof.
  unfold synonyms. cbn [find_synonym existsb].
  destruct (String.eqb_spec s "au") as [->|]; [cbn; tauto|].
  destruct (String.eqb_spec s "a.u.") as [->|]; [cbn; tauto|]. cbn [orb].
  destruct (String.eqb_spec s "kelvin") as [->|]; [cbn; tauto|]. cbn [orb].
  destruct (String.eqb_spec s "ev") as [->|]; [cbn; tauto|]. cbn [orb].
  destruct (String.eqb_spec s "mev") as [->|]; [cbn; tauto|]. cbn [orb].
  destruct (String.eqb_spec s "inverse kelvin") as [->|]; [cbn; tauto|]. cbn [orb].
  destruct (String.eqb_spec s "cm^(-1), cm^{-1}") as [->|]; [cbn; tauto|]. cbn [orb].
  intros k Hk. cbn in Hk.
  repeat destruct Hk as [Hk|Hk]; try contradiction; congruence.
Qed.

Lemma aliases_canonical s k : In (s, k) aliases -> is_canonical k /\ ~ In s canonical.
Proof.
  intros H. cbn in H.
  repeat destruct H as [H|H]; try contradiction; injection H as <- <-;
  (split; [unfold is_canonical; cbn; first [left; reflexivity | right; eexists; split; [reflexivity|tauto]]
          | cbn; intros Hin; repeat destruct Hin as [Hin|Hin]; try discriminate; try contradiction]).
Qed.

Lemma aliases_fun s k k' : In (s, k) aliases -> In (s, k') aliases -> k = k'.
Proof.
  intros H H'. cbn in H. cbn in H'.
  repeat destruct H as [H|H]; try contradiction; injection H as <- <-;
  repeat destruct H' as [H'|H']; try contradiction; congruence.
Qed.

Lemma names_canonical u k : names u k -> is_canonical k.
Proof.
  intros [[-> ->]|(s & -> & [[Hs ->]|Hs])].
  - left; auto.
  - right; eauto.
  - eapply aliases_canonical; eauto.
Qed.

Lemma standardize_ok u k : standardize c u = Ok k <-> names u k.
Proof.
  split.
  - intros H. destruct u as [s|]; cbn in H.
    + right. exists s. split; auto.
      destruct (lookup (table c) (Some s)) eqn:E.
      * change (standardize c (Some s) = Ok k) in H. unfold standardize in H. rewrite E in H.
        injection H as <-. left. split; auto.
        destruct (in_dec string_dec s canonical) as [?|Hn]; auto.
        apply lookup_canonical in Hn. congruence.
      * change (standardize c (Some s) = Ok k) in H. unfold standardize in H. rewrite E in H.
        right. pose proof (find_synonym_spec s) as F.
        destruct (find_synonym synonyms s); [|discriminate]. injection H as <-. auto.
    + injection H as <-. left; auto.
  - intros [[-> ->]|(s & -> & [[Hs ->]|Hs])]; [reflexivity| |]; unfold standardize.
    + destruct (lookup (table c) (Some s)) eqn:E; [reflexivity|].
      apply lookup_canonical in E. tauto.
    + rewrite (proj2 (lookup_canonical s)) by (eapply aliases_canonical; eauto).
      pose proof (find_synonym_spec s) as F. destruct (find_synonym synonyms s) as [k'|].
      * f_equal. eapply aliases_fun; eauto.
      * exfalso. eapply F; eauto.
Qed.

Lemma standardize_err u e : standardize c u = Raise e -> e = ValueError.
Proof.
  destruct u as [s|]; unfold standardize; [|discriminate].
  destruct (lookup (table c) (Some s)); [discriminate|].
  destruct (find_synonym synonyms s); congruence.
Qed.

Lemma standardize_bad u : (forall k, ~ names u k) -> standardize c u = Raise ValueError.
Proof.
  intros H. destruct (standardize c u) as [k|e] eqn:E.
  - apply standardize_ok in E. destruct (H k E).
  - f_equal. now apply standardize_err in E.
Qed.

Lemma value_in_au_ok q : is_canonical (unit_ q) ->
  value_in_au c q = Ok (tamount (value q) (unit_ q)).
Proof.
  intros H. unfold value_in_au. rewrite (proj1 (factor_canonical _ H)). reflexivity.
Qed.

Lemma convert_ok q u k : is_canonical (unit_ q) -> names u k ->
  exists q', convert_to c q u = Ok q' /\ unit_ q' = k /\
    tamount (value q') k = tamount (value q) (unit_ q).
Proof.
  intros Hq Hu. pose proof (names_canonical u k Hu) as Hk.
  destruct (factor_canonical k Hk) as (F & Fp). destruct (factor_canonical _ Hq) as (G & Gp).
  eexists. unfold convert_to. rewrite (proj2 (standardize_ok u k) Hu). cbn [bind].
  rewrite value_in_au_ok by auto. cbn [bind]. rewrite F. cbn [bind].
  split; [reflexivity|]. split; [reflexivity|]. cbn [value]. unfold tamount. field. lra.
Qed.

Lemma convert_keeps_au q u k : is_canonical (unit_ q) -> names u k ->
  exists q', convert_to c q u = Ok q' /\ unit_ q' = k /\ is_ok (value_in_au c q) = true /\
    value_in_au c q' = value_in_au c q.
Proof.
  intros Hq Hu. destruct (convert_ok q u k Hq Hu) as (q' & A & B & D).
  exists q'. split; auto. split; auto. rewrite (value_in_au_ok q Hq). split; [reflexivity|].
  rewrite value_in_au_ok; [|rewrite B; eapply names_canonical; eauto].
  rewrite B. now f_equal.
Qed.

Lemma convert_true q u k : is_canonical (unit_ q) -> names u k ->
  unit_ q <> Some "meV" -> k <> Some "meV" ->
  exists q', convert_to c q u = Ok q' /\ unit_ q' = k /\
    amount c (value q') k = amount c (value q) (unit_ q).
Proof.
  intros Hq Hu Hm Hm'. destruct (convert_ok q u k Hq Hu) as (q' & A & B & D).
  exists q'. repeat split; auto. unfold tamount, tab in D.
  rewrite (factor_true _ Hq Hm), (factor_true k (names_canonical u k Hu) Hm') in D. exact D.
Qed.

Lemma convert_bad q u : (forall k, ~ names u k) -> convert_to c q u = Raise ValueError.
Proof. intros H. unfold convert_to. now rewrite standardize_bad. Qed.

Lemma convert_roundtrip q u q' : is_canonical (unit_ q) ->
  convert_to c q u = Ok q' -> convert_to c q' (unit_ q) = Ok q.
Proof.
  intros Hq H. unfold convert_to in *.
  destruct (standardize c u) as [k|] eqn:E; [|discriminate]. cbn [bind] in H.
  apply standardize_ok in E. pose proof (names_canonical u k E) as Hk.
  destruct (factor_canonical k Hk) as (F & Fp). destruct (factor_canonical _ Hq) as (G & Gp).
  rewrite value_in_au_ok in H by auto. cbn [bind] in H. rewrite F in H. cbn [bind] in H.
  injection H as <-.
  assert (Hn : names (unit_ q) (unit_ q)).
  { destruct Hq as [->|(s & -> & Hs)]; [left; auto|right; exists s; auto]. }
  rewrite (proj2 (standardize_ok _ _) Hn). cbn [bind].
  rewrite value_in_au_ok by auto. cbn [bind unit_ value]. rewrite G. cbn [bind].
  destruct q as [v w]. cbn in *. do 2 f_equal. unfold tamount. field. lra.
Qed.

Lemma convert_same q q' : is_canonical (unit_ q) ->
  convert_to c q (unit_ q) = Ok q' -> q' = q.
Proof.
  intros Hq H. 
  assert (Hn : names (unit_ q) (unit_ q)).
  { destruct Hq as [->|(s & -> & Hs)]; [left; auto|right; exists s; auto]. }
  destruct (factor_canonical _ Hq) as (G & Gp). unfold convert_to in H.
  rewrite (proj2 (standardize_ok _ _) Hn) in H. cbn [bind] in H.
  rewrite value_in_au_ok in H by auto. cbn [bind] in H. rewrite G in H. cbn [bind] in H.
  injection H as <-. destruct q as [v w]. cbn in *. f_equal. unfold tamount. field. lra.
Qed.

Lemma new_ok v u k : names u k -> quantity_new c v u = Ok {| value := v; unit_ := k |}.
Proof. intros H. unfold quantity_new. now rewrite (proj2 (standardize_ok u k) H). Qed.

Definition au (q : quantity) : R := tamount (value q) (unit_ q).

Lemma au_plain v : au {| value := v; unit_ := None |} = v.
Proof. unfold au, tamount. cbn. lra. Qed.

Lemma arith_ok p q x : is_canonical (unit_ p) -> is_canonical (unit_ q) ->
  (exists r, q_add c p q = Ok r /\ unit_ r = None /\ au r = (au p + au q)%R) /\
  (exists r, q_sub c p q = Ok r /\ unit_ r = None /\ au r = (au p - au q)%R) /\
  (exists r, q_mul c p x = Ok r /\ unit_ r = None /\ au r = (au p * x)%R) /\
  (exists r, q_neg c p = Ok r /\ unit_ r = unit_ p /\ au r = (- au p)%R) /\
  (x <> 0%R -> exists r, q_div c p x = Ok r /\ unit_ r = None /\ au r = (au p / x)%R).
Proof.
  intros Hp Hq. unfold q_add, q_sub, q_mul, q_neg, q_div.
  rewrite !value_in_au_ok by auto. cbn [bind].
  repeat split.
  - eexists. split; [reflexivity|]. split; [reflexivity|]. apply au_plain.
  - eexists. split; [reflexivity|]. split; [reflexivity|]. apply au_plain.
  - eexists. split; [reflexivity|]. split; [reflexivity|]. apply au_plain.
  - assert (Hn : names (unit_ p) (unit_ p)).
    { destruct Hp as [->|(s & -> & Hs)]; [left; auto|right; exists s; auto]. }
    rewrite (new_ok _ _ _ Hn). eexists. split; [reflexivity|]. split; [reflexivity|].
    unfold au, tamount. cbn. lra.
  - intros Hx. destruct (Req_EM_T x 0); [contradiction|].
    eexists. split; [reflexivity|]. split; [reflexivity|]. apply au_plain.
Qed.

Lemma compare_ok p q : is_canonical (unit_ p) -> is_canonical (unit_ q) ->
  (q_eq c p (OQ q) = Ok true <-> au p = au q) /\
  (q_gt c p (OQ q) = Ok true <-> (au p > au q)%R) /\
  is_ok (q_eq c p (OQ q)) = true /\ is_ok (q_gt c p (OQ q)) = true.
Proof.
  intros Hp Hq. unfold q_eq, q_gt. rewrite !value_in_au_ok by auto. cbn [bind].
  fold (au p). fold (au q). unfold Rbool.
  destruct (Req_EM_T (au p) (au q)), (Rgt_dec (au p) (au q));
    repeat split; intros; auto; try discriminate; try contradiction.
Qed.

Lemma arith_au p q a b x : is_canonical (unit_ p) -> is_canonical (unit_ q) ->
  value_in_au c p = Ok a -> value_in_au c q = Ok b ->
  (exists r, q_add c p q = Ok r /\ value_in_au c r = Ok (a + b)%R) /\
  (exists r, q_sub c p q = Ok r /\ value_in_au c r = Ok (a - b)%R) /\
  (exists r, q_mul c p x = Ok r /\ value_in_au c r = Ok (a * x)%R) /\
  (exists r, q_neg c p = Ok r /\ unit_ r = unit_ p /\ value_in_au c r = Ok (- a)%R) /\
  (x <> 0%R -> exists r, q_div c p x = Ok r /\ value_in_au c r = Ok (a / x)%R).
Proof.
  intros Hp Hq Ha Hb. rewrite value_in_au_ok in Ha, Hb by auto. injection Ha as <-. injection Hb as <-.
  destruct (arith_ok p q x Hp Hq) as
    ((r1 & A1 & U1 & E1) & (r2 & A2 & U2 & E2) & (r3 & A3 & U3 & E3) & (r4 & A4 & U4 & E4) & H5).
  assert (N : is_canonical None) by (left; auto).
  repeat split.
  - exists r1. split; auto. rewrite value_in_au_ok by (rewrite U1; auto). now f_equal.
  - exists r2. split; auto. rewrite value_in_au_ok by (rewrite U2; auto). now f_equal.
  - exists r3. split; auto. rewrite value_in_au_ok by (rewrite U3; auto). now f_equal.
  - exists r4. repeat split; auto. rewrite value_in_au_ok by (rewrite U4; auto). now f_equal.
  - intros Hx. destruct (H5 Hx) as (r5 & A5 & U5 & E5).
    exists r5. split; auto. rewrite value_in_au_ok by (rewrite U5; auto). now f_equal.
Qed.

Lemma compare_au p q a b : is_canonical (unit_ p) -> is_canonical (unit_ q) ->
  value_in_au c p = Ok a -> value_in_au c q = Ok b ->
  (q_eq c p (OQ q) = Ok true <-> a = b) /\
  (q_gt c p (OQ q) = Ok true <-> (a > b)%R) /\
  is_ok (q_eq c p (OQ q)) = true /\ is_ok (q_gt c p (OQ q)) = true.
Proof.
  intros Hp Hq Ha Hb. rewrite value_in_au_ok in Ha, Hb by auto. injection Ha as <-. injection Hb as <-.
  now apply compare_ok.
Qed.

(** Comparison with 0 has the same meaning in any unit. *)
Lemma compare_zero p : is_canonical (unit_ p) ->
  (q_eq c p (ON 0) = Ok true <-> au p = 0%R) /\ (q_gt c p (ON 0) = Ok true <-> (au p > 0)%R).
Proof.
  intros Hp. destruct (factor_canonical _ Hp) as (_ & F).
  unfold q_eq, q_gt, Rbool. destruct (Req_EM_T 0 0) as [_|]; [|congruence].
  unfold au, tamount.
  pose proof (Rinv_0_lt_compat _ F) as Fi.
  split; [destruct (Req_EM_T (value p) 0) as [H|H] | destruct (Rgt_dec (value p) 0) as [H|H]];
    (split; intros A; auto; try discriminate).
  - rewrite H. unfold Rdiv. ring.
  - unfold Rdiv in A. apply Rmult_integral in A. destruct A; [contradiction|lra].
  - apply Rmult_gt_0_compat; auto.
  - exfalso. apply H. destruct (Rgt_dec (value p) 0); auto.
    assert (value p <= 0)%R by lra. unfold Rdiv in A.
    assert (value p * / tab (unit_ p) <= 0 * / tab (unit_ p))%R.
    { apply Rmult_le_compat_r; lra. }
    lra.
Qed.

Lemma compare_zero_au p a : is_canonical (unit_ p) -> value_in_au c p = Ok a ->
  (q_eq c p (ON 0) = Ok true <-> a = 0%R) /\ (q_gt c p (ON 0) = Ok true <-> (a > 0)%R).
Proof.
  intros Hp Ha. rewrite value_in_au_ok in Ha by auto. injection Ha as <-. now apply compare_zero.
Qed.

Lemma compare_number p x : x <> 0%R ->
  q_eq c p (ON x) = Raise TypeError /\ q_gt c p (ON x) = Raise TypeError.
Proof. intros H. unfold q_eq, q_gt. destruct (Req_EM_T x 0); [contradiction|auto]. Qed.

Lemma true_amount q : is_canonical (unit_ q) -> unit_ q <> Some "meV" ->
  value_in_au c q = Ok (amount c (value q) (unit_ q)).
Proof. intros H Hm. unfold value_in_au. rewrite (factor_true _ H Hm). reflexivity. Qed.

Lemma meV_amount v :
  value_in_au c {| value := v; unit_ := Some "meV" |}
  = Ok (1000000 * amount c v (Some "meV"))%R.
Proof.
  destruct Hc as (H1 & H2 & H3 & H4 & H5 & H6 & H7 & H8).
  unfold value_in_au. cbn [unit_ value]. rewrite factor_meV. cbn [bind]. f_equal.
  unfold amount. cbn. field. lra.
Qed.

(** Inverse temperatures. *)
Lemma inverse_temperature t :
  (hartree_K c * kelvin_hartree c = 1)%R -> (0 < t)%R ->
  exists a b, value_in_au c {| value := 1 / t; unit_ := Some "K-1" |} = Ok a /\
    value_in_au c {| value := t; unit_ := Some "K" |} = Ok b /\ (a * b = 1)%R.
Proof.
  destruct Hc as (H1 & H2 & H3 & H4 & H5 & H6 & H7 & H8).
  intros E Ht. do 2 eexists. split; [reflexivity|]. split; [reflexivity|].
  cbn [value]. replace (kelvin_hartree c) with (/ hartree_K c)%R.
  - field. lra.
  - apply Rmult_eq_reg_l with (hartree_K c); [|lra]. rewrite E. field. lra.
Qed.
End P.
