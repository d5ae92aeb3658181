(** C101: settings belong to the class. *)
From Coq Require Import List String Bool Arith Lia.
From Verif Require Import Py Config_Model Config_Spec.
Import ListNotations.
Local Open Scope nat_scope.

Section Config.
Variable V : Type.
Variable mro : nat -> list nat.
Implicit Types (w : world V) (l : attrs V).

Lemma find_other w c name v n : forall cs, n <> name -> find (setattr w c name v) cs n = find w cs n.
Proof.
  induction cs as [|b cs IH]; intros N; cbn [find]; [reflexivity|]. unfold setattr at 1. destruct (Nat.eqb b c); [|rewrite IH by auto; reflexivity].
  cbn [lookup]. destruct (String.eqb_spec name n); [congruence|]. rewrite IH by auto. reflexivity.
Qed.
Lemma find_outside w c name v n : forall cs, ~ In c cs -> find (setattr w c name v) cs n = find w cs n.
Proof. induction cs as [|b cs IH]; intros N; cbn [find]; [reflexivity|]. unfold setattr at 1. destruct (Nat.eqb_spec b c) as [->|]; [exfalso; apply N; left; reflexivity|]. rewrite IH by (intros Q; apply N; right; exact Q). reflexivity. Qed.
Lemma find_head w c name v cs : find (setattr w c name v) (c :: cs) name = Some v.
Proof. cbn [find]. unfold setattr. rewrite Nat.eqb_refl. cbn [lookup]. rewrite String.eqb_refl. reflexivity. Qed.
Lemma has_kept w c name v n rest : mro c = c :: rest -> hasattr mro w c name = true -> hasattr mro (setattr w c name v) c n = hasattr mro w c n.
Proof.
  intros M H. unfold hasattr. destruct (string_dec n name) as [->|N]; [|rewrite find_other by auto; reflexivity]. rewrite M, find_head. rewrite <- M. unfold hasattr in H. symmetry. exact H.
Qed.
(** what assignments, one after another, do *)
Definition assign (c : nat) l w : world V := fold_left (fun w p => setattr w c (fst p) (snd p)) l w.
Lemma assign_silent c cs n : forall l w, silent l n -> find (assign c l w) cs n = find w cs n.
Proof. induction l as [|(k, v) l IH]; intros w S; [reflexivity|]. change (assign c ((k, v) :: l) w) with (assign c l (setattr w c k v)). rewrite IH by (intros Q; apply S; right; exact Q). apply find_other. intros ->. apply S. left. reflexivity. Qed.
Lemma assign_outside c cs n : ~ In c cs -> forall l w, find (assign c l w) cs n = find w cs n.
Proof. intros N. induction l as [|(k, v) l IH]; intros w; [reflexivity|]. change (assign c ((k, v) :: l) w) with (assign c l (setattr w c k v)). rewrite IH. apply find_outside, N. Qed.
Lemma assign_gives c cs n v : forall l w, NoDup (map fst l) -> gives l n v -> find (assign c l w) (c :: cs) n = Some v.
Proof.
  induction l as [|(k, u) l IH]; intros w D G; [destruct G|]. inversion D as [|? ? D1 D2]; subst. change (assign c ((k, u) :: l) w) with (assign c l (setattr w c k u)). destruct G as [E|G]; [|apply IH; auto]. injection E as -> ->. rewrite assign_silent by exact D1. apply find_head.
Qed.
Lemma settings_prefix c rest : mro c = c :: rest -> forall l w, exists l1 l2, l = l1 ++ l2 /\ snd (settings mro c l w) = assign c l1 w /\ (forall p, In p l1 -> hasattr mro w c (fst p) = true) /\
  match l2 with [] => fst (settings mro c l w) = Ok tt | p :: _ => fst (settings mro c l w) = Raise AttributeError /\ hasattr mro w c (fst p) = false end.
Proof.
  intros M. induction l as [|(k, v) l IH]; intros w; [exists [], []; repeat split; auto; intros p []|]. cbn [settings]. destruct (hasattr mro w c k) eqn:H.
  - destruct (IH (setattr w c k v)) as (l1 & l2 & E & A & B & C). exists ((k, v) :: l1), l2. split; [cbn; now rewrite E|]. split; [exact A|]. split.
    + intros p [<-|Hp]; [exact H|]. rewrite <- (has_kept w c k v _ rest M H). apply B, Hp.
    + destruct l2 as [|p l2]; [exact C|]. destruct C as (C1 & C2). split; [exact C1|]. rewrite <- (has_kept w c k v _ rest M H). exact C2.
  - exists [], ((k, v) :: l). split; [reflexivity|]. split; [reflexivity|]. split; [intros p []|]. split; [reflexivity|exact H].
Qed.
(** [settings] sets the names before the first unknown one and then raises; it succeeds if and only
    if all are known.  Every object of the class without an own value reads the new values,
    also those made before and other solvers; objects with an own value and other classes keep theirs. *)
Theorem C101_settings c rest l w : mro c = c :: rest -> NoDup (map fst l) ->
  exists l1 l2, l = l1 ++ l2 /\ (forall n v, gives l1 n v -> hasattr mro w c n = true) /\
  match l2 with [] => fst (settings mro c l w) = Ok tt | p :: _ => fst (settings mro c l w) = Raise AttributeError /\ hasattr mro w c (fst p) = false end /\
  let w' := snd (settings mro c l w) in
  (forall own n v, lookup n own = None -> gives l1 n v -> getattr mro w' (c, own) n = Ok v) /\
  (forall own n, silent l1 n -> getattr mro w' (c, own) n = getattr mro w (c, own) n) /\
  (forall own n v, lookup n own = Some v -> getattr mro w' (c, own) n = Ok v) /\
  (forall b own n, ~ In c (mro b) -> getattr mro w' (b, own) n = getattr mro w (b, own) n).
Proof.
  intros M D. destruct (settings_prefix c rest M l w) as (l1 & l2 & E & A & B & C). exists l1, l2. split; [exact E|]. split; [intros n v G; apply (B _ G)|]. split; [exact C|]. cbn zeta. rewrite A.
  assert (D1 : NoDup (map fst l1)). { rewrite E, map_app in D. clear - D. induction (map fst l1) as [|x t IH]; [constructor|]. inversion D as [|? ? D1 D2]; subst. constructor; [intros Q; apply D1, in_or_app; left; exact Q|auto]. }
  unfold getattr. cbn [fst snd]. split; [|split; [|split]].
  - intros own n v Eo G. rewrite Eo, M, (assign_gives c rest n v l1 w D1 G). reflexivity.
  - intros own n S. rewrite assign_silent by exact S. reflexivity.
  - intros own n v ->. reflexivity.
  - intros b own n N. rewrite assign_outside by exact N. reflexivity.
Qed.
(** [config] sets every name, known or not, and never raises or warns. *)
Lemma config_assign c : forall l w k, config c l w k = (Ok tt, assign c l w, k).
Proof. induction l as [|(n, v) l IH]; intros w k; [reflexivity|]. cbn [config]. rewrite IH. reflexivity. Qed.
Theorem C101_config c rest l w : mro c = c :: rest -> NoDup (map fst l) ->
  exists w', config c l w 0 = (Ok tt, w', 0) /\ (forall own n v, lookup n own = None -> gives l n v -> getattr mro w' (c, own) n = Ok v) /\
  (forall own n, silent l n -> getattr mro w' (c, own) n = getattr mro w (c, own) n).
Proof.
  intros M D. exists (assign c l w). split; [apply config_assign|]. unfold getattr. cbn [fst snd]. split.
  - intros own n v Eo G. rewrite Eo, M, (assign_gives c rest n v l w D G). reflexivity.
  - intros own n S. rewrite assign_silent by exact S. reflexivity.
Qed.
End Config.
Print Assumptions C101_settings.
Print Assumptions C101_config.

(** The class with [hbar] and the method [eom], and [object]; one solver is there already. *)
Definition mro101 (c : nat) : list nat := match c with 0 => [0] | _ => [c; 0] end.
Definition w101 : world nat := fun c => match c with 1 => [("hbar", 1); ("eom", 77)]%string | 0 => [("__init__", 99)]%string | _ => [] end.
(** So a misspelt name given to [config] gives no warning, [settings] accepts the names of methods,
    after which they cannot be called, and an error leaves the names before it set. *)
Theorem C101_checks_refuted :
  ~ (forall w l, (exists p, In p l /\ hasattr mro101 w 1 (fst p) = false) -> 0 < snd (config (V := nat) 1 l w 0)) /\
  ~ (forall l w, fst (settings mro101 1 l w) = Raise AttributeError -> forall n : string, getattr mro101 (snd (settings mro101 1 l w)) (1, []) n = getattr (V := nat) mro101 w (1, []) n) /\
  getattr mro101 (snd (settings mro101 1 [("eom", 5)]%string w101)) (1, []) "eom"%string = Ok 5.
Proof.
  split; [|split; [|reflexivity]].
  - intros Q. specialize (Q w101 [("tolerance", 3)]%string). rewrite (config_assign nat) in Q. cbn [snd] in Q. assert (X : 0 < 0) by (apply Q; exists ("tolerance", 3)%string; split; [left; reflexivity|reflexivity]). lia.
  - intros Q. specialize (Q [("hbar", 2); ("hbra", 3)]%string w101 eq_refl "hbar"%string). vm_compute in Q. discriminate.
Qed.
Print Assumptions C101_checks_refuted.
Example C101_example : mro101 1 = 1 :: [0] /\ NoDup (map fst [("hbar", 2); ("hbra", 3)]%string) /\
  settings mro101 1 [("hbar", 2); ("hbra", 3)]%string w101 = (Raise AttributeError, setattr w101 1 "hbar"%string 2) /\
  getattr mro101 (setattr w101 1 "hbar"%string 2) (1, [("time", 8)]%string) "hbar"%string = Ok 2 /\
  getattr mro101 (setattr w101 1 "hbar"%string 2) (1, [("hbar", 8)]%string) "hbar"%string = Ok 8.
Proof. repeat split. repeat constructor; cbn; intuition discriminate. Qed.
