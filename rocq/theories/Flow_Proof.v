(** The state as a polynomial of the step, and its first two coefficients. *)
From Coq Require Import String List Arith Bool Lia.
From Verif Require Import Py Alg ListX NdArray_Model NdArray_Proof Net_Model Net_Spec Trav_Proof Env_Spec Env_Proof EnvThm_Proof Pair_Proof Contraction_Proof
  Link_Spec Cache_Model Eom_Spec Eom_Proof EomRate_Proof Direct_Model Direct_Spec DirectAlg_Proof DirectSem_Proof DirectGrad_Proof DirectRun_Proof DirectThm_Proof Flow_Spec.
Import ListNotations.
Local Open Scope nat_scope.
Local Open Scope list_scope.

Section Flow.
Variable K : StarRing.
Add Ring Kring_flow : (r_theory K).
Implicit Types A B D : id -> arr K.
Local Open Scope star_scope.

(** ** Polynomials *)
Fixpoint padd (p q : list K) : list K :=
  match p, q with [], _ => q | _, [] => p | a :: p, b :: q => (a + b) :: padd p q end.
Definition pscale (c : K) (p : list K) : list K := map (rmul c) p.
Fixpoint pmul (p q : list K) : list K := match p with [] => [] | a :: p => padd (pscale a q) (0 :: pmul p q) end.
Lemma horner_add (p : list K) : forall q (x : K), horner (padd p q) x = horner p x + horner q x.
Proof.
  induction p as [|a p IH]; intros q x; cbn [padd]; [cbn [horner]; ring|]. destruct q as [|b q]; cbn [horner]; [ring|]. rewrite IH. ring.
Qed.
Lemma horner_scale (c : K) (p : list K) x : horner (pscale c p) x = c * horner p x.
Proof. induction p as [|a p IH]; cbn [pscale map horner]; [ring|]. unfold pscale in IH. rewrite IH. ring. Qed.
Lemma horner_mul (p q : list K) x : horner (pmul p q) x = horner p x * horner q x.
Proof. induction p as [|a p IH]; cbn [pmul horner]; [ring|]. rewrite horner_add, horner_scale. cbn [horner]. rewrite IH. ring. Qed.
Lemma horner_conj (p : list K) x : rconj x = x -> rconj (horner p x) = horner (map rconj p) x.
Proof. intros E. induction p as [|a p IH]; cbn [horner map]; [apply rconj_0|]. rewrite rconj_add, rconj_mul, E, IH. reflexivity. Qed.

Lemma starts_ext (f g : K -> K) c0 c1 : (forall x, rconj x = x -> f x = g x) -> starts g c0 c1 -> starts f c0 c1.
Proof. intros E (cs & H). exists cs. intros x Hx. rewrite E by auto. auto. Qed.
Lemma starts_const (c : K) : starts (fun _ => c) c 0.
Proof. exists []. intros x _. cbn [horner]. ring. Qed.
Lemma starts_add (f g : K -> K) a0 a1 b0 b1 : starts f a0 a1 -> starts g b0 b1 -> starts (fun x => f x + g x) (a0 + b0) (a1 + b1).
Proof. intros (p & P) (q & Q). exists (padd p q). intros x Hx. rewrite P, Q, horner_add by auto. ring. Qed.
Lemma starts_step (f g : K -> K) a0 a1 b0 b1 : starts f a0 a1 -> starts g b0 b1 -> starts (fun x => f x + x * g x) a0 (a1 + b0).
Proof. intros (p & P) (q & Q). exists (padd p (b1 :: q)). intros x Hx. rewrite P, Q, horner_add by auto. cbn [horner]. ring. Qed.
Lemma starts_mul (f g : K -> K) a0 a1 b0 b1 : starts f a0 a1 -> starts g b0 b1 -> starts (fun x => f x * g x) (a0 * b0) (a1 * b0 + a0 * b1).
Proof.
  intros (p & P) (q & Q). exists (padd (pscale a0 q) (padd (pscale b0 p) (pmul (a1 :: p) (b1 :: q)))). intros x Hx.
  rewrite P, Q, !horner_add, !horner_scale, horner_mul by auto. cbn [horner]. ring.
Qed.
Lemma starts_conj (f : K -> K) a0 a1 : starts f a0 a1 -> starts (fun x => rconj (f x)) (rconj a0) (rconj a1).
Proof. intros (p & P). exists (map rconj p). intros x Hx. rewrite P, <- horner_conj by auto. rewrite !rconj_add, !rconj_mul, rconj_add, rconj_mul, !Hx. reflexivity. Qed.
Lemma starts_sum {X} (l : list X) (f : X -> K -> K) a0 a1 : (forall i, In i l -> starts (f i) (a0 i) (a1 i)) -> starts (fun x => sumL l (fun i => f i x)) (sumL l a0) (sumL l a1).
Proof.
  induction l as [|i l IH]; intros H; [exact (starts_const 0)|].
  apply (starts_ext _ (fun x => f i x + sumL l (fun i => f i x))); [reflexivity|]. rewrite !sumL_cons. apply starts_add; [apply H; left; auto|]. apply IH. intros; apply H; right; auto.
Qed.
Lemma starts_at (f : K -> K) c0 c1 : starts f c0 c1 -> f 0 = c0.
Proof. intros (cs & H). rewrite H by apply rconj_0. ring. Qed.

(** ** The tensor is linear in each array *)
Lemma zprod_lin (f1 f2 : list (nat -> K)) f g k c : forall x, (length f1 < length x)%nat -> (forall v, f v = g v + c * k v) ->
  zprod (f1 ++ f :: f2) x = zprod (f1 ++ g :: f2) x + c * zprod (f1 ++ k :: f2) x.
Proof.
  induction f1 as [|a f1 IH]; intros [|v x] L E; cbn [length] in L; try lia; cbn [app zprod].
  - rewrite E. ring.
  - rewrite IH by (auto; lia). ring.
Qed.
Lemma kids_off A A' s ks : (forall n, In n (flat_map (fun k : kid => nids (k_t k)) ks) -> A' n = A n) ->
  Forall2 (fun f g : nat -> K => forall v, f v = g v) (map (fun k => amp A' s (Some (k_j k)) (k_t k)) ks) (map (fun k => amp A s (Some (k_j k)) (k_t k)) ks).
Proof.
  induction ks as [|k ks IH]; intros E; constructor.
  - intros v. apply amp_agree. intros; apply E. cbn [flat_map]. apply in_app_iff. auto.
  - apply IH. intros; apply E. cbn [flat_map]. apply in_app_iff. auto.
Qed.
Lemma Forall2_same {X} (R : X -> X -> Prop) l : (forall x, R x x) -> Forall2 R l l.
Proof. intros H. induction l; constructor; auto. Qed.
Lemma amp_lin A t (x y z : arr K) c s : shape x = shape (A t) -> shape y = shape (A t) -> shape z = shape (A t) -> (forall i, get z i = get x i + c * get y i) ->
  forall T ax d p, fits A ax d T -> NoDup (nids T) -> In t (nids T) ->
  amp (exchanged A t z) s ax T p = amp (exchanged A t x) s ax T p + c * amp (exchanged A t y) s ax T p.
Proof.
  intros Sx Sy Sz G. induction T as [n|n ks IH] using tree_ind'; intros ax d p F ND Ht; [destruct Ht|].
  inversion F as [|? ? ? ? W Pos Hax Ei Fk]; subst. cbn [nids] in ND, Ht. apply NoDup_cons_iff in ND. destruct ND as (Nn & NDk).
  cbn [amp]. rewrite !(exchanged_shape K) by auto.
  destruct (Nat.eq_dec n t) as [->|Ne].
  - rewrite !exchanged_eq, <- sumL_scal_l, <- sumL_add. apply sumL_ext. intros i.
    assert (O : forall w, zprod (map (fun k : kid => amp (exchanged A t w) s (Some (k_j k)) (k_t k)) ks) i = zprod (map (fun k : kid => amp A s (Some (k_j k)) (k_t k)) ks) i).
    { intros w. apply zprod_ext. apply kids_off. intros m Hm. apply exchanged_ne. intros ->. auto. }
    rewrite !O, G. ring.
  - destruct Ht as [->|Ht]; [congruence|]. rewrite !(exchanged_ne K A t) by auto. rewrite <- sumL_scal_l, <- sumL_add. apply sum_indices_ext. intros i Hi.
    destruct (in_kids_split t ks Ht) as (k1 & k & k2 & -> & Hk).
    assert (Fl : length (k1 ++ k :: k2) = length i).
    { rewrite (in_range_len _ _ Hi). clear -Fk. induction Fk; cbn; congruence. }
    rewrite flat_map_app in NDk. cbn [flat_map] in NDk.
    assert (N1 : ~ In t (flat_map (fun k => nids (k_t k)) k1)).
    { intros Q. apply (NoDup_app_disj _ _ t NDk Q). apply in_app_iff. auto. }
    assert (N2 : ~ In t (flat_map (fun k => nids (k_t k)) k2)).
    { intros Q. apply Trav_Proof.NoDup_app_r in NDk. apply (NoDup_app_disj _ _ t NDk Hk Q). }
    assert (NDt : NoDup (nids (k_t k))) by (apply Trav_Proof.NoDup_app_r in NDk; apply Trav_Proof.NoDup_app_l in NDk; auto).
    apply Forall2_app_inv_l in Fk. destruct Fk as (m1 & m2 & _ & F2 & _). inversion F2 as [|? m ? ? Fk0 _]; subst.
    rewrite Forall_forall in IH.
    assert (O : forall w, zprod (map (fun k : kid => amp (exchanged A t w) s (Some (k_j k)) (k_t k)) (k1 ++ k :: k2)) i
                = zprod (map (fun k : kid => amp A s (Some (k_j k)) (k_t k)) k1 ++ amp (exchanged A t w) s (Some (k_j k)) (k_t k) :: map (fun k : kid => amp A s (Some (k_j k)) (k_t k)) k2) i).
    { intros w. rewrite map_app. cbn [map]. apply zprod_ext. apply Forall2_app; [|constructor; [auto|]]; apply kids_off; intros m' Hm; apply exchanged_ne; intros ->; auto. }
    rewrite !O. rewrite (zprod_lin _ _ (amp (exchanged A t z) s (Some (k_j k)) (k_t k)) (amp (exchanged A t x) s (Some (k_j k)) (k_t k)) (amp (exchanged A t y) s (Some (k_j k)) (k_t k)) c).
    + ring.
    + rewrite map_length. rewrite app_length in Fl. cbn [length] in Fl. lia.
    + intros v. apply (IH k) with (d := m); auto. apply in_app_iff. right. left. auto.
Qed.

(** ** All arrays at once *)
Definition stepped A D (eps : K) (l : list id) : id -> arr K := fun n => if existsb (Nat.eqb n) l then moved A D eps n else A n.
Lemma stepped_in A D eps l n : In n l -> stepped A D eps l n = moved A D eps n.
Proof. intros H. unfold stepped. assert (E : existsb (Nat.eqb n) l = true) by (apply existsb_exists; exists n; split; auto; apply Nat.eqb_refl). now rewrite E. Qed.
Lemma stepped_out A D eps l n : ~ In n l -> stepped A D eps l n = A n.
Proof.
  intros H. unfold stepped. destruct (existsb (Nat.eqb n) l) eqn:E; auto. apply existsb_exists in E. destruct E as (m & Hm & Em). apply Nat.eqb_eq in Em. subst. tauto.
Qed.
Definition along A D (l : list id) : Prop := forall n, In n l -> wf (A n) /\ wf (D n) /\ shape (D n) = shape (A n).
Lemma moved_get A D eps n : wf (A n) -> wf (D n) -> shape (D n) = shape (A n) -> forall i, get (moved A D eps n) i = get (A n) i + eps * get (D n) i.
Proof.
  intros WA WD S i. unfold moved. rewrite advanced_get by (unfold wf in WA, WD; congruence).
  unfold get. cbn [shape data]. rewrite S. reflexivity.
Qed.
Lemma moved_wf A D eps n : wf (A n) -> wf (D n) -> shape (D n) = shape (A n) -> wf (moved A D eps n).
Proof. intros WA WD S. unfold wf, moved in *. cbn [shape data]. rewrite advanced_length; congruence. Qed.
Lemma amp_steps D s T ax d p : NoDup (nids T) -> forall l A, fits A ax d T -> along A D l -> NoDup l -> incl l (nids T) ->
  starts (fun eps => amp (stepped A D eps l) s ax T p) (amp A s ax T p) (sumL l (fun u => amp (exchanged A u (D u)) s ax T p)).
Proof.
  intros ND. induction l as [|t l IH]; intros A F Al Nl Hl.
  { apply (starts_ext _ (fun _ => amp A s ax T p)); [|apply starts_const]. intros x _. apply amp_agree. intros n _. reflexivity. }
  apply NoDup_cons_iff in Nl. destruct Nl as (Nt & Nl). destruct (Al t (or_introl eq_refl)) as (WA & WD & SD). pose proof (Hl t (or_introl eq_refl)) as Ht.
  assert (F' : fits (exchanged A t (D t)) ax d T).
  { apply (fits_shapes K A); auto. intros n Hn. unfold exchanged. destruct (Nat.eqb_spec n t) as [->|]; auto. split; auto. apply (fits_wf K A T ax d F n Hn). }
  assert (Al' : along (exchanged A t (D t)) D l).
  { intros n Hn. rewrite exchanged_ne by (intros ->; auto). apply Al. right. auto. }
  rewrite sumL_cons.
  assert (Ex : forall eps w n, stepped (exchanged A t w) D eps l n = exchanged (stepped A D eps l) t w n).
  { intros eps w n. destruct (Nat.eq_dec n t) as [->|Ne].
    - rewrite exchanged_eq, stepped_out, exchanged_eq by auto. reflexivity.
    - rewrite exchanged_ne by auto. destruct (in_dec Nat.eq_dec n l) as [I|I].
      + rewrite !stepped_in by auto. unfold moved. rewrite exchanged_ne by auto. reflexivity.
      + rewrite !stepped_out, exchanged_ne by auto. reflexivity. }
  apply (starts_ext _ (fun eps => amp (stepped A D eps l) s ax T p + eps * amp (stepped (exchanged A t (D t)) D eps l) s ax T p)).
  - intros eps _.
    assert (Fs : fits (stepped A D eps l) ax d T).
    { apply (fits_shapes K A); auto. intros n Hn. destruct (in_dec Nat.eq_dec n l) as [I|I].
      - rewrite stepped_in by auto. destruct (Al n (or_intror I)) as (W1 & W2 & W3). split; [apply moved_wf; auto|reflexivity].
      - rewrite stepped_out by auto. split; auto. apply (fits_wf K A T ax d F n Hn). }
    rewrite (amp_agree K (exchanged (stepped A D eps l) t (moved A D eps t)) (stepped A D eps (t :: l))).
    2:{ intros n _. destruct (Nat.eq_dec n t) as [->|Ne]; [rewrite exchanged_eq; apply stepped_in; left; auto|]. rewrite exchanged_ne by auto. unfold stepped. cbn [existsb]. apply Nat.eqb_neq in Ne. rewrite Ne. reflexivity. }
    rewrite (amp_lin (stepped A D eps l) t (A t) (D t) (moved A D eps t) eps s) with (d := d); auto.
    + f_equal; [|f_equal]; apply amp_agree; intros n _; [|symmetry; apply Ex].
      unfold exchanged. destruct (Nat.eqb_spec n t) as [->|]; auto. symmetry. apply stepped_out; auto.
    + rewrite stepped_out by auto. reflexivity.
    + rewrite stepped_out by auto. auto.
    + rewrite stepped_out by auto. reflexivity.
    + intros i. apply moved_get; auto.
  - assert (I1 : incl l (nids T)) by (intros n Hn; apply Hl; right; auto).
    assert (Al1 : along A D l) by (intros n Hn; apply Al; right; auto).
    replace (amp (exchanged A t (D t)) s ax T p + sumL l (fun u => amp (exchanged A u (D u)) s ax T p)) with (sumL l (fun u => amp (exchanged A u (D u)) s ax T p) + amp (exchanged A t (D t)) s ax T p) by ring.
    eapply starts_step; [apply IH; auto|]. apply IH; auto.
Qed.
Lemma dense_starts A D R v : fits A None O R -> NoDup (nids R) -> along A D (nids R) ->
  starts (fun eps => dense (moved A D eps) R v) (dense A R v) (dense_dot A D R v).
Proof.
  intros F ND Al. apply (starts_ext _ (fun eps => amp (stepped A D eps (nids R)) (asg (lids R) v) None R O)).
  - intros x _. unfold dense. apply amp_agree. intros n Hn. symmetry. apply stepped_in. auto.
  - apply (amp_steps D (asg (lids R) v) R None O O ND (nids R) A); auto. intros n Hn. auto.
Qed.

(** ** Scalar products *)
Lemma moved_ldims A D eps R : ldims (moved A D eps) None O R = ldims A None O R.
Proof. apply ldims_agree. reflexivity. Qed.
Definition ip (l : list (list nat)) (a b : list nat -> K) : K := sumL l (fun v => a v * rconj (b v)).
Definition ham (l : list (list nat)) (m : list nat -> list nat -> K) (a b : list nat -> K) : K := sumL l (fun v => sumL l (fun w => a v * rconj (b w) * m v w)).
Lemma ip_conj l a b : rconj (ip l a b) = ip l b a.
Proof. unfold ip. rewrite rconj_sumL. apply sumL_ext. intros v. rewrite rconj_mul, rconj_invol. ring. Qed.
Lemma ham_adjoint l m sg a b : (forall v w, In v l -> In w l -> m v w = sg * rconj (m w v)) -> ham l m a b = sg * rconj (ham l m b a).
Proof.
  intros H. unfold ham. rewrite rconj_sumL, <- sumL_scal_l.
  rewrite (sumL_ext K l (fun x => sg * rconj _) (fun x => sumL l (fun w => sg * rconj (b x * rconj (a w) * m x w)))) by (intros v; rewrite rconj_sumL, <- sumL_scal_l; reflexivity).
  rewrite sumL_swap. apply sumL_ext_in. intros w Hw. apply sumL_ext_in. intros v Hv. rewrite (H v w) by auto. rewrite !rconj_mul, !rconj_invol. ring.
Qed.
Lemma ip_sum {X} l (us : list X) (f : X -> list nat -> K) a : ip l a (fun v => sumL us (fun u => f u v)) = sumL us (fun u => ip l a (f u)).
Proof. unfold ip. rewrite sumL_swap. apply sumL_ext. intros v. rewrite rconj_sumL, <- sumL_scal_l. reflexivity. Qed.
Lemma ip_sum_l {X} l (us : list X) (f : X -> list nat -> K) b : ip l (fun v => sumL us (fun u => f u v)) b = sumL us (fun u => ip l (f u) b).
Proof. unfold ip. rewrite sumL_swap. apply sumL_ext. intros v. rewrite <- sumL_scal_r. reflexivity. Qed.
Lemma ham_sum {X} l m (us : list X) (f : X -> list nat -> K) a : ham l m a (fun v => sumL us (fun u => f u v)) = sumL us (fun u => ham l m a (f u)).
Proof.
  unfold ham. symmetry. rewrite sumL_swap. apply sumL_ext. intros v. rewrite sumL_swap. apply sumL_ext. intros w. rewrite rconj_sumL, <- sumL_scal_l, <- sumL_scal_r. reflexivity.
Qed.
Lemma ip_starts l (f : K -> list nat -> K) a0 a1 : (forall v, starts (fun x => f x v) (a0 v) (a1 v)) -> starts (fun x => ip l (f x) (f x)) (ip l a0 a0) (ip l a1 a0 + ip l a0 a1).
Proof.
  intros H. unfold ip. rewrite <- sumL_add. apply (starts_sum l (fun v x => f x v * rconj (f x v)) (fun v => a0 v * rconj (a0 v)) (fun v => a1 v * rconj (a0 v) + a0 v * rconj (a1 v))).
  intros v _. apply starts_mul; [auto|]. apply starts_conj. auto.
Qed.
Lemma ham_starts l m (f : K -> list nat -> K) a0 a1 : (forall v, starts (fun x => f x v) (a0 v) (a1 v)) -> starts (fun x => ham l m (f x) (f x)) (ham l m a0 a0) (ham l m a1 a0 + ham l m a0 a1).
Proof.
  intros H. unfold ham. rewrite <- sumL_add.
  apply (starts_sum l (fun v x => sumL l (fun w => f x v * rconj (f x w) * m v w)) (fun v => sumL l (fun w => a0 v * rconj (a0 w) * m v w))
    (fun v => sumL l (fun w => a1 v * rconj (a0 w) * m v w) + sumL l (fun w => a0 v * rconj (a1 w) * m v w))). intros v _.
  rewrite <- sumL_add. apply (starts_sum l (fun w x => f x v * rconj (f x w) * m v w) (fun w => a0 v * rconj (a0 w) * m v w) (fun w => a1 v * rconj (a0 w) * m v w + a0 v * rconj (a1 w) * m v w)). intros w _.
  replace (a1 v * rconj (a0 w) * m v w + a0 v * rconj (a1 w) * m v w) with ((a1 v * rconj (a0 w) + a0 v * rconj (a1 w)) * m v w + a0 v * rconj (a0 w) * 0) by ring.
  apply starts_mul; [|apply starts_const]. apply starts_mul; [auto|]. apply starts_conj. auto.
Qed.

Lemma norm2_ip A R : norm2 A R = ip (indices (ldims A None O R)) (dense A R) (dense A R).
Proof. reflexivity. Qed.
(** The second state is the conjugate of one with the shapes of the first. *)
Lemma conj_dense A B R : (forall n, B n = arr_conj (A n)) -> forall v, dense B R v = rconj (dense A R v).
Proof. intros E v. unfold dense. rewrite <- amp_conj. apply amp_arrays. auto. Qed.
Lemma overlap_ip A B C R : (forall n, B n = arr_conj (C n)) -> overlap A B R = ip (indices (ldims A None O R)) (dense A R) (dense C R).
Proof. intros E. unfold overlap, ip. apply sumL_ext. intros v. rewrite (conj_dense C B) by auto. reflexivity. Qed.
Lemma elements_ham terms A B C R : (forall n, B n = arr_conj (C n)) -> (forall n, shape (C n) = shape (A n)) ->
  sumL terms (element A B R) = ham (indices (ldims A None O R)) (total terms R) (dense A R) (dense C R).
Proof.
  intros E S. unfold element, ham. assert (L : ldims B None O R = ldims A None O R) by (apply ldims_agree; intros n _; rewrite E; cbn [arr_conj shape]; auto).
  rewrite sumL_swap. apply sumL_ext. intros v. rewrite L, sumL_swap. apply sumL_ext. intros w. unfold total. rewrite sumL_scal_l, (conj_dense C B) by auto. reflexivity.
Qed.
Lemma conj_conj (x : arr K) : arr_conj (arr_conj x) = x.
Proof. destruct x as [sh d]. unfold arr_conj. cbn [shape data]. f_equal. rewrite map_map. rewrite <- map_id. apply map_ext. apply rconj_invol. Qed.
Lemma varied_conj A t (x : arr K) n : varied A t (arr_conj x) n = arr_conj (exchanged A t x n).
Proof. unfold varied, exchanged. destruct (n =? t)%nat; reflexivity. Qed.

(** ** The derivatives of the direct scheme *)
Section Net.
Variable h0 : heap K.
Variable r : id.
Variable ks0 : list kid.
Variable A : id -> arr K.
Notation R := (Nd r ks0).
Variable fuel : nat.
Variable invert : option (arr K) -> nat -> res (arr K).
Variable terms : list (list (id * arr K)).
Hypothesis Can : canonical fuel h0 r ks0 A terms.
Variable icoef : K.
Variable e0 : option K.
Variable D : id -> arr K.
Hypothesis De : forall u, In u (nids R) -> derived K invert h0 r ks0 A terms icoef e0 u (D u).
Let l := indices (ldims A None O R).
Let m := total terms R.
Let psi := dense A R.
Let dot := dense_dot A D R.

Lemma D_shape u : In u (nids R) -> wf (D u) /\ shape (D u) = shape (A u).
Proof. intros Hu. destruct (De u Hu) as (W & S & _). auto. Qed.
Lemma rate_ip t x : In t (nids R) -> shape x = shape (A t) -> rate A D (varied A t (arr_conj x)) R = ip l dot (dense (exchanged A t x) R).
Proof.
  intros Ht Sx. unfold rate, dot, dense_dot. rewrite ip_sum_l. apply sumL_ext_in. intros u Hu.
  rewrite (overlap_ip _ _ (exchanged A t x)) by (intros; apply varied_conj). unfold l. rewrite exchanged_ldims by (apply D_shape; auto). reflexivity.
Qed.
Lemma frenkel t x : In t (nids R) -> inverts invert h0 A R t -> allowed h0 A t (arr_conj x) ->
  ip l dot (dense (exchanged A t x) R) = icoef * ham l m psi (dense (exchanged A t x) R) - shift e0 * ip l psi (dense (exchanged A t x) R).
Proof.
  intros Ht Iv Al. assert (Sx : shape x = shape (A t)) by (destruct Al as (_ & S & _); exact S).
  rewrite <- (rate_ip t x Ht Sx). rewrite (rate_alone K h0 r ks0 A fuel invert terms Can icoef e0 D t _ Ht De Al).
  rewrite (derived_overlap K h0 r ks0 A fuel invert terms Can icoef e0 t (D t) _ Ht (De t Ht) Iv Al).
  rewrite (elements_ham terms A _ (exchanged A t x)); [|intros; apply varied_conj|intros n; apply exchanged_shape; auto].
  rewrite (overlap_ip A _ (exchanged A t x)) by (intros; apply varied_conj). reflexivity.
Qed.
Lemma frenkel_self : ip l dot psi = icoef * ham l m psi psi - shift e0 * ip l psi psi.
Proof.
  destruct (can_parts K h0 r ks0 A fuel terms Can) as (H & ND & F & Hf & DO & Or & Ar & Lx & U & Su).
  assert (Hr : In r (nids R)) by (left; auto). pose proof (r_axis K h0 r ks0 Or) as Ra.
  assert (E : forall v, psi v = dense (exchanged A r (A r)) R v).
  { intros v. unfold psi, dense. apply amp_arrays. intros n. unfold exchanged. destruct (Nat.eqb_spec n r) as [->|]; auto. }
  assert (X := frenkel r (A r) Hr).
  assert (Iv : inverts invert h0 A R r) by (intros ax rho q Ea; congruence).
  assert (Al : allowed h0 A r (arr_conj (A r))).
  { split; [apply wf_conj; apply (fits_wf K A R None O F r Hr)|]. split; [reflexivity|]. intros ax p q Ea. congruence. }
  specialize (X Iv Al).
  assert (I1 : forall a, ip l a psi = ip l a (dense (exchanged A r (A r)) R)) by (intros a; unfold ip; apply sumL_ext; intros v; rewrite E; reflexivity).
  assert (I2 : ham l m psi psi = ham l m psi (dense (exchanged A r (A r)) R)) by (unfold ham; apply sumL_ext; intros v; apply sumL_ext; intros w; rewrite (E w); reflexivity).
  rewrite !I1, I2. exact X.
Qed.
Lemma crossed_conj (f a : arr K) ax p q : shape f = shape a -> crossed (arr_conj f) a ax p q = rconj (crossed (arr_conj a) f ax q p).
Proof. intros S. unfold crossed. rewrite rconj_sumL, S. apply sumL_ext. intros x. rewrite rconj_mul, !get_conj, rconj_invol. ring. Qed.
Lemma frenkel_dot : (forall t, In t (nids R) -> inverts invert h0 A R t) -> ip l dot dot = icoef * ham l m psi dot - shift e0 * ip l psi dot.
Proof.
  intros Iv. unfold dot at 2 3 4. unfold dense_dot. rewrite !ip_sum, ham_sum, <- !sumL_scal_l, <- sumL_sub.
  apply sumL_ext_in. intros u Hu. destruct (D_shape u Hu) as (WD & SD). apply frenkel; auto.
  split; [apply wf_conj; auto|]. split; [exact SD|]. intros ax p q Ea Hp Hq. rewrite crossed_conj by auto.
  rewrite (derived_gauged K h0 r ks0 A fuel invert terms Can icoef e0 u (D u) Hu (De u Hu) ax q p Ea Hq Hp). apply rconj_0.
Qed.

(** Norm and expectation value along the step. *)
Lemma norm_starts : starts (fun eps => norm2 (moved A D eps) R) (ip l psi psi) (ip l dot psi + rconj (ip l dot psi)).
Proof.
  destruct (can_parts K h0 r ks0 A fuel terms Can) as (H & ND & F & _).
  apply (starts_ext _ (fun eps => ip l (dense (moved A D eps) R) (dense (moved A D eps) R))).
  - intros eps _. unfold norm2. rewrite moved_ldims. reflexivity.
  - rewrite ip_conj. apply ip_starts. intros v. apply dense_starts; auto; [apply (nids_nodup r ks0 ND)|].
    intros n Hn. destruct (D_shape n Hn). split; auto. apply (fits_wf K A R None O F n Hn).
Qed.
Lemma energy_starts : starts (fun eps => expectation terms (moved A D eps) R) (ham l m psi psi) (ham l m dot psi + ham l m psi dot).
Proof.
  destruct (can_parts K h0 r ks0 A fuel terms Can) as (H & ND & F & _).
  apply (starts_ext _ (fun eps => ham l m (dense (moved A D eps) R) (dense (moved A D eps) R))).
  - intros eps _. unfold expectation. rewrite (elements_ham terms (moved A D eps) _ (moved A D eps)) by reflexivity. rewrite moved_ldims. reflexivity.
  - apply ham_starts. intros v. apply dense_starts; auto; [apply (nids_nodup r ks0 ND)|].
    intros n Hn. destruct (D_shape n Hn). split; auto. apply (fits_wf K A R None O F n Hn).
Qed.
End Net.
End Flow.
