(** Property C85: the hierarchy with the tiers of some modes on a grid. *)
From Coq Require Import List Arith Bool Lia Ring Reals Lra.
From Verif Require Import Py Alg Ord ListX Cplx NdArray_Model NdArray_Proof Mode_Proof Contract_Model Dvr_Model Heom_Model Heom_Spec Heom_Proof HeomGrid_Model HeomGrid_Spec HeomGrid_Proof HeomGrid2_Proof HeomGrid3_Proof.
Import ListNotations.
Local Open Scope nat_scope.
Add Ring KrC : (r_theory C_star).

Notation extended dims d a := (wf a /\ shape a = dims ++ [d; d]).
Notation entry l k := (nth k l (r0 : C_star)).
(** Square roots of the integers, as [np.sqrt(np.arange(dim))] *)
Definition roots (n : nat) : C_star := RtoC (sqrt (INR n)).
(** The terms of the code *)
Notation terms_of dims h op der coeff ccoeff scale iscale basis := (diff_g C_star C_i roots isq2_C half_C fk_C ifk_C dims h op der coeff ccoeff scale iscale basis).

(** A grid for [p] points: all matrices are p by p, and the object has an [eig_mat] with p rows. *)
Definition a_grid (p : nat) (g : grid C_star) : Prop :=
  g_num g = p /\ is_matrix (g_q g) p p /\ is_matrix (g_dq g) p p /\ is_matrix (g_dq2 g) p p /\ exists e q, g_eig g = Some e /\ shape e = [p; q].
(** The entries of [basis] fit the tiers, and where there is a grid the mean of the two coefficients has a positive real part. *)
Definition modes (dims : list nat) (coeff ccoeff : list C_star) (basis : list (option (grid C_star))) : Prop :=
  length basis = length dims /\ length coeff = length dims /\ length ccoeff = length dims /\
  forall k g, nth_error basis k = Some (Some g) -> a_grid (nth k dims 0) g /\ (0 < fst (entry coeff k) + fst (entry ccoeff k))%R.
(** The weight f of a mode: the given scale for numbered tiers; on a grid the positive square root of Re (c + c') / 2. *)
Definition weight (scale c c' : C_star) (b : option (grid C_star)) (f : C_star) : Prop :=
  match b with None => f = scale | Some _ => rmul f f = RtoC ((fst c + fst c') / 2) /\ (0 <= fst f)%R end.
(** The operators of a mode *)
Definition operators (b : option (grid C_star)) : ladder C_star :=
  match b with None => numbered roots | Some g => coordinate (RtoC (/ sqrt 2)) (RtoC (/ 2)) (mat (g_q g)) (mat (g_dq g)) (mat (g_dq2 g)) end.

Lemma weight_is dims coeff ccoeff basis scale iscale f f' k : modes dims coeff ccoeff basis -> rmul scale iscale = r1 -> k < length dims ->
  weight scale (entry coeff k) (entry ccoeff k) (nth k basis None) (f k) -> rmul (f k) (f' k) = r1 ->
  f_at C_star fk_C coeff ccoeff scale basis k = f k /\ f_at' C_star ifk_C coeff ccoeff iscale basis k = f' k.
Proof.
  intros (Lb & Lc & Lcc & Hm) Hs Hk W I. unfold f_at, f_at', kind_at. destruct (nth k basis None) as [g|] eqn:E; cbn [weight] in W.
  - destruct (Hm k g) as (_ & Hp). { rewrite <- E. apply nth_error_nth'. lia. }
    assert (F : f k = fk_C (entry coeff k) (entry ccoeff k)). { apply root_unique; try apply W. lra. }
    split; [auto|]. apply (inverse_unique (f k)); [|exact I]. rewrite F. apply fk_inv. exact Hp.
  - split; [auto|]. apply (inverse_unique (f k)); [|exact I]. rewrite W. exact Hs.
Qed.

(** The terms, applied to any extended density, give the hierarchy with the operators of each mode's own kind; the given matrices act from the
    right, their transposes from the left. *)
Theorem C85_terms :
  forall dims d (h op : arr C_star) (der coeff ccoeff : list C_star) scale iscale basis,
    shape h = [d; d] -> shape op = [d; d] -> length der = length dims -> modes dims coeff ccoeff basis -> rmul scale iscale = r1 ->
    exists terms, terms_of dims h op der coeff ccoeff scale iscale basis = Ok terms /\
    forall a, extended dims d a ->
    exists b, apply_terms terms a = Ok b /\ extended dims d b /\
    forall f f', (forall k, k < length dims -> weight scale (entry coeff k) (entry ccoeff k) (nth k basis None) (f k) /\ rmul (f k) (f' k) = r1) ->
    forall n i j, in_range n dims -> i < d -> j < d ->
      get b (n ++ [i; j]) = ladder_rhs C_i d dims (tr (mat h)) (mat h) (tr (mat op)) (mat op) (fun k => operators (nth k basis None))
        (fun k => entry der k) (fun k => entry coeff k) (fun k => entry ccoeff k) f f' (tiers dims a) n i j.
Proof.
  intros dims d h op der coeff ccoeff scale iscale basis Hh Hop Lg Hm Hs. pose proof Hm as (Lb & Lc & Lcc & Hg).
  assert (Hb : basis_fits C_star dims basis) by (split; [auto|intros k g E; apply (Hg k g E)]).
  destruct (grid_terms_ok C_star dims d C_i roots isq2_C half_C fk_C ifk_C h op Hh Hop der coeff ccoeff scale iscale Lg Lc Lcc basis Hb) as (l & El & H).
  exists l. split; [exact El|]. intros a Ra. destruct (H a Ra) as (b & Eb & Rb & Gb). exists b. split; [exact Eb|]. split; [exact Rb|].
    intros f f' HF n i j Hn Hi Hj. rewrite Gb by auto. apply ladder_ext; auto. intros k Hk. destruct (HF k Hk) as (W & I).
    split; [reflexivity|]. apply (weight_is dims coeff ccoeff basis scale iscale f f' k); auto.
Qed.
Print Assumptions C85_terms.

(** If a matrix E takes the operators of one representation of a mode to those of another, and the weight of the mode is the same, it takes the derivative to the derivative. *)
Theorem C85_transform :
  forall dims d (h op : arr C_star) (der coeff ccoeff : list C_star) scale iscale basis k p' bk' E fk f' terms terms',
    shape h = [d; d] -> shape op = [d; d] -> length der = length dims -> rmul scale iscale = r1 -> k < length dims ->
    modes dims coeff ccoeff basis -> modes (upd k p' dims) coeff ccoeff (upd k bk' basis) ->
    intertwines (nth k dims 0) p' E (operators (nth k basis None)) (operators bk') ->
    weight scale (entry coeff k) (entry ccoeff k) (nth k basis None) fk -> weight scale (entry coeff k) (entry ccoeff k) bk' fk -> rmul fk f' = r1 ->
    terms_of dims h op der coeff ccoeff scale iscale basis = Ok terms ->
    terms_of (upd k p' dims) h op der coeff ccoeff scale iscale (upd k bk' basis) = Ok terms' ->
    forall a a' b b', extended dims d a -> extended (upd k p' dims) d a' -> apply_terms terms a = Ok b -> apply_terms terms' a' = Ok b' ->
    let taken x x' := forall n i j, in_range n (upd k p' dims) -> i < d -> j < d ->
      get x' (n ++ [i; j]) = sumn (nth k dims 0) (fun y => rmul (E (nth k n 0) y) (get x (upd k y n ++ [i; j]))) in
    taken a a' -> taken b b'.
Proof.
  intros dims d h op der coeff ccoeff scale iscale basis k p' bk' E fk f' terms terms' Hh Hop Lg Hs Hk Hm Hm' HE W W' I Et Et' a a' b b' Ra Ra' Eb Eb' taken Ha.
  pose proof Hm as (Lb & _). pose proof Hm' as (Lb' & _). rewrite length_upd in Lb'.
  assert (LD : length (upd k p' dims) = length dims) by apply length_upd.
  destruct (C85_terms dims d h op der coeff ccoeff scale iscale basis Hh Hop Lg Hm Hs) as (t1 & E1 & H1). rewrite E1 in Et. injection Et as ->.
  destruct (C85_terms (upd k p' dims) d h op der coeff ccoeff scale iscale (upd k bk' basis) Hh Hop) as (t2 & E2 & H2); auto. { now rewrite LD. } rewrite E2 in Et'. injection Et' as ->.
  destruct (H1 a Ra) as (b1 & Eb1 & Rb & Gb). rewrite Eb1 in Eb. injection Eb as ->. destruct (H2 a' Ra') as (b2 & Eb2 & Rb' & Gb'). rewrite Eb2 in Eb'. injection Eb' as ->.
  set (F := fun l => match nth l basis None with None => scale | Some _ => fk_C (entry coeff l) (entry ccoeff l) end).
  set (F' := fun l => match nth l basis None with None => iscale | Some _ => ifk_C (entry coeff l) (entry ccoeff l) end).
  assert (HF : forall l, l < length dims -> weight scale (entry coeff l) (entry ccoeff l) (nth l basis None) (F l) /\ rmul (F l) (F' l) = r1).
  { intros l Hl. destruct Hm as (_ & _ & _ & Hg). unfold F, F'. destruct (nth l basis None) as [g|] eqn:En; cbn [weight]; [|split; auto].
    destruct (Hg l g) as (_ & P). { rewrite <- En. apply nth_error_nth'. lia. } split; [|apply fk_inv; auto]. unfold fk_C. split; [|apply sqrt_pos].
    rewrite <- RtoC_mul, sqrt_sqrt by lra. reflexivity. }
  assert (EF : F k = fk /\ F' k = f').
  { destruct (HF k Hk) as (A & B). destruct (weight_is dims coeff ccoeff basis scale iscale F F' k) as (X & Y); auto.
    destruct (weight_is dims coeff ccoeff basis scale iscale (fun _ => fk) (fun _ => f') k) as (X' & Y'); auto; split; congruence. }
  assert (HF' : forall l, l < length (upd k p' dims) -> weight scale (entry coeff l) (entry ccoeff l) (nth l (upd k bk' basis) None) (F l) /\ rmul (F l) (F' l) = r1).
  { rewrite LD. intros l Hl. destruct (Nat.eq_dec l k) as [->|N].
    - rewrite nth_upd_eq by lia. destruct EF as (-> & ->). split; auto.
    - rewrite nth_upd_neq by auto. apply HF. exact Hl. }
  intros n i j Hn Hi Hj. rewrite (Gb' F F' HF') by auto.
  assert (U : forall n0 y, in_range n0 (upd k p' dims) -> y < nth k dims 0 -> in_range (upd k y n0) dims).
  { intros n0 y Hn0 Hy. apply (in_range_upd_back k y p'); auto. }
  rewrite (ladder_ext C_star C_i d (upd k p' dims) _ _ _ _ _ (fun l => operators (nth l (upd k bk' basis) None)) _ _ _ F F' F F' _ (on_axis (nth k dims 0) E k (tiers dims a)) n i j); auto.
  - rewrite (change_axis C_star C_i d _ _ _ _ _ _ _ F F' dims p' k (fun l => operators (nth l basis None)) (fun l => operators (nth l (upd k bk' basis) None)) E (tiers dims a) n i j); auto.
    + unfold on_axis. apply sumn_ext. intros y Hy. rewrite (Gb F F' HF) by auto. reflexivity.
    + intros l Hl N. rewrite nth_upd_neq by auto. reflexivity.
    + rewrite nth_upd_eq by lia. exact HE.
  - intros n0 i0 j0 Hn0 Hi0 Hj0. rewrite tiers_in by exact Hn0. rewrite Ha by auto. unfold on_axis. apply sumn_ext. intros y Hy.
    rewrite tiers_in by auto. reflexivity.
Qed.
Print Assumptions C85_transform.

Definition symmetric_matrix (d : nat) (a : arr C_star) := forall i j, i < d -> j < d -> get a [i; j] = get a [j; i].

(** A weighted sum of the traces of the tiers is conserved, when no mode's U and N reach it: w U_k = 0 and w N_k = 0 on every axis.  With numbered tiers only, w picks
    the tier 0. *)
Theorem C85_trace :
  forall dims d (h op : arr C_star) (der coeff ccoeff : list C_star) scale iscale basis (w : list nat -> C_star) terms a b,
    shape h = [d; d] -> shape op = [d; d] -> symmetric_matrix d h -> symmetric_matrix d op ->
    length der = length dims -> modes dims coeff ccoeff basis -> rmul scale iscale = r1 ->
    terms_of dims h op der coeff ccoeff scale iscale basis = Ok terms -> extended dims d a -> apply_terms terms a = Ok b ->
    (forall k n, k < length dims -> in_range n dims -> let o := operators (nth k basis None) in
       sumn (nth k dims 0) (fun x => rmul (w (upd k x n)) (l_up o x (nth k n 0))) = r0 /\
       sumn (nth k dims 0) (fun x => rmul (w (upd k x n)) (l_number o x (nth k n 0))) = r0) ->
    sumL (indices dims) (fun n => rmul (w n) (sumn d (fun i => get b (n ++ [i; i])))) = r0.
Proof.
  intros dims d h op der coeff ccoeff scale iscale basis w terms a b Hh Hop Sh So Lg Hm Hs Et Ra Eb Hw.
  destruct (C85_terms dims d h op der coeff ccoeff scale iscale basis Hh Hop Lg Hm Hs) as (t1 & E1 & H1). rewrite E1 in Et. injection Et as ->.
  destruct (H1 a Ra) as (b1 & Eb1 & Rb & Gb). rewrite Eb1 in Eb. injection Eb as ->.
  set (F := fun l => match nth l basis None with None => scale | Some _ => fk_C (entry coeff l) (entry ccoeff l) end).
  set (F' := fun l => match nth l basis None with None => iscale | Some _ => ifk_C (entry coeff l) (entry ccoeff l) end).
  assert (HF : forall l, l < length dims -> weight scale (entry coeff l) (entry ccoeff l) (nth l basis None) (F l) /\ rmul (F l) (F' l) = r1).
  { intros l Hl. destruct Hm as (Lb & _ & _ & Hg). unfold F, F'. destruct (nth l basis None) as [g|] eqn:En; cbn [weight]; [|split; auto].
    destruct (Hg l g) as (_ & P). { rewrite <- En. apply nth_error_nth'. lia. } split; [|apply fk_inv; auto]. unfold fk_C. split; [|apply sqrt_pos].
    rewrite <- RtoC_mul, sqrt_sqrt by lra. reflexivity. }
  etransitivity; [|apply (weighted_trace C_star C_i d dims (mat h) (mat op) (fun k => operators (nth k basis None)) (fun k => entry der k) (fun k => entry coeff k) (fun k => entry ccoeff k) F F' (tiers dims a) w)].
  - apply sumL_ext_in. intros n Hn. apply in_indices in Hn. f_equal. apply sumn_ext. intros i Hi. rewrite (Gb F F' HF) by auto.
    apply ladder_sym; auto; intros x y Hx Hy; unfold tr, mat; [apply Sh|apply So]; auto.
  - intros k n Hk Hn. apply (Hw k n Hk Hn).
  - intros k n Hk Hn. apply (Hw k n Hk Hn).
Qed.
Print Assumptions C85_trace.

(** A grid of the sine basis to which an [eig_mat] was attached: U is the transpose of D, and N is symmetric. *)
Theorem C85_sine : forall a b n e, (exists q, shape e = [n; q]) ->
  exists g, sine_grid a b n (Some e) = Ok g /\ a_grid n g /\
  forall x y, x < n -> y < n -> let o := operators (Some g) in l_up o x y = l_down o y x /\ l_number o x y = l_number o y x.
Proof.
  intros a b n e (q & He). destruct (sine_ok a b n (Some e)) as (g & Eg & (G1 & G2 & G3 & G4 & G5) & H). exists g. split; [exact Eg|].
  split. { split; [exact G1|]. split; [exact G2|]. split; [exact G3|]. split; [exact G4|]. exists e, q. auto. }
  intros x y Hx Hy. cbv zeta. cbn [operators coordinate l_up l_down l_number]. destruct (H x y Hx Hy) as (Q & D & D2). destruct (H y x Hy Hx) as (Q' & _).
  assert (QQ : mat (g_q g) x y = mat (g_q g) y x). { rewrite Q, Q', (Nat.eqb_sym y x). destruct (x =? y) eqn:E; auto. apply Nat.eqb_eq in E. subst y. reflexivity. }
  rewrite QQ, D, D2, (Nat.eqb_sym y x). split; ring.
Qed.
Print Assumptions C85_sine.

(** The class itself has no [eig_mat]: with such a grid for the first mode, the terms cannot be made. *)
Theorem C85_sine_refuted : forall a b n p dims (h op : arr C_star) x der c coeff c' ccoeff scale iscale basis,
  exists g, sine_grid a b n None = Ok g /\
  terms_of (p :: dims) h op (x :: der) (c :: coeff) (c' :: ccoeff) scale iscale (Some g :: basis) = Raise AttributeError.
Proof.
  intros. destruct (sine_ok a b n None) as (g & Eg & (G1 & G2 & G3 & G4 & G5) & _). exists g. split; [exact Eg|].
  unfold diff_g. cbn [length seq map_res]. unfold diff_kg at 1. unfold item. cbn [nth_error bind].
  destruct (squares_mat C_star n _ G2) as (Ms & _). destruct (eye_mat C_star n) as (Me & _). unfold numberer_g.
  destruct (diffr_ok C_star n _ _ Ms G4) as (A & EA & MA & _). rewrite EA. cbn [bind]. rewrite G1. destruct (diffr_ok C_star n _ _ MA Me) as (B & EB & MB & _). rewrite EB. cbn [bind].
  unfold shown. rewrite G5. reflexivity.
Qed.
Print Assumptions C85_sine_refuted.

(** On a grid, with the coordinate diagonal, D U - U D has no diagonal: never the identity. *)
Theorem C85_commutator_refuted : forall p (q dq dq2 : nat -> nat -> C_star) x, x < p ->
  (forall y z, y < p -> z < p -> y <> z -> q y z = r0) ->
  let o := coordinate (RtoC (/ sqrt 2)) (RtoC (/ 2)) q dq dq2 in
  rsub (sumn p (fun z => rmul (l_down o x z) (l_up o z x))) (sumn p (fun z => rmul (l_up o x z) (l_down o z x))) <> r1.
Proof.
  intros p q dq dq2 x Hx Hq o.
  assert (Z : sumn p (fun z => rmul (l_down o x z) (l_up o z x)) = sumn p (fun z => rmul (l_up o x z) (l_down o z x))).
  { apply sumn_ext. intros z Hz. unfold o. cbn [coordinate l_up l_down]. destruct (Nat.eq_dec x z) as [->|N]; [ring|]. rewrite !Hq by auto. ring. }
  rewrite Z. intros E. apply C_nontrivial. rewrite <- E. ring.
Qed.
Print Assumptions C85_commutator_refuted.

(** Two tiers of one mode, and two points on a grid: q = diag(1, -1)/sqrt 2, d = [[0, -1], [1, 0]]/sqrt 2, d^2 = [[-3/2, 1], [1, -3/2]] are the numbered operators, seen
    through [[1, 1], [1, -1]]/sqrt 2. *)
Definition root2 : C_star := RtoC (/ sqrt 2).
Definition matrix2 (x y z t : C_star) : arr C_star := mkArr [2; 2] [x; y; z; t].
Definition two_points : grid C_star := mkGrid 2 (matrix2 root2 r0 r0 (ropp root2)) (matrix2 r0 (ropp root2) root2 r0)
  (matrix2 (RtoC (-3/2)) r1 r1 (RtoC (-3/2))) (Some (matrix2 root2 root2 root2 (ropp root2))).
Lemma root2_sq : rmul root2 root2 = RtoC (/ 2).
Proof. unfold root2. rewrite <- RtoC_mul. f_equal. rewrite <- Rinv_mult_distr by (apply Rgt_not_eq, sqrt_lt_R0; lra). rewrite sqrt_sqrt by lra. reflexivity. Qed.
Example C85_example_points : intertwines 2 2 (mat (matrix2 root2 root2 root2 (ropp root2))) (operators None) (operators (Some two_points)) /\
  a_grid 2 two_points /\
  exists terms, terms_of [2] (matrix2 r0 r1 r1 r0) (matrix2 r1 r0 r0 (ropp r1)) [RtoC (-1)] [RtoC 1] [RtoC 1] r1 r1 [Some two_points] = Ok terms /\ length terms = 5.
Proof.
  assert (A : a_grid 2 two_points).
  { split; [reflexivity|]. do 3 (split; [split; reflexivity|]). exists (matrix2 root2 root2 root2 (ropp root2)), 2. split; reflexivity. }
  split; [|split; [exact A|]].
  - assert (H2 : (/ sqrt 2 * / sqrt 2 = / 2)%R). { pose proof root2_sq as E. unfold root2 in E. rewrite <- RtoC_mul in E. apply RtoC_inj in E. exact E. }
    assert (H1 : sqrt 1 = 1%R) by apply sqrt_1.
    intros x y Hx Hy. assert (Cx : x = 0 \/ x = 1) by lia. assert (Cy : y = 0 \/ y = 1) by lia.
    destruct Cx as [-> | ->]; destruct Cy as [-> | ->]; cbv zeta; (split; [|split]); apply Ceq; lazy -[Rplus Rmult Ropp Rminus Rinv IZR sqrt];
      rewrite ?H1; set (s := (/ sqrt 2)%R) in *; assert (H3 : (s * s * s = s * / 2)%R) by (rewrite H2; ring); lra.
  - destruct (C85_terms [2] 2 (matrix2 r0 r1 r1 r0) (matrix2 r1 r0 r0 (ropp r1)) [RtoC (-1)] [RtoC 1] [RtoC 1] r1 r1 [Some two_points]) as (t & E & _); auto.
    + split; [reflexivity|]. split; [reflexivity|]. split; [reflexivity|]. intros [|[|k]] g E; try discriminate. injection E as <-. split; [exact A|]. cbn. lra.
    + ring.
    + exists t. split; [exact E|]. revert E. unfold diff_g. cbn [length seq map_res]. destruct (diff_kg _ _ _ _ _ _ _ _ _ _ _ _ _ _ _ 0) as [l|] eqn:El; [|discriminate].
      cbn [bind]. intros E. injection E as <-. cbn [concat app length]. rewrite app_nil_r.
      enough (length l = 3) by lia. revert El. unfold diff_kg, item. cbn [nth_error bind].
      destruct (numberer_g _ _ _) as [N|]; [|discriminate]. destruct (raiser_g _ _ _) as [U|]; [|discriminate]. destruct (lower_g _ _ _) as [D|]; [|discriminate]. cbn [bind].
      destruct (arr_add _ _) as [m1|]; [|discriminate]. cbn [bind]. intros E. injection E as <-. reflexivity.
Qed.
(** The weights of the two points with [w U = 0] and [w N = 0] are the columns of the lowest tier: (1, 1). *)
Example C85_example_weights : forall (w : list nat -> C_star), w [0] = r1 -> w [1] = r1 -> forall n, in_range n [2] -> let o := operators (Some two_points) in
  sumn 2 (fun x => rmul (w (upd 0 x n)) (l_up o x (nth 0 n 0))) = r0 /\ sumn 2 (fun x => rmul (w (upd 0 x n)) (l_number o x (nth 0 n 0))) = r0.
Proof.
  intros w W0 W1 n Hn. assert (C : n = [0] \/ n = [1]).
  { inversion Hn as [|x y l l' Hx Hl]; subst. inversion Hl; subst. assert (X : x = 0 \/ x = 1) by lia. destruct X as [-> | ->]; auto. }
  assert (H2 : (/ sqrt 2 * / sqrt 2 = / 2)%R). { pose proof root2_sq as E. unfold root2 in E. rewrite <- RtoC_mul in E. apply RtoC_inj in E. exact E. }
  cbv zeta. destruct C as [-> | ->]; (rewrite !(sumn_S C_star 1), !(sumn_S C_star 0)); change (upd 0 0 [_]) with [0] ; change (upd 0 1 [_]) with [1]; rewrite W0, W1; split; apply Ceq; lazy -[Rplus Rmult Ropp Rminus Rinv IZR sqrt]; set (s := (/ sqrt 2)%R) in *; lra.
Qed.
